(** * TAlikeTop: sorting by a key moves the elements as sorting moves the keys. *)
From stdpp Require Import list.
From Verif Require Export TAlikePar Closures.

Section top.
  Context {T K A : Type} (f : T → K) (lt : K → K → bool).

  Lemma keys_run (p : cmp_prog T A) (p' : cmp_prog K A) l :
    alike (λ x k, k = f x) (pair_alike (λ x k, k = f x) (λ x k, k = f x)) eq eq p p' →
    let '(r, _, l1) := run (pure_key f lt) (by_key p) tt l in
    let '(r', _, l2) := run (pure_less lt) p' tt (map f l) in
    r' = r ∧ l2 = map f l1.
  Proof.
    intros Hp. rewrite run_by_pure_key.
    pose proof (alike_run (λ x k, k = f x) (pair_alike (λ x k, k = f x) (λ x k, k = f x)) eq eq eq (pure_less (λ a b, lt (f a) (f b))) (pure_less lt)
      p p' tt tt l (map f l)) as H.
    destruct H as (Hr & _ & Hl).
    { intros [] [] [a b] [a' b'] _ [Ha Hb]. simpl in *. by subst. }
    { done. }
    { done. }
    { clear. induction l; simpl; auto. }
    destruct (run (pure_less _) p tt l) as [[r []] l1], (run (pure_less lt) p' tt (map f l)) as [[r' []] l2].
    simpl in *. split.
    - by destruct r, r'; simpl in *; subst.
    - induction Hl; simpl; congruence.
  Qed.
End top.
