(** * Runs that fork have nested joins; used in the examples. *)
From Verif Require Export Examples ParSpec.

Lemma forks_join_depth {T Q R S A} (o : S → Q → R * S) (p : prog T Q R A) s (l : list T) :
  forks o p s l = true → 1 ≤ join_depth o p s l.
Proof.
  revert s l.
  induction p as [A a|A e|A i k IH|A i x k IH|A q k IH|A B C p1 IH1 p2 IH2 k IH| |];
    intros s l; simpl; try done.
  - destruct (l !! i); [apply IH|done].
  - destruct (decide _); [apply IH|done].
  - destruct (o s q). apply IH.
  - intros _. destruct (run o p1 s l) as [[r1 s1] l1], (run o p2 s1 l1) as [[r2 s2] l2]. lia.
Qed.
