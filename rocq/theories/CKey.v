(** * The key variants call the key function twice per comparison. *)
From Verif Require Export CMerge CQuick CSelect CParSort TCompose.
From stdpp Require Import list.

(** Number of calls of the key function in a log; the other entries are
    comparisons of keys. *)
Fixpoint key_calls {T K} (tr : list (key_question (T:=T) K * key_answer K)) : nat :=
  match tr with
  | [] => 0
  | (KeyOf _, _) :: tr => S (key_calls tr)
  | (KeyLt _ _, _) :: tr => key_calls tr
  end.
Lemma key_calls_app {T K} (tr1 tr2 : list (key_question (T:=T) K * key_answer K)) :
  key_calls (tr1 ++ tr2) = key_calls tr1 + key_calls tr2.
Proof. induction tr1 as [|[[] ?] tr1 IH]; simpl; by rewrite ?IH. Qed.

(** [o] answers by the key function [f] and the order [ltk] of the keys, or panics. *)
Definition answers_as_key {T K S} (f : T → K) (ltk : K → K → bool)
    (o : S → key_question K → key_answer K * S) : Prop :=
  (∀ s a k, (o s (KeyOf a)).1 = AKey k → k = f a) ∧
  (∀ s k1 k2 b, (o s (KeyLt k1 k2)).1 = ABool b → b = ltk k1 k2).

Section key.
  Context {T K S : Type} (o : S → key_question (T:=T) K → key_answer K * S).
  Implicit Types (l : list T).

  (** The run of the [_by_key] variant and that of the [_by] variant. *)
  Lemma by_key_calls {A} (p : cmp_prog T A) : ∀ s trk trc l,
    let '(r, (s', trk'), l') := run (logged o) (by_key p) (s, trk) l in
    let '(r2, (s2, trc'), l2) := run (logged (compare_of_key o)) (by_compare p) (s, trc) l in
    r = r2 ∧ s' = s2 ∧ l' = l2 ∧
    key_calls trk' + 2 * length trc ≤ key_calls trk + 2 * length trc' ∧
    length trk' + 3 * length trc ≤ length trk + 3 * length trc' ∧
    length trc ≤ length trc'.
  Proof.
    intros s trk trc l. rewrite run_by_key, run_by_compare. revert s trk trc l.
    induction p as [A a|A e|A i k IH|A i x k IH|A q k IH|A B C p1 IH1 p2 IH2 k IH| |];
      intros s trk trc l; simpl; try (repeat split; lia).
    - destruct (l !! i); [apply IH|]. repeat split; lia.
    - destruct (decide _); [apply IH|]. repeat split; lia.
    - destruct q as [a b].
      assert (∃ r s' tr, less_of_key (logged o) (s, trk) (a, b) = (r, (s', trk ++ tr)) ∧
        less_of_compare (logged (compare_of_key o)) (s, trc) (a, b) =
          (r, (s', trc ++ [((a, b), (compare_of_key o s (a, b)).1)])) ∧
        key_calls tr ≤ 2 ∧ length tr ≤ 3) as (r & s' & tr & -> & -> & H1 & H2).
      { unfold less_of_compare. simpl.
        destruct (o s (KeyOf a)) as [[ka| |] s1]; simpl.
        - destruct (o s1 (KeyOf b)) as [[kb| |] s2]; simpl.
          + destruct (o s2 (KeyLt ka kb)) as [[?|[]|] s3]; simpl;
              do 2 eexists; eexists [_; _; _]; rewrite <-!app_assoc; simpl; repeat split; lia.
          + do 2 eexists; eexists [_; _]; rewrite <-!app_assoc; simpl; repeat split; lia.
          + do 2 eexists; eexists [_; _]; rewrite <-!app_assoc; simpl; repeat split; lia.
        - do 2 eexists; eexists [_]; simpl; repeat split; lia.
        - do 2 eexists; eexists [_]; simpl; repeat split; lia. }
      specialize (IH r s' (trk ++ tr) (trc ++ [((a, b), (compare_of_key o s (a, b)).1)]) l).
      destruct (run _ (k r) _ _) as [[r1 [s1 t1]] l1], (run _ (k r) _ _) as [[r2 [s2 t2]] l2].
      rewrite key_calls_app, !app_length in IH. simpl in IH.
      destruct IH as (? & ? & ? & ? & ? & ?). repeat split; try done; lia.
    - specialize (IH1 s trk trc l).
      destruct (run (less_of_key _) p1 _ _) as [[r1 [s1 t1]] l1], (run (less_of_compare _) p1 _ _) as [[r1' [s1' t1']] l1'].
      destruct IH1 as (-> & -> & -> & ? & ? & ?).
      destruct r1' as [x|e| |]; try (by repeat split; try done; lia).
      all: specialize (IH2 s1' t1 t1' l1');
        destruct (run (less_of_key _) p2 _ _) as [[r2 [s2 t2]] l2],
          (run (less_of_compare _) p2 _ _) as [[r2' [s2' t2']] l2'];
        destruct IH2 as (-> & -> & -> & ? & ? & ?);
        destruct r2' as [y|e2| |]; try (by repeat split; try done; lia).
      all: lazymatch goal with |- context [run _ (_ ?u ?v) _ _] => specialize (IH u v s2' t2 t2' l2') end;
        destruct (run (less_of_key _) _ _ _) as [[r3 [s3 t3]] l3],
          (run (less_of_compare _) _ _ _) as [[r3' [s3' t3']] l3'];
        destruct IH as (-> & -> & -> & ? & ? & ?); repeat split; lia.
  Qed.

  Lemma by_key_bound {A} (p : cmp_prog T A) s l b :
    (let '(_, (_, tr), _) := run (logged (compare_of_key o)) (by_compare p) (s, []) l in length tr ≤ b) →
    let '(_, (_, tr), _) := run (logged o) (by_key p) (s, []) l in
    key_calls tr ≤ 2 * b ∧ length tr ≤ 3 * b.
  Proof.
    intros H. pose proof (by_key_calls p s [] [] l) as Hk.
    destruct (run _ (by_key p) _ _) as [[r1 [s1 t1]] l1], (run _ (by_compare p) _ _) as [[r2 [s2 t2]] l2].
    destruct Hk as (_ & _ & _ & ? & ? & _). simpl in *. lia.
  Qed.

  Lemma sort_by_key_cost c s l :
    let '(_, (_, tr), _) := run (logged o) (sort_by_key c (length l)) (s, []) l in
    key_calls tr ≤ 40 * length l * (Nat.log2 (length l) + 1) ∧
    length tr ≤ 60 * length l * (Nat.log2 (length l) + 1).
  Proof.
    pose proof (by_key_bound (stable_sort c (length l)) s l _ (sort_by_cost c (compare_of_key o) s l)) as H.
    unfold sort_by_key. destruct (run _ _ _ _) as [[r1 [s1 t1]] l1]. lia.
  Qed.

  Lemma compare_of_key_answers f ltk :
    answers_as_key f ltk o →
    answers_as (λ a b, if ltk (f a) (f b) then Lt else Gt) (compare_of_key o).
  Proof.
    intros [H1 H2] s [a b] r. simpl.
    pose proof (H1 s a) as Ha. destruct (o s (KeyOf a)) as [[ka| |] s1]; simpl in *; try done.
    pose proof (H1 s1 b) as Hb. destruct (o s1 (KeyOf b)) as [[kb| |] s2]; simpl in *; try done.
    pose proof (H2 s2 ka kb) as Hl. destruct (o s2 (KeyLt ka kb)) as [[|v|] s3]; simpl in *; try done.
    rewrite <-(Ha ka eq_refl), <-(Hb kb eq_refl), <-(Hl v eq_refl).
    destruct v; by intros [= <-].
  Qed.
  Lemma key_swo (f : T → K) (ltk : K → K → bool) :
    strict_weak_order (λ a b, ltk (f a) (f b)) →
    strict_weak_order (is_lt (λ a b, if ltk (f a) (f b) then Lt else Gt)).
  Proof.
    intros H. assert (∀ a b, is_lt (λ a b, if ltk (f a) (f b) then Lt else Gt) a b = ltk (f a) (f b)) as E.
    { intros a b. unfold is_lt. by destruct (ltk _ _). }
    destruct H as [H1 H2 H3]. split; intros *; rewrite !E; eauto.
  Qed.
  Lemma sort_unstable_by_key_cost c f ltk s l :
    strict_weak_order (λ a b, ltk (f a) (f b)) → answers_as_key f ltk o →
    let '(_, (_, tr), _) := run (logged o) (sort_unstable_by_key c (length l)) (s, []) l in
    key_calls tr ≤ 680 * length l * (Nat.log2 (length l) + 1) ∧
    length tr ≤ 1020 * length l * (Nat.log2 (length l) + 1).
  Proof.
    intros Hs Ho.
    pose proof (by_key_bound (quick_sort c (length l)) s l _
      (sort_unstable_by_cost c _ (compare_of_key o) s l (key_swo f ltk Hs) (compare_of_key_answers f ltk Ho))) as H.
    unfold sort_unstable_by_key. destruct (run _ _ _ _) as [[r1 [s1 t1]] l1]. lia.
  Qed.
  Lemma by_key_twice {A} (p : cmp_prog T A) s l :
    let '(r, (s', trk), l') := run (logged o) (by_key p) (s, []) l in
    let '(r2, (s2, trc), l2) := run (logged (compare_of_key o)) (by_compare p) (s, []) l in
    r = r2 ∧ s' = s2 ∧ l' = l2 ∧
    key_calls trk ≤ 2 * length trc ∧ length trk ≤ 3 * length trc.
  Proof.
    pose proof (by_key_calls p s [] [] l) as Hk.
    destruct (run _ (by_key p) _ _) as [[r1 [s1 t1]] l1], (run _ (by_compare p) _ _) as [[r2 [s2 t2]] l2].
    simpl in *. destruct Hk as (? & ? & ? & ? & ? & _). repeat split; try done; lia.
  Qed.
  Lemma sort_by_key_twice c (n : nat) s l :
    let '(r, (s', trk), l') := run (logged o) (sort_by_key c n) (s, []) l in
    let '(r2, (s2, trc), l2) := run (logged (compare_of_key o)) (sort_by c n) (s, []) l in
    r = r2 ∧ s' = s2 ∧ l' = l2 ∧
    key_calls trk ≤ 2 * length trc ∧ length trk ≤ 3 * length trc.
  Proof. apply by_key_twice. Qed.
  Lemma sort_unstable_by_key_twice c (n : nat) s l :
    let '(r, (s', trk), l') := run (logged o) (sort_unstable_by_key c n) (s, []) l in
    let '(r2, (s2, trc), l2) := run (logged (compare_of_key o)) (sort_unstable_by c n) (s, []) l in
    r = r2 ∧ s' = s2 ∧ l' = l2 ∧
    key_calls trk ≤ 2 * length trc ∧ length trk ≤ 3 * length trc.
  Proof. apply by_key_twice. Qed.
  Lemma select_nth_unstable_by_key_twice c (n index : nat) s l :
    let '(r, (s', trk), l') := run (logged o) (select_nth_unstable_by_key c n index) (s, []) l in
    let '(r2, (s2, trc), l2) := run (logged (compare_of_key o)) (select_nth_unstable_by c n index) (s, []) l in
    r = r2 ∧ s' = s2 ∧ l' = l2 ∧
    key_calls trk ≤ 2 * length trc ∧ length trk ≤ 3 * length trc.
  Proof. apply by_key_twice. Qed.
End key.

Local Transparent bind calls.
Local Arguments bind {T Q R A B} !p f.
Local Arguments calls {T Q R A} !p Ψ b.

Lemma calls_with_asks {T Q R Q' R' A} (h : Q → prog T Q' R' R) w (p : prog T Q R A) Ψ b :
  (∀ q, calls (h q) (λ _, True) w) → calls p Ψ b → calls (with_asks h p) Ψ (w * b).
Proof.
  intros Hh. revert Ψ b.
  induction p as [A a|A e|A i g IH|A i x g IH|A q g IH|A B' C p1 IH1 p2 IH2 g IH| |];
    intros Ψ b Hp; unfold with_asks; fold (@with_asks T Q R Q' R' h); cbn [calls] in *; auto.
  - destruct Hp as [Hb Hp]. eapply (calls_bind _ _ _ _ w (w * (b - 1))); [apply Hh| |].
    + intros r _. apply IH, Hp.
    + destruct b; [lia|]. replace (S b - 1) with b by lia. rewrite Nat.mul_succ_r. lia.
  - destruct Hp as (c1 & c2 & c3 & Ψ1 & Ψ2 & Hb & H1 & H2 & H3).
    exists (w * c1), (w * c2), (w * c3), Ψ1, Ψ2.
    split; [rewrite <-!Nat.mul_add_distr_l; by apply Nat.mul_le_mono_l|]. auto.
Qed.
Lemma calls_by_key {T K A} (p : cmp_prog T A) Ψ b : calls p Ψ b → calls (by_key (K:=K) p) Ψ (3 * b).
Proof.
  apply calls_with_asks. intros [x y]. simpl. split; [lia|]. intros [| |]; simpl; auto.
  split; [lia|]. intros [| |]; simpl; auto. split; [lia|]. intros [| |]; simpl; auto.
Qed.
Lemma par_sort_by_key_cost {T K} (c : cfg) take_item (ans : key_question K → key_answer K → Prop)
    (l junk : list T) m st :
  calls_made ans m (par_sort_by_key c take_item (length l), l ++ junk) st →
  m ≤ 60 * length l * (Nat.log2 (length l) + 1).
Proof.
  intros H. assert (m ≤ 3 * (20 * length l * (Nat.log2 (length l) + 1))); [|lia].
  revert H. apply calls_schedules with (Ψ := λ _, True). apply calls_by_key, par_sort_calls.
Qed.

Lemma select_by_key_cost (c : cfg) (M : nat) :
  ∃ C, ∀ (T K : Type) (f : T → K) (ltk : K → K → bool) (l : list T) (index : nat),
    strict_weak_order (λ a b, ltk (f a) (f b)) →
    (∀ x, In x l → length (List.filter
       (λ y, negb (ltk (f x) (f y)) && negb (ltk (f y) (f x))) l) ≤ M) →
    let '(_, (_, tr), _) :=
      run (logged (pure_key f ltk)) (select_nth_unstable_by_key c (length l) index) (tt, []) l in
    key_calls tr ≤ C * length l ∧ length tr ≤ 2 * C * length l.
Proof.
  destruct (select_linear c M) as [C HC]. exists (2 * C). intros T K f ltk l index Hs Hf.
  set (cmp := λ a b, if ltk (f a) (f b) then Lt else Gt).
  assert (∀ a b, is_lt cmp a b = ltk (f a) (f b)) as E.
  { intros a b. unfold is_lt, cmp. by destruct (ltk _ _). }
  specialize (HC T cmp l index (key_swo f ltk Hs)).
  assert (∀ x, In x l → length (List.filter
    (λ y, negb (is_lt cmp x y) && negb (is_lt cmp y x)) l) ≤ M) as Hf'.
  { intros x Hx. erewrite filter_ext; [by apply Hf|]. intros y. simpl. by rewrite !E. }
  specialize (HC Hf').
  pose proof (by_key_bound (pure_key f ltk) (partition_at_index c (length l) index) tt l (C * length l)) as H.
  unfold select_nth_unstable_by_key. unfold select_nth_unstable_by in HC.
  rewrite (run_ext _ (logged (compare_of_key (pure_key f ltk)))) in HC.
  - apply H in HC. destruct (run _ _ _ _) as [[r [s tr]] l']. lia.
  - intros [[] tr] [a b]. simpl. unfold cmp. simpl. by destruct (ltk _ _).
Qed.
Global Opaque bind calls.
