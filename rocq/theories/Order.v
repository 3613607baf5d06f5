(** * Order: what is known about the order from the comparator's answers.

    The proofs use the relations [kle ans] and [klt ans] ("known to be [<=]" and
    "known to be [<]"), which hold if every strict weak order that agrees with
    the comparator's possible answers [ans] says so.  For comparators that
    do not implement a strict weak order they hold vacuously, so that one proof
    covers correct and arbitrary comparators. *)
From Verif Require Export Spec Ops.
From stdpp Require Export sets.

Section order.
  Context {T : Type} (ans : T * T → option bool → Prop).

  Definition consistent (lt : T → T → bool) : Prop :=
    ∀ a b r, ans (a, b) (Some r) → r = lt a b.

  Definition kle (a b : T) : Prop :=
    ∀ lt, strict_weak_order lt → consistent lt → lt b a = false.
  Definition klt (a b : T) : Prop :=
    ∀ lt, strict_weak_order lt → consistent lt → lt a b = true.

  Lemma ans_true a b : ans (a, b) (Some true) → klt a b.
  Proof. intros H lt _ Hc. symmetry. by apply Hc. Qed.
  Lemma ans_false a b : ans (a, b) (Some false) → kle b a.
  Proof. intros H lt _ Hc. symmetry. by apply Hc. Qed.

  Lemma swo_asym (lt : T → T → bool) a b :
    strict_weak_order lt → lt a b = true → lt b a = false.
  Proof.
    intros H Hab. destruct (lt b a) eqn:Hba; [|done].
    pose proof (swo_trans _ H _ _ _ Hab Hba) as Haa.
    by rewrite (swo_irrefl _ H) in Haa.
  Qed.

  Lemma klt_kle a b : klt a b → kle a b.
  Proof. intros H lt Hs Hc. apply swo_asym; auto. Qed.
  Lemma kle_refl a : kle a a.
  Proof. intros lt Hs _. apply Hs. Qed.
  Lemma kle_trans a b c : kle a b → kle b c → kle a c.
  Proof. intros H1 H2 lt Hs Hc. eapply swo_negtrans; eauto. Qed.
  Lemma klt_kle_trans a b c : klt a b → kle b c → klt a c.
  Proof.
    intros H1 H2 lt Hs Hc. destruct (lt a c) eqn:Hac; [done|].
    specialize (H1 lt Hs Hc). specialize (H2 lt Hs Hc).
    rewrite (swo_negtrans _ Hs _ _ _ Hac H2) in H1. done.
  Qed.
  Lemma kle_klt_trans a b c : kle a b → klt b c → klt a c.
  Proof.
    intros H1 H2 lt Hs Hc. destruct (lt a c) eqn:Hac; [done|].
    specialize (H1 lt Hs Hc). specialize (H2 lt Hs Hc).
    rewrite (swo_negtrans _ Hs _ _ _ H1 Hac) in H2. done.
  Qed.
  Lemma klt_trans a b c : klt a b → klt b c → klt a c.
  Proof. intros H1 H2. eapply klt_kle_trans; eauto using klt_kle. Qed.

  Definition ksorted (l : list T) : Prop := StronglySorted kle l.

  (** Permutations that only ever exchange adjacent elements that are known to
      be strictly out of order; these preserve the order of equal elements. *)
  Inductive sperm : list T → list T → Prop :=
  | sperm_nil : sperm [] []
  | sperm_skip x l l' : sperm l l' → sperm (x :: l) (x :: l')
  | sperm_swap x y l : klt y x → sperm (x :: y :: l) (y :: x :: l)
  | sperm_trans l1 l2 l3 : sperm l1 l2 → sperm l2 l3 → sperm l1 l3.

  Global Instance sperm_reflexive : Reflexive sperm.
  Proof. intros l. induction l; constructor; auto. Qed.
  Global Instance sperm_transitive : Transitive sperm.
  Proof. intros ???. apply sperm_trans. Qed.

  Lemma sperm_perm l l' : sperm l l' → l' ≡ₚ l.
  Proof.
    induction 1.
    - done.
    - by constructor.
    - constructor.
    - by etrans.
  Qed.
  Lemma sperm_length l l' : sperm l l' → length l' = length l.
  Proof. intros. by apply Permutation_length, sperm_perm. Qed.

  Lemma sperm_app_l k l l' : sperm l l' → sperm (k ++ l) (k ++ l').
  Proof. intros. induction k; simpl; [done|by constructor]. Qed.
  Lemma sperm_app_r k l l' : sperm l l' → sperm (l ++ k) (l' ++ k).
  Proof.
    induction 1; simpl.
    - done.
    - by constructor.
    - by constructor.
    - by etrans.
  Qed.
  Lemma sperm_app l1 l1' l2 l2' : sperm l1 l1' → sperm l2 l2' → sperm (l1 ++ l2) (l1' ++ l2').
  Proof. intros. etrans; [by apply sperm_app_l|by apply sperm_app_r]. Qed.

  (** Move one element to the left over strictly greater ones. *)
  Lemma sperm_move_left x l : Forall (klt x) l → sperm (l ++ [x]) (x :: l).
  Proof.
    induction 1 as [|y l Hy Hl IH]; simpl; [done|].
    etrans; [apply sperm_skip, IH|]. by constructor.
  Qed.
  (** Move one element to the right over strictly smaller ones. *)
  Lemma sperm_move_right x l : Forall (λ y, klt y x) l → sperm (x :: l) (l ++ [x]).
  Proof.
    induction 1 as [|y l Hy Hl IH]; simpl; [done|].
    etrans; [by apply sperm_swap|]. by constructor.
  Qed.

  (** Reversing a strictly descending list. *)
  Lemma sperm_reverse l : StronglySorted (λ a b, klt b a) l → sperm l (rev l).
  Proof.
    induction 1 as [|x l Hl IH Hx]; simpl; [done|].
    etrans; [by apply sperm_skip, IH|].
    apply sperm_move_right.
    apply Forall_rev. done.
  Qed.

  (** Sorted lists. *)
  Lemma ksorted_app l1 l2 :
    ksorted (l1 ++ l2) ↔
    ksorted l1 ∧ ksorted l2 ∧ (∀ x y, x ∈ l1 → y ∈ l2 → kle x y).
  Proof.
    unfold ksorted. induction l1 as [|a l1 IH]; simpl.
    - split; [|tauto]. intros H. repeat split; [constructor|done|set_solver].
    - split.
      + intros H. apply StronglySorted_inv in H as [H Ha].
        apply IH in H as (H1 & H2 & H12).
        apply Forall_app in Ha as [Ha1 Ha2].
        repeat split; [by constructor|done|].
        intros x y [->|Hx]%elem_of_cons Hy; [|auto].
        by eapply Forall_forall in Ha2.
      + intros (H1 & H2 & H12). apply StronglySorted_inv in H1 as [H1 Ha].
        constructor.
        * apply IH. repeat split; auto. intros. apply H12; set_solver.
        * apply Forall_app. split; [done|]. apply Forall_forall. intros. apply H12; set_solver.
  Qed.

  Lemma ksorted_singleton x : ksorted [x].
  Proof. repeat constructor. Qed.
  Lemma ksorted_nil : ksorted [].
  Proof. constructor. Qed.

  Lemma ksorted_lookup l : 
    (∀ i x y, l !! i = Some x → l !! S i = Some y → kle x y) → ksorted l.
  Proof.
    induction l as [|a l IH]; intros H; [constructor|].
    assert (Hs : ksorted l).
    { apply IH. intros i x y Hx Hy. by apply (H (S i)). }
    constructor; [done|].
    destruct l as [|b l]; [constructor|].
    assert (Hab : kle a b) by (by apply (H 0)).
    apply StronglySorted_inv in Hs as [_ Hb]. constructor; [done|].
    eapply Forall_impl; [exact Hb|]. intros z Hz. by eapply kle_trans.
  Qed.
  Lemma ksorted_lookup_le l i j x y :
    ksorted l → i ≤ j → l !! i = Some x → l !! j = Some y → kle x y.
  Proof.
    intros Hs. revert i j. induction Hs as [|a l Hs IH Ha]; intros i j Hij Hx Hy; [done|].
    destruct i as [|i], j as [|j]; simplify_eq/=.
    - apply kle_refl.
    - eapply Forall_forall; [exact Ha|]. by eapply elem_of_list_lookup_2.
    - lia.
    - apply (IH i j); auto. lia.
  Qed.
  Lemma ksorted_sublist_take l n : ksorted l → ksorted (take n l).
  Proof. intros H. rewrite <-(take_drop n l) in H. by apply ksorted_app in H as (?&_&_). Qed.
  Lemma ksorted_sublist_drop l n : ksorted l → ksorted (drop n l).
  Proof. intros H. rewrite <-(take_drop n l) in H. by apply ksorted_app in H as (_&?&_). Qed.
End order.

(** The only panic the crate lets through: the user's closure panicked, and the
    array is still a permutation of [l0]. *)
Definition upanic {T : Type} (ans : T * T → option bool → Prop) (l0 : list T)
    (e : exn) (l' : list T) : Prop :=
  e = UserPanic ∧ (∃ q, ans q None) ∧ l' ≡ₚ l0.
