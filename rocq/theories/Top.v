(** * Top: from [wp] triples to statements about runs. *)
From Verif Require Export Closures WpOps.
From stdpp Require Import list.

Section top.
  Context {T : Type}.
  Implicit Types (l : list T).

  (** The closure answers exactly what [lt] says. *)
  Definition ans_lt (lt : T → T → bool) : T * T → option bool → Prop :=
    λ q r, r = Some (lt q.1 q.2).
  (** Any answer but a panic. *)
  Definition ans_any : T * T → option bool → Prop := λ _ r, r ≠ None.
  Definition ans_all : T * T → option bool → Prop := λ _ _, True.

  Lemma ans_lt_consistent lt : consistent (ans_lt lt) lt.
  Proof. intros a b r [= ->]. done. Qed.
  Lemma kle_lt lt a b : strict_weak_order lt → kle (ans_lt lt) a b → lt b a = false.
  Proof. intros Hs H. apply H; [done|apply ans_lt_consistent]. Qed.
  Lemma klt_lt lt a b : strict_weak_order lt → klt (ans_lt lt) a b → lt a b = true.
  Proof. intros Hs H. apply H; [done|apply ans_lt_consistent]. Qed.

  Lemma ksorted_sorted lt l :
    strict_weak_order lt → ksorted (ans_lt lt) l → sorted_wrt lt l.
  Proof.
    intros Hs. unfold ksorted, sorted_wrt. induction 1 as [|x l Hl IH Hx]; constructor; [done|].
    eapply Forall_impl; [exact Hx|]. intros y. by apply kle_lt.
  Qed.

  Lemma sperm_same_order lt l l' :
    strict_weak_order lt → sperm (ans_lt lt) l l' → same_order_of_equals lt l l'.
  Proof.
    intros Hs H x. induction H as [|y l l' H IH|y z l Hzy|l1 l2 l3 H1 IH1 H2 IH2]; simpl.
    - done.
    - by rewrite IH.
    - assert (Hlt : lt z y = true) by (by apply klt_lt).
      destruct (equivb lt x y) eqn:Ey, (equivb lt x z) eqn:Ez; try done.
      unfold equivb in *. apply andb_true_iff in Ey as [Ey1 Ey2], Ez as [Ez1 Ez2].
      apply negb_true_iff in Ey1, Ey2, Ez1, Ez2.
      rewrite (swo_negtrans _ Hs z x y) in Hlt by done. done.
    - by rewrite IH2.
  Qed.

  (** Running with a pure less-than function. *)
  Lemma run_pure {A} (p : cmp_prog T A) lt Φ l :
    wp (ans_lt lt) p Φ (upanic (ans_lt lt) l) l →
    ∃ a l', run (pure_less lt) p tt l = (Done a, tt, l') ∧ Φ a l'.
  Proof.
    intros Hwp.
    assert (Ho : ∀ (s : unit) q, ans_lt lt q (pure_less lt s q).1) by (by intros s []).
    apply (wp_run _ _ _ Ho _ _ tt) in Hwp.
    destruct (run (pure_less lt) p tt l) as [[[a|e| |] []] l']; try done; eauto.
    destruct Hwp as (_ & (q & Hq) & _). done.
  Qed.

  (** Running with any closure that does not panic. *)
  Lemma run_any {A S} (p : cmp_prog T A) (o : S → T * T → option bool * S) Φ s l :
    no_panic o → wp ans_any p Φ (upanic ans_any l) l →
    ∃ a s' l', run o p s l = (Done a, s', l') ∧ Φ a l'.
  Proof.
    intros Ho Hwp.
    apply (wp_run _ o p Ho _ _ s) in Hwp.
    destruct (run o p s l) as [[[a|e| |] s'] l']; try done; eauto.
    destruct Hwp as (_ & (q & Hq) & _). done.
  Qed.

  (** Running with any closure. *)
  Lemma run_all {A S} (p : cmp_prog T A) (o : S → T * T → option bool * S) Φ s l :
    wp ans_all p Φ (upanic ans_all l) l →
    (∃ a s' l', run o p s l = (Done a, s', l') ∧ Φ a l') ∨
    (∃ s' l', run o p s l = (Panicked UserPanic, s', l') ∧ l' ≡ₚ l).
  Proof.
    intros Hwp.
    apply (wp_run ans_all o p ltac:(done) _ _ s) in Hwp.
    destruct (run o p s l) as [[[a|e| |] s'] l']; try done; [left; eauto|right].
    destruct Hwp as (-> & _ & ?). eauto.
  Qed.

  Lemma one_element_sorted lt l :
    strict_weak_order lt → (∀ x y : T, x = y) → sorted_wrt lt l.
  Proof.
    intros Hs Heq. induction l as [|x l IH]; constructor; [done|].
    apply Forall_forall. intros y _. rewrite (Heq y x). apply Hs.
  Qed.
End top.
