(** * Unique: there is only one stable arrangement, and only one sorted
    arrangement when equal elements are indistinguishable.  Plain lists only. *)
From Verif Require Export Spec.
From stdpp Require Import list.

Section unique.
  Context {T : Type} (lt : T → T → bool).

  Lemma equivb_refl x : strict_weak_order lt → equivb lt x x = true.
  Proof. intros H. unfold equivb. by rewrite (swo_irrefl _ H). Qed.

  Lemma heads_equiv x l1 y l2 :
    strict_weak_order lt → Permutation (x :: l1) (y :: l2) →
    sorted_wrt lt (x :: l1) → sorted_wrt lt (y :: l2) → equivb lt x y = true.
  Proof.
    intros Hswo Hp Hs1 Hs2.
    apply StronglySorted_inv in Hs1 as [_ Hs1]. apply StronglySorted_inv in Hs2 as [_ Hs2].
    rewrite Forall_forall in Hs1, Hs2.
    unfold equivb. apply andb_true_iff. split; apply negb_true_iff.
    - assert (Hin : x ∈ y :: l2) by (rewrite <-Hp; by left).
      apply elem_of_cons in Hin as [->|Hin]; [by apply swo_irrefl|by apply Hs2].
    - assert (Hin : y ∈ x :: l1) by (rewrite Hp; by left).
      apply elem_of_cons in Hin as [->|Hin]; [by apply swo_irrefl|by apply Hs1].
  Qed.

  Lemma stable_unique l1 l2 :
    strict_weak_order lt → Permutation l1 l2 → sorted_wrt lt l1 → sorted_wrt lt l2 →
    same_order_of_equals lt l1 l2 → l1 = l2.
  Proof.
    intros Hswo. revert l2. induction l1 as [|x l1 IH]; intros l2 Hp Hs1 Hs2 Ho.
    { symmetry. by apply Permutation_nil. }
    destruct l2 as [|y l2]; [by apply Permutation_sym, Permutation_nil in Hp|].
    pose proof (heads_equiv x l1 y l2 Hswo Hp Hs1 Hs2) as He.
    assert (x = y) as <-.
    { specialize (Ho x). simpl in Ho. rewrite He, equivb_refl in Ho by done. by simplify_eq. }
    f_equal. apply IH.
    - by apply Permutation_cons_inv in Hp.
    - by apply StronglySorted_inv in Hs1 as [? _].
    - by apply StronglySorted_inv in Hs2 as [? _].
    - intros z. specialize (Ho z). simpl in Ho. destruct (equivb lt z x); by simplify_eq.
  Qed.

  Lemma sorted_unique l1 l2 :
    strict_weak_order lt → (∀ x y, x ∈ l1 → y ∈ l1 → equivb lt x y = true → x = y) →
    Permutation l1 l2 → sorted_wrt lt l1 → sorted_wrt lt l2 → l1 = l2.
  Proof.
    intros Hswo. revert l2. induction l1 as [|x l1 IH]; intros l2 Ht Hp Hs1 Hs2.
    { symmetry. by apply Permutation_nil. }
    destruct l2 as [|y l2]; [by apply Permutation_sym, Permutation_nil in Hp|].
    pose proof (heads_equiv x l1 y l2 Hswo Hp Hs1 Hs2) as He.
    assert (x = y) as <-.
    { apply Ht; [by left|rewrite Hp; by left|done]. }
    f_equal. apply IH.
    - intros a b ??. apply Ht; by right.
    - by apply Permutation_cons_inv in Hp.
    - by apply StronglySorted_inv in Hs1 as [? _].
    - by apply StronglySorted_inv in Hs2 as [? _].
  Qed.
End unique.
