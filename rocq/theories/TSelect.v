(** * Proofs of the theorems of PropSelect.v. *)
From Verif Require Export MApi Top PIndices.
From stdpp Require Import list.

Section order_stat.
  Context {T : Type} (lt : T → T → bool).
  Implicit Types (l : list T).

  Fixpoint countb (P : T → bool) l : nat :=
    match l with [] => 0 | x :: l => (if P x then 1 else 0) + countb P l end.
  Lemma countb_app P l1 l2 : countb P (l1 ++ l2) = countb P l1 + countb P l2.
  Proof. induction l1; simpl; lia. Qed.
  Lemma countb_perm P l l' : Permutation l l' → countb P l = countb P l'.
  Proof. induction 1; simpl; lia. Qed.
  Lemma countb_le P l : countb P l ≤ length l.
  Proof. induction l; simpl; [lia|]. destruct (P a); lia. Qed.
  Lemma countb_all P l : Forall (λ x, P x = true) l → countb P l = length l.
  Proof. induction 1 as [|x l Hx _ IH]; simpl; [done|]. rewrite Hx. lia. Qed.
  Lemma countb_none P l : Forall (λ x, P x = false) l → countb P l = 0.
  Proof. induction 1 as [|x l Hx _ IH]; simpl; [done|]. by rewrite Hx. Qed.

  Lemma swo_lt_nlt x y z :
    strict_weak_order lt → lt x y = true → lt z y = false → lt x z = true.
  Proof.
    intros Hs Hxy Hzy. destruct (lt x z) eqn:Hxz; [done|].
    by rewrite (swo_negtrans _ Hs x z y) in Hxy.
  Qed.
  Lemma swo_nlt_lt x y z :
    strict_weak_order lt → lt y x = false → lt y z = true → lt x z = true.
  Proof.
    intros Hs Hyx Hyz. destruct (lt x z) eqn:Hxz; [done|].
    by rewrite (swo_negtrans _ Hs y x z) in Hyz.
  Qed.

  Lemma placed_order_statistic l l' i x :
    strict_weak_order lt → Permutation l l' → placed lt l' i x → order_statistic lt l i x.
  Proof.
    intros Hs Hp (Hx & Hlo & Hhi) ls Hpl Hsl.
    pose proof (lookup_lt_Some _ _ _ Hx) as Hi.
    assert (Hpp : Permutation ls l') by (by rewrite <-Hpl).
    pose proof (Permutation_length Hpp) as Hlen.
    destruct (lookup_lt_is_Some_2 ls i) as [y Hy]; [lia|].
    exists y. split; [done|].
    pose proof (take_drop_middle _ _ _ Hy) as Hse. pose proof (take_drop_middle _ _ _ Hx) as Hle.
    assert (Hl1 : length (take i ls) = i) by (rewrite take_length; lia).
    assert (Hl2 : length (drop (S i) ls) = length l' - S i) by (rewrite drop_length; lia).
    assert (Hl3 : length (take i l') = i) by (rewrite take_length; lia).
    assert (Hl4 : length (drop (S i) l') = length l' - S i) by (rewrite drop_length; lia).
    rewrite <-Hse in Hsl. unfold sorted_wrt in Hsl.
    apply StronglySorted_app_iff in Hsl as (_ & Hsl & Hsl1).
    apply StronglySorted_inv in Hsl as [_ Hsl2].
    assert (Hc : ∀ P, countb P l' =
      countb P (take i l') + ((if P x then 1 else 0) + countb P (drop (S i) l'))).
    { intros P. rewrite <-Hle at 1. apply countb_app. }
    unfold equivb. apply andb_true_iff. rewrite !negb_true_iff. split.
    - destruct (lt x y) eqn:Hxy; [|done]. exfalso.
      (* at least length - i elements of ls are greater than x *)
      assert (H1 : countb (lt x) ls ≥ S (length l' - S i)).
      { rewrite <-Hse, countb_app. simpl. rewrite Hxy.
        rewrite (countb_all _ (drop _ _)); [lia|].
        eapply Forall_impl; [exact Hsl2|]. intros z Hz. simpl in Hz.
        by apply (swo_lt_nlt x y z). }
      rewrite (countb_perm _ _ _ Hpp), Hc in H1.
      rewrite (swo_irrefl _ Hs), (countb_none _ (take _ _)) in H1 by done.
      pose proof (countb_le (lt x) (drop (S i) l')). lia.
    - destruct (lt y x) eqn:Hyx; [|done]. exfalso.
      set (P := λ z, lt z x).
      assert (H1 : countb P ls ≥ S i).
      { rewrite <-Hse, countb_app. simpl. unfold P at 2. rewrite Hyx.
        rewrite (countb_all _ (take _ _)); [lia|].
        apply Forall_forall. intros z Hz. unfold P.
        apply (swo_nlt_lt z y x); [done| |done]. apply Hsl1; [done|]. left. }
      rewrite (countb_perm _ _ _ Hpp), Hc in H1.
      change (P x) with (lt x x) in H1. rewrite (swo_irrefl _ Hs), (countb_none _ (drop _ _)) in H1 by done.
      pose proof (countb_le P (take i l')). lia.
  Qed.

  Lemma selected_placed l i :
    strict_weak_order lt → selected (ans_lt lt) l i → ∃ x, placed lt l i x.
  Proof.
    intros Hs (p & Hp & Hlo & Hhi). exists p. split; [done|].
    split; (eapply Forall_impl; [eassumption|]); intros y; by apply kle_lt.
  Qed.
  Lemma one_element_placed l i :
    strict_weak_order lt → (∀ x y : T, x = y) → i < length l → ∃ x, placed lt l i x.
  Proof.
    intros Hs Heq Hi. destruct (lookup_lt_is_Some_2 l i Hi) as [x Hx].
    exists x. split; [done|]. split; apply Forall_forall; intros y _; rewrite (Heq y x); apply Hs.
  Qed.
End order_stat.

Section select.
  Context {T : Type} (c : cfg).
  Implicit Types (l : list T).

  Lemma spanic_release ans l e l' : dbg c = false → spanic c ans l e l' → upanic ans l e l'.
  Proof. intros Hd [Hp [[? ?]|[_ ?]]]; [by split|congruence]. Qed.

  Lemma partition_at_index_wp ans index l :
    dbg c = false → index < length l →
    wp ans (partition_at_index c (length l) index)
      (λ r l', l' ≡ₚ l ∧ r = parts (length l) index ∧ (zst c = false → selected ans l' index))
      (upanic ans l) l.
  Proof.
    intros Hd Hi. eapply wp_mono; [by apply partition_at_index_spec| |].
    - intros r l' _ (? & ? & ? & ?). auto.
    - intros e l' _ [[Hs _]|(_ & ? & _)]; [by apply spanic_release|lia].
  Qed.

  Lemma select_nth_selects lt index l :
    dbg c = false → index < length l →
    strict_weak_order lt → (zst c = true → ∀ x y : T, x = y) →
    ∃ l' x, run (pure_less lt) (partition_at_index c (length l) index) tt l =
        (Done ((0, index), index, (index + 1, length l - (index + 1))), tt, l') ∧
      Permutation l l' ∧ placed lt l' index x ∧ order_statistic lt l index x.
  Proof.
    intros Hd Hi Hs Hz.
    destruct (run_pure _ lt _ l (partition_at_index_wp _ index l Hd Hi))
      as (r & l' & Hr & Hp & -> & Hsel).
    assert (∃ x, placed lt l' index x) as [x Hx].
    { destruct (zst c).
      - apply one_element_placed; auto. apply Permutation_length in Hp. lia.
      - apply selected_placed; auto. }
    exists l', x. split; [done|]. split; [by symmetry|]. split; [done|].
    by apply (placed_order_statistic lt l l').
  Qed.

  Lemma select_nth_out_of_range {S} (o : S → T * T → option bool * S) s index l :
    length l ≤ index →
    run o (partition_at_index c (length l) index) s l = (Panicked AssertPanic, s, l).
  Proof.
    intros Hi. unfold partition_at_index. by rewrite (proj2 (Nat.leb_le _ _) Hi).
  Qed.

  Lemma select_nth_any {S} (o : S → T * T → option bool * S) s index l :
    dbg c = false → index < length l → no_panic o →
    ∃ s' l', run o (partition_at_index c (length l) index) s l =
        (Done ((0, index), index, (index + 1, length l - (index + 1))), s', l') ∧
      Permutation l l'.
  Proof.
    intros Hd Hi Ho.
    destruct (run_any _ o _ s l Ho (partition_at_index_wp _ index l Hd Hi))
      as (r & s' & l' & Hr & Hp & -> & _).
    exists s', l'. split; [done|by symmetry].
  Qed.

  Lemma select_nth_all {S} (o : S → T * T → option bool * S) s index l :
    index < length l →
    ∃ r s' l', run o (partition_at_index c (length l) index) s l = (r, s', l') ∧
      Permutation l l' ∧
      (r = Done ((0, index), index, (index + 1, length l - (index + 1))) ∨
       r = Panicked UserPanic ∨ r = Panicked DebugPanic ∧ dbg c = true).
  Proof.
    intros Hi.
    pose proof (partition_at_index_spec c ans_all (length l) index l eq_refl) as Hwp.
    apply (wp_run ans_all o _ ltac:(done) _ _ s) in Hwp.
    destruct (run o (partition_at_index c (length l) index) s l) as [[[r|e| |] s'] l']; try done.
    - destruct Hwp as (Hp & _ & -> & _). eexists _, _, _. split; [done|]. split; [by symmetry|auto].
    - destruct Hwp as [[[Hp Hs] _]|(_ & ? & _)]; [|lia].
      eexists _, _, _. split; [done|]. split; [by symmetry|].
      destruct Hs as [[-> _]|[-> ?]]; auto.
  Qed.

  (** Many indices. *)
  Lemma select_many_wp ans inds l :
    fits c (length l) →
    wp ans (select_many c (length l) inds)
      (λ r l', l' ≡ₚ l ∧ valid_indices 0 (length l) inds ∧ r = map (λ i, (i, i)) inds ∧
         (zst c = false → Forall (selected ans l') inds))
      (ipanic c ans 0 (length l) inds l) l.
  Proof.
    intros Hf. unfold select_many.
    eapply wp_mono; [apply partition_at_indices_spec; [done|lia|apply bit_length_spec|done]| |auto].
    intros r l' _ (Hp & Hv & -> & Hsel). split; [done|]. split; [done|]. split.
    - apply map_ext. intros i. simpl. f_equal. lia.
    - intros Hz. eapply Forall_impl; [by apply Hsel|]. intros i. simpl. by rewrite Nat.sub_0_r.
  Qed.

  Lemma select_many_selects lt inds l :
    dbg c = false → fits c (length l) → valid_indices 0 (length l) inds →
    strict_weak_order lt → (zst c = true → ∀ x y : T, x = y) →
    ∃ l', run (pure_less lt) (select_many c (length l) inds) tt l =
        (Done (map (λ i, (i, i)) inds), tt, l') ∧
      Permutation l l' ∧
      Forall (λ i, ∃ x, placed lt l' i x ∧ order_statistic lt l i x) inds.
  Proof.
    intros Hd Hf Hv Hs Hz.
    assert (Hwp : wp (ans_lt lt) (select_many c (length l) inds)
      (λ r l', l' ≡ₚ l ∧ r = map (λ i, (i, i)) inds ∧
         (zst c = false → Forall (selected (ans_lt lt) l') inds)) (upanic (ans_lt lt) l) l).
    { eapply wp_mono; [by apply select_many_wp| |].
      - intros r l' _ (? & ? & ? & ?). auto.
      - intros e l' _ [Hp [Hsp|[_ Hn]]]; [by apply spanic_release|done]. }
    destruct (run_pure _ lt _ l Hwp) as (r & l' & Hr & Hp & -> & Hsel).
    exists l'. split; [done|]. split; [by symmetry|].
    assert (Hpl : Forall (λ i, ∃ x, placed lt l' i x) inds).
    { destruct (zst c).
      - destruct Hv as [_ Hv]. eapply Forall_impl; [exact Hv|]. intros i Hi. simpl in Hi.
        apply one_element_placed; auto. apply Permutation_length in Hp. simpl in Hi. lia.
      - eapply Forall_impl; [by apply Hsel|]. intros i. by apply selected_placed. }
    eapply Forall_impl; [exact Hpl|]. intros i [x Hx]. exists x. split; [done|].
    by apply (placed_order_statistic lt l l').
  Qed.

  Lemma select_many_any {S} (o : S → T * T → option bool * S) s inds l :
    dbg c = false → fits c (length l) → valid_indices 0 (length l) inds → no_panic o →
    ∃ s' l', run o (select_many c (length l) inds) s l =
        (Done (map (λ i, (i, i)) inds), s', l') ∧ Permutation l l'.
  Proof.
    intros Hd Hf Hv Ho.
    assert (Hwp : wp ans_any (select_many c (length l) inds)
      (λ r l', l' ≡ₚ l ∧ r = map (λ i, (i, i)) inds) (upanic ans_any l) l).
    { eapply wp_mono; [by apply select_many_wp| |].
      - intros r l' _ (? & ? & ? & ?). auto.
      - intros e l' _ [Hp [Hsp|[_ Hn]]]; [by apply spanic_release|done]. }
    destruct (run_any _ o _ s l Ho Hwp) as (r & s' & l' & Hr & Hp & ->).
    exists s', l'. split; [done|by symmetry].
  Qed.

  Lemma select_many_all {S} (o : S → T * T → option bool * S) s inds l :
    fits c (length l) →
    ∃ r s' l', run o (select_many c (length l) inds) s l = (r, s', l') ∧ Permutation l l' ∧
      (r = Done (map (λ i, (i, i)) inds) ∧ valid_indices 0 (length l) inds ∨
       r = Panicked UserPanic ∨ r = Panicked DebugPanic ∧ dbg c = true ∨
       (r = Panicked AssertPanic ∨ r = Panicked OverflowPanic ∧ ovf c = true) ∧
         ¬ valid_indices 0 (length l) inds).
  Proof.
    intros Hf. pose proof (select_many_wp ans_all inds l Hf) as Hwp.
    apply (wp_run ans_all o _ ltac:(done) _ _ s) in Hwp.
    destruct (run o (select_many c (length l) inds) s l) as [[[r|e| |] s'] l']; try done.
    - destruct Hwp as (Hp & Hv & -> & _). eexists _, _, _. split; [done|]. split; [by symmetry|auto].
    - destruct Hwp as [Hp He]. eexists _, _, _. split; [done|]. split; [by symmetry|].
      destruct He as [[_ [[-> _]|[-> ?]]]|[[->|[-> ?]] ?]]; auto 10.
  Qed.
End select.
