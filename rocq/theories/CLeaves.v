(** * Number of calls made by the building blocks of quicksort and selection. *)
From Verif Require Export TLinear.
From stdpp Require Import list.

Section heap.
  Context {T : Type}.
  Implicit Types (B k n : nat).

  Lemma log2_child n node child :
    2 * node + 1 ≤ child → child < n →
    S (Nat.log2 (S node)) ≤ Nat.log2 (S child) ∧ Nat.log2 (S child) ≤ Nat.log2 n.
  Proof.
    intros H1 H2. split; [|apply Nat.log2_le_mono; lia].
    rewrite <-Nat.log2_double by lia. apply Nat.log2_le_mono. lia.
  Qed.
  Lemma sift_down_cost fuel n node B k :
    k + 2 * (Nat.log2 n - Nat.log2 (S node)) ≤ B →
    costs (sift_down (T:=T) fuel n node)
      (λ _ k', k' ≤ k + 2 * (Nat.log2 n - Nat.log2 (S node))) B k.
  Proof.
    revert node k. induction fuel as [|f IH]; intros node k Hk; cbn [sift_down].
    { apply costs_nofuel. }
    cbv zeta. destruct (Nat.leb_spec n (2 * node + 1)); [apply costs_ret; lia|].
    apply costs_bind.
    eapply (costs_mono _ (λ ch k', 2 * node + 1 ≤ ch ∧ ch < n ∧ k' ≤ S k)).
    { pose proof (log2_child n node (2 * node + 1)). repeat cost_step; try case_match; lia. }
    intros ch k1 _ (H1 & H2 & Hk1).
    pose proof (log2_child n node ch H1 H2).
    repeat cost_step; try lia. cost_call IH; [lia|]. cost_fin.
  Qed.
  Lemma heap_sort_cost n B k :
    k + 3 * n * Nat.log2 n ≤ B →
    costs (heap_sort (T:=T) n) (λ _ k', k' ≤ k + 3 * n * Nat.log2 n) B k.
  Proof.
    intros Hk. unfold heap_sort. set (L := Nat.log2 n) in *.
    assert (Hh : 2 * (n / 2) ≤ n) by (apply Nat.mul_div_le; lia).
    assert (Hh' : 2 * (n / 2) * L ≤ n * L) by (apply Nat.mul_le_mono_r; lia).
    assert (Hn' : (n - 1) * L ≤ n * L) by (apply Nat.mul_le_mono_r; lia).
    apply costs_bind.
    cost_call (costs_for_down 0 (n / 2) _ (λ j k', k' + 2 * (j * L) ≤ k + 2 * (n / 2) * L)).
    - lia.
    - intros j k' Hj Hk'. cost_call sift_down_cost; fold L; [lia|]. cost_fin.
    - intros [] k1 _ Hk1.
      cost_call (costs_for_down 1 (n - 1) _
        (λ j k', k' + 2 * (j * L) ≤ k1 + 2 * ((n - 1) * L))).
      + lia.
      + intros j k' Hj Hk'. repeat cost_step.
        assert (Nat.log2 (1 + j - 0) ≤ L) by (apply Nat.log2_le_mono; lia).
        cost_call sift_down_cost; [lia|]. cost_fin.
      + cost_fin.
  Qed.
End heap.

Section partition.
  Context {T : Type} (c : cfg).
  Implicit Types (B k n : nat).

  Lemma pe_scan_l_cost fuel n (pivot : T) l r B k :
    l ≤ r → k + (r - l) ≤ B →
    costs (pe_scan_l fuel n pivot l r)
      (λ l' k', l ≤ l' ∧ l' ≤ r ∧ k' ≤ k + (l' - l) + 1 ∧ k' ≤ k + (r - l)) B k.
  Proof.
    revert l k. induction fuel as [|f IH]; intros l k Hl Hk; simpl; repeat cost_step; try lia.
    cost_call (IH (S l) (S k)); [lia|lia|]. cost_fin.
  Qed.
  Lemma pe_scan_r_cost fuel n (pivot : T) l r B k :
    k + (r - l - 1) ≤ B →
    costs (pe_scan_r fuel n pivot l r)
      (λ r' k', r' < r ∧ k' ≤ k + (r - r') ∧ k' ≤ k + (r - l - 1)) B k.
  Proof.
    revert r k. induction fuel as [|f IH]; intros r k Hk; simpl; repeat cost_step; try lia.
    cost_call (IH (r - 1) (S k)); [lia|]. cost_fin.
  Qed.
  Lemma pe_loop_cost fuel n (pivot : T) l r B k :
    l ≤ r → k + (r - l) ≤ B →
    costs (pe_loop fuel n pivot l r) (λ _ k', k' ≤ k + (r - l)) B k.
  Proof.
    revert l r k. induction fuel as [|f IH]; intros l r k Hl Hk; cbn [pe_loop].
    { apply costs_nofuel. }
    apply costs_bind. cost_call pe_scan_l_cost; [lia|lia|].
    intros l1 k1 _ (? & ? & ? & ?). apply costs_bind.
    cost_call pe_scan_r_cost; [lia|]. intros r1 k2 _ (? & ? & ?).
    repeat cost_step; [lia|]. cost_call (IH (S l1) r1); [lia|lia|]. cost_fin.
  Qed.
  Lemma partition_equal_cost n pivot B k :
    k + n ≤ B → costs (partition_equal (T:=T) n pivot) (λ _ k', k' ≤ k + n) B k.
  Proof.
    intros Hk. unfold partition_equal. repeat cost_step; cbv zeta; repeat cost_step; try lia.
    cost_call pe_loop_cost; [lia|lia|]. cbv beta. intros r1 k1 _ Hk1. repeat cost_step. lia.
  Qed.

  Lemma trace_l_cost n (pivot : T) elem i cnt acc B k :
    k + cnt ≤ B → costs (trace_l n pivot elem i cnt acc) (λ _ k', k' ≤ k + cnt) B k.
  Proof.
    revert elem i acc k. induction cnt as [|cnt IH]; intros elem i acc k Hk; simpl;
      repeat cost_step; try lia; (cost_call IH; [lia|cost_fin]).
  Qed.
  Lemma trace_r_cost n (pivot : T) elem i cnt acc B k :
    k + cnt ≤ B → costs (trace_r n pivot elem i cnt acc) (λ _ k', k' ≤ k + cnt) B k.
  Proof.
    revert elem i acc k. induction cnt as [|cnt IH]; intros elem i acc k Hk; simpl;
      repeat cost_step; try lia; (cost_call IH; [lia|cost_fin]).
  Qed.
  Lemma cycle_cost n l r cnt (tmp : T) ol ls orr rs B k :
    costs (cycle n l r cnt tmp ol ls orr rs)
      (λ p k', k' = k ∧ length p.1 = length ls - cnt ∧ length p.2 = length rs - cnt) B k.
  Proof.
    revert ol ls orr rs. induction cnt as [|cnt IH]; intros ol ls orr rs; simpl;
      repeat cost_step; simpl.
    - lia.
    - cost_call IH. intros p k' _ (-> & -> & ->). simpl. lia.
  Qed.
  Lemma exchange_cost n l r offl offr B k :
    costs (exchange (T:=T) n l r offl offr)
      (λ p k', k' = k ∧ (length p.1 = 0 ∨ length p.2 = 0)) B k.
  Proof.
    unfold exchange. cbv zeta. repeat cost_step; simpl; [|lia].
    cost_call cycle_cost. intros p k' _ (-> & -> & ->). simpl. lia.
  Qed.
  Lemma finish_l_silent n l r offs : silent (finish_l (T:=T) n l r offs).
  Proof. revert r. induction offs; intros r; simpl; polite. Qed.
  Lemma finish_r_silent n l r offs : silent (finish_r (T:=T) n l r offs).
  Proof. revert l. induction offs; intros l; simpl; polite. Qed.

  (** Elements of [l..r) that are not yet traced. *)
  Definition untraced (l r : nat) (offl offr : list nat) : nat :=
    (r - l) - (if length offl =? 0 then 0 else BLOCK) - (if length offr =? 0 then 0 else BLOCK).
  Local Opaque BLOCK.
  Lemma pib_loop_cost fuel n (pivot : T) l r offl offr B k :
    l ≤ r → (length offl = 0 ∨ length offr = 0) →
    k + untraced l r offl offr ≤ B →
    costs (pib_loop c fuel n pivot l r BLOCK BLOCK offl offr)
      (λ _ k', k' ≤ k + untraced l r offl offr) B k.
  Proof.
    revert l r offl offr k. induction fuel as [|f IH]; intros l r offl offr k Hlr Hone Hk.
    { apply costs_nofuel. }
    cbn [pib_loop]. unfold width.
    apply costs_bind, costs_usub. intros _. cbv zeta.
    apply costs_bind.
    set (w := r - l) in *.
    eapply (costs_mono _ (λ p k', k' = k ∧
      (length offl ≠ 0 → p.1 = BLOCK) ∧ (length offr ≠ 0 → p.2 = BLOCK) ∧ p.1 + p.2 ≤ w ∧
      ((w <=? 2 * BLOCK) = false → p = (BLOCK, BLOCK)))).
    { destruct (Nat.leb_spec w (2 * BLOCK)) as [Hd|Hd].
      - apply costs_bind.
        eapply (costs_mono _ (λ rem k', k' = k ∧ if (0 <? length offl) || (0 <? length offr)
                                        then rem + BLOCK = w else rem = w)).
        { destruct offl, offr; simpl in *; repeat cost_step; simpl; lia. }
        intros rem k' _ [-> Hrem].
        pose proof (Nat.div_mod rem 2). pose proof (Nat.mod_upper_bound rem 2).
        destruct offl, offr; simpl in *; repeat cost_step; simpl in *; try lia;
          (repeat split; intros; try lia; try done).
      - apply costs_ret. simpl. repeat split; auto. lia. }
    intros [bl br] k' _ (-> & Hbl & Hbr & Hw & Hnd). simpl in Hbl, Hbr, Hw.
    assert (Hu : untraced l r offl offr + (if length offl =? 0 then 0 else BLOCK) +
                 (if length offr =? 0 then 0 else BLOCK) = w).
    { unfold untraced. fold w. destruct (Nat.eqb_spec (length offl) 0), (Nat.eqb_spec (length offr) 0);
        try lia; specialize (Hbl ltac:(done)) || specialize (Hbr ltac:(done)); lia. }
    apply costs_bind.
    eapply (costs_mono _ (λ _ k', k' ≤ k + (if length offl =? 0 then bl else 0))).
    { destruct (Nat.eqb_spec (length offl) 0); [|apply costs_ret; lia].
      apply trace_l_cost. destruct (Nat.eqb_spec (length offr) 0); lia. }
    intros offl1 k1 _ Hk1. apply costs_bind.
    eapply (costs_mono _ (λ _ k', k' ≤ k1 + (if length offr =? 0 then br else 0))).
    { destruct (Nat.eqb_spec (length offr) 0); [|apply costs_ret; lia].
      apply trace_r_cost. destruct (Nat.eqb_spec (length offl) 0); lia. }
    intros offr1 k2 _ Hk2. apply costs_bind.
    cost_call exchange_cost. intros [offl2 offr2] k3 _ [-> Hone2]. simpl in Hone2.
    assert (Hk2' : k2 + (w - bl - br) ≤ k + untraced l r offl offr).
    { destruct (Nat.eqb_spec (length offl) 0) as [e1|n1];
        destruct (Nat.eqb_spec (length offr) 0) as [e2|n2];
        try specialize (Hbl ltac:(done)); try specialize (Hbr ltac:(done)); lia. }
    apply costs_bind.
    eapply (costs_mono _ (λ r' k', k' = k2 ∧ r' = if length offr2 =? 0 then r - br else r)).
    { destruct (Nat.eqb_spec (length offr2) 0); repeat cost_step; done. }
    intros r' k' _ [-> ->].
    destruct (w <=? 2 * BLOCK) eqn:Hd.
    - repeat cost_step; try lia.
      all: cost_call costs_silent; [first [apply finish_l_silent|apply finish_r_silent]|].
      all: intros x k' _ ->; repeat cost_step; lia.
    - specialize (Hnd eq_refl). injection Hnd as -> ->.
      assert (Hun : untraced (if length offl2 =? 0 then l + BLOCK else l)
        (if length offr2 =? 0 then r - BLOCK else r) offl2 offr2 = w - BLOCK - BLOCK).
      { unfold untraced. destruct (length offl2 =? 0), (length offr2 =? 0); unfold w; lia. }
      cost_call IH.
      + destruct (length offl2 =? 0), (length offr2 =? 0); unfold w in *; lia.
      + done.
      + rewrite Hun. lia.
      + rewrite Hun. cost_fin.
  Qed.
  Lemma partition_in_blocks_cost n (pivot : T) B k :
    k + n ≤ B → costs (partition_in_blocks c n pivot) (λ _ k', k' ≤ k + n) B k.
  Proof.
    intros Hk. unfold partition_in_blocks. repeat cost_step; [lia|].
    assert (Hu : untraced 0 n [] [] = n) by (unfold untraced; simpl; lia).
    cost_call pib_loop_cost; [lia|by left|rewrite Hu; lia|]. rewrite Hu. cost_fin.
  Qed.
  Lemma pt_scan_l_cost fuel n (pivot : T) l r B k :
    l ≤ r → k + (r - l) ≤ B →
    costs (pt_scan_l fuel n pivot l r)
      (λ l' k', l ≤ l' ∧ l' ≤ r ∧ k' ≤ k + (l' - l) + 1) B k.
  Proof.
    revert l k. induction fuel as [|f IH]; intros l k Hl Hk; simpl; repeat cost_step; try lia.
    cost_call (IH (S l) (S k)); [lia|lia|]. cost_fin.
  Qed.
  Lemma pt_scan_r_cost fuel n (pivot : T) l r B k :
    l ≤ r → k + (r - l) ≤ B →
    costs (pt_scan_r fuel n pivot l r)
      (λ r' k', l ≤ r' ∧ r' ≤ r ∧ k' ≤ k + (r - r') + 1) B k.
  Proof.
    revert r k. induction fuel as [|f IH]; intros r k Hl Hk; simpl; repeat cost_step; try lia.
    cost_call (IH (r - 1) (S k)); [lia|lia|]. cost_fin.
  Qed.
  Lemma partition_cost n pivot B k :
    k + n + 1 ≤ B →
    costs (MPartition.partition (T:=T) c n pivot) (λ _ k', k' ≤ k + n + 1) B k.
  Proof.
    intros Hk. unfold MPartition.partition. repeat cost_step.
    cost_call pt_scan_l_cost; [lia|lia|]. intros l1 k1 _ (? & ? & ?). apply costs_bind.
    cost_call pt_scan_r_cost; [lia|lia|]. intros r1 k2 _ (? & ? & ?). repeat cost_step.
    cost_call partition_in_blocks_cost; [lia|]. cbv beta. intros m k3 _ Hk3. repeat cost_step. lia.
  Qed.
End partition.

Section pivot.
  Context {T : Type} (c : cfg).
  Implicit Types (B k n : nat).

  Lemma find_unsorted_cost fuel n i B k :
    i ≤ n → k + (n - i) ≤ B →
    costs (find_unsorted (T:=T) fuel n i)
      (λ i' k', i ≤ i' ∧ i' ≤ n ∧ k' ≤ k + (i' - i) + 1 ∧ k' ≤ k + (n - i)) B k.
  Proof.
    revert i k. induction fuel as [|f IH]; intros i k Hi Hk; simpl; repeat cost_step; try lia.
    cost_call (IH (S i) (S k)); [lia|lia|]. cost_fin.
  Qed.
  Lemma partial_insertion_steps_cost steps n i B k :
    i ≤ n → k + steps * (2 * n + 1) + (n - i) ≤ B →
    costs (partial_insertion_steps (T:=T) c steps n i)
      (λ _ k', k' ≤ k + steps * (2 * n + 1) + (n - i)) B k.
  Proof.
    revert i k. induction steps as [|st IH]; intros i k Hi Hk; cbn [partial_insertion_steps].
    { apply costs_ret. lia. }
    apply costs_bind. cost_call find_unsorted_cost; [lia|lia|].
    intros i1 k1 _ (? & ? & ? & ?).
    destruct (Nat.eqb_spec i1 n); [apply costs_ret; lia|].
    destruct (n <? SHORTEST_SHIFTING); [apply costs_ret; lia|].
    apply costs_bind, costs_usub. intros ?. apply costs_bind, costs_swap, costs_bind.
    eapply (costs_mono _ (λ _ k', k' ≤ k1 + 2 * n)).
    { repeat cost_step; [|lia].
      cost_call insertion_sort_shift_left_cost.
      - replace (i1 - 0 - (i1 - 1)) with 1 by lia. lia.
      - intros [] k2 _ Hk2. replace (i1 - 0 - (i1 - 1)) with 1 in Hk2 by lia. repeat cost_step.
        cost_call insertion_sort_shift_right_cost; [lia|]. cost_fin. }
    intros [] k2 _ Hk2. cost_call IH; [lia|lia|]. cost_fin.
  Qed.
  Lemma partial_insertion_sort_cost n B k :
    0 < n → k + 11 * n + 5 ≤ B →
    costs (partial_insertion_sort (T:=T) c n) (λ _ k', k' ≤ k + 11 * n + 5) B k.
  Proof.
    intros Hn Hk. unfold partial_insertion_sort, MAX_STEPS.
    cost_call partial_insertion_steps_cost; [lia|lia|]. cost_fin.
  Qed.

  Lemma sort2_cost n a b s B k :
    k + 1 ≤ B → costs (sort2 (T:=T) n a b s) (λ _ k', k' ≤ k + 1) B k.
  Proof. intros Hk. unfold sort2. repeat cost_step; lia. Qed.
  Lemma sort3_cost n a b d s B k :
    k + 3 ≤ B → costs (sort3 (T:=T) n a b d s) (λ _ k', k' ≤ k + 3) B k.
  Proof.
    intros Hk. unfold sort3.
    apply costs_bind. cost_call sort2_cost; [lia|]. intros [[a1 b1] s1] k1 _ Hk1.
    apply costs_bind. cost_call sort2_cost; [lia|]. intros [[b2 d2] s2] k2 _ Hk2.
    apply costs_bind. cost_call sort2_cost; [lia|]. intros [[a3 b3] s3] k3 _ Hk3.
    apply costs_ret. lia.
  Qed.
  Lemma sort_adjacent_cost n a s B k :
    k + 3 ≤ B → costs (sort_adjacent (T:=T) n a s) (λ _ k', k' ≤ k + 3) B k.
  Proof.
    intros Hk. unfold sort_adjacent. apply costs_bind, costs_usub. intros _.
    apply costs_bind. cost_call sort3_cost; [lia|]. intros [[[a1 b1] d1] s1] k1 _ Hk1.
    apply costs_ret. lia.
  Qed.
  Lemma choose_pivot_cost n B k :
    k + 12 ≤ B → costs (choose_pivot (T:=T) n) (λ _ k', k' ≤ k + 12) B k.
  Proof.
    intros Hk. unfold choose_pivot. cbv zeta. apply costs_bind.
    eapply (costs_mono _ (λ _ k', k' ≤ k + 12)).
    { repeat cost_step; try lia.
      - cost_call sort_adjacent_cost; [lia|]. intros [a1 s1] k1 _ Hk1. apply costs_bind.
        cost_call sort_adjacent_cost; [lia|]. intros [b1 s2] k2 _ Hk2. apply costs_bind.
        cost_call sort_adjacent_cost; [lia|]. intros [d1 s3] k3 _ Hk3.
        apply costs_ret. apply costs_bind.
        cost_call sort3_cost; [lia|]. intros [[[? ?] ?] ?] k4 _ Hk4. apply costs_ret. lia.
      - cost_call sort3_cost; [lia|]. intros [[[? ?] ?] ?] k4 _ Hk4. apply costs_ret. lia. }
    intros [b s] k1 _ Hk1. repeat cost_step; try lia.
    eapply costs_mono; [apply costs_silent, reverse_silent|]. intros [] k2 _ ->.
    repeat cost_step. lia.
  Qed.
End pivot.
