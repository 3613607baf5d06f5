(** * Proofs about the selection of many indices (MSelect.v). *)
From Verif Require Export PSelect.
From Coq Require Import NArith.
From stdpp Require Import list.

Lemma StronglySorted_app_iff {T} (R : T → T → Prop) l1 l2 :
  StronglySorted R (l1 ++ l2) ↔
  StronglySorted R l1 ∧ StronglySorted R l2 ∧ (∀ x y, x ∈ l1 → y ∈ l2 → R x y).
Proof.
  induction l1 as [|a l1 IH]; simpl.
  - split; [|tauto]. intros H. split; [constructor|]. split; [done|].
    intros x y Hx. by apply elem_of_nil in Hx.
  - split.
    + intros H. apply StronglySorted_inv in H as [H Ha].
      apply IH in H as (H1 & H2 & H12).
      apply Forall_app in Ha as [Ha1 Ha2].
      split; [by constructor|]. split; [done|].
      intros x y [->|Hx]%elem_of_cons Hy; [|auto].
      by eapply Forall_forall in Ha2.
    + intros (H1 & H2 & H12). apply StronglySorted_inv in H1 as [H1 Ha].
      constructor.
      * apply IH. split; [done|]. split; [done|]. intros. apply H12; [by right|done].
      * apply Forall_app. split; [done|]. apply Forall_forall. intros. apply H12; [by left|done].
Qed.

Lemma valid_split offset n ls pivot rs :
  valid_indices offset n (ls ++ pivot :: rs) ↔
  offset ≤ pivot < offset + n ∧ valid_indices offset (pivot - offset) ls ∧
  valid_indices (pivot + 1) (n - (pivot - offset + 1)) rs.
Proof.
  unfold valid_indices. rewrite StronglySorted_app_iff, Forall_app, Forall_cons.
  rewrite !Forall_forall. split.
  - intros [(Hl & Hr & Hlr) (Hbl & Hbp & Hbr)]. apply StronglySorted_inv in Hr as [Hr Hpr].
    rewrite Forall_forall in Hpr. split; [done|].
    split; (split; [done|]); intros x Hx.
    + specialize (Hbl x Hx). assert (x < pivot) by (apply Hlr; [done|left]). lia.
    + specialize (Hbr x Hx). assert (pivot < x) by (by apply Hpr). lia.
  - intros (Hp & (Hl & Hbl) & (Hr & Hbr)). split; [split; [done|split]|].
    + constructor; [done|]. apply Forall_forall. intros x Hx. specialize (Hbr x Hx). unfold Nat.lt. lia.
    + intros x y Hx [->|Hy]%elem_of_cons; [specialize (Hbl x Hx); unfold Nat.lt; lia|].
      specialize (Hbl x Hx). specialize (Hbr y Hy). unfold Nat.lt. lia.
    + split; [|split; [lia|]]; intros x Hx; [specialize (Hbl x Hx)|specialize (Hbr x Hx)]; lia.
Qed.

Global Arguments partition_at_indices : simpl never.

Section indices.
  Context {T : Type} (c : cfg) (ans : T * T → option bool → Prop).
  Notation kle := (kle ans).
  Notation selected := (selected ans).
  Implicit Types (l A B : list T).

  (** The array length fits into [usize]. *)
  Definition fits (n : nat) : Prop :=
    (N.of_nat n <= (if wide c then 2 ^ 64 else 2 ^ 32))%N.

  Definition ipanic (offset n : nat) (inds : list nat) l0 (e : exn) (l' : list T) : Prop :=
    l' ≡ₚ l0 ∧
    (spanic c ans l0 e l' ∨
     (e = AssertPanic ∨ e = OverflowPanic ∧ ovf c = true) ∧ ¬ valid_indices offset n inds).

  Lemma partition_at_indices_unfold d f n base offset i0 inds :
    partition_at_indices (T:=T) c (S d) (S f) n base offset (i0 :: inds) =
      let at_ := length (i0 :: inds) / 2 in
      match drop at_ (i0 :: inds) with
      | [] => Throw IndexPanic
      | pivot :: right_inds =>
          bind (rel_index c n pivot offset) (λ i,
          bind (partition_at_index c n i) (λ '(lv, value, rv),
          bind (slice n lv.1 (lv.1 + lv.2) (λ m,
                 partition_at_indices c d (S (length (take at_ (i0 :: inds)))) m
                   (base + lv.1) offset (take at_ (i0 :: inds)))) (λ ls,
          bind (slice n rv.1 (rv.1 + rv.2) (λ m,
                 partition_at_indices c (S d) f m (base + rv.1) (pivot + 1) right_inds)) (λ rs,
          Ret (ls ++ (pivot, base + value) :: rs)))))
      end.
  Proof. reflexivity. Qed.

  Lemma partition_at_indices_spec d fuel n base offset inds l :
    n = length l → length inds < fuel → length inds < 2 ^ d → fits (offset + n) →
    wp ans (partition_at_indices c (S d) fuel n base offset inds)
      (λ r l', l' ≡ₚ l ∧ valid_indices offset n inds ∧
         r = map (λ i, (i, base + (i - offset))) inds ∧
         (zst c = false → Forall (λ i, selected l' (i - offset)) inds))
      (ipanic offset n inds l) l.
  Proof.
    revert fuel n base offset inds l.
    induction d as [d IHd] using lt_wf_ind. intros fuel.
    induction fuel as [|f IHf]; intros n base offset inds l Hn Hf Hd Hfit; [lia|].
    destruct inds as [|i0 inds0].
    { cbn. apply wp_ret. split; [done|]. split; [by split; constructor|]. split; [done|].
      intros _. constructor. }
    rewrite partition_at_indices_unfold.
    remember (i0 :: inds0) as inds eqn:Hinds.
    assert (Hlen : 0 < length inds) by (subst; simpl; lia). clear Hinds i0 inds0.
    cbv zeta. set (at_ := length inds / 2).
    assert (Hat : at_ < length inds) by (apply Nat.div_lt; lia).
    assert (Hat2 : 2 * at_ ≤ length inds) by (apply Nat.mul_div_le; lia).
    assert (Hat3 : length inds ≤ 2 * at_ + 1).
    { unfold at_. pose proof (Nat.div_mod (length inds) 2).
      pose proof (Nat.mod_upper_bound (length inds) 2). lia. }
    clearbody at_.
    assert (Hsplit : inds = take at_ inds ++ drop at_ inds) by (by rewrite take_drop).
    assert (Hll : length (take at_ inds) = at_) by (rewrite take_length; lia).
    destruct (drop at_ inds) as [|pivot rinds] eqn:Hdrop.
    { apply (f_equal length) in Hdrop. rewrite drop_length in Hdrop. simpl in Hdrop. lia. }
    set (linds := take at_ inds) in *. clearbody linds. clear Hdrop. subst inds.
    rewrite app_length in *. simpl in *.
    (* the relative index *)
    apply wp_bind.
    eapply (wp_mono _ _ (λ i l', l' = l ∧ (i = pivot - offset ∧ offset ≤ pivot ∨
        n ≤ i ∧ pivot < offset)) _ (ipanic offset n (linds ++ pivot :: rinds) l)); [| |by auto].
    { unfold rel_index. destruct (Nat.leb_spec offset pivot); [by apply wp_ret; auto|].
      destruct (ovf c) eqn:Hovf.
      - apply wp_throw. split; [done|]. right. split; [by right|].
        rewrite valid_split. lia.
      - apply wp_ret. split; [done|]. right. split; [|done].
        destruct (N.ltb_spec (N.of_nat pivot + (if wide c then 2 ^ 64 else 2 ^ 32) - N.of_nat offset)
          (N.of_nat n)); [|done].
        exfalso. unfold fits in Hfit. destruct (wide c); lia. }
    intros i l' _ [-> Hi].
    (* the selection *)
    apply wp_bind. wp_apply (partition_at_index_spec c ans n i l); [done| |].
    2: { intros e l' _ [[Hs Hin]|(-> & Hni & ->)].
         - split; [by destruct Hs|auto].
         - split; [done|]. right. split; [auto|]. rewrite valid_split. lia. }
    intros [[lv value] rv] l1 Hl1 (Hp1 & Hin & Hparts & Hsel).
    unfold parts in Hparts. injection Hparts as -> -> ->. simpl.
    destruct Hi as [[-> Hop]|[? ?]]; [|lia].
    set (i := pivot - offset) in *.
    (* split the array *)
    assert (∃ A p B, l1 = A ++ p :: B ∧ length A = i ∧
       (zst c = false → Forall (λ x, kle x p) A ∧ Forall (kle p) B))
      as (A & p & B & -> & HlA & HAB).
    { destruct (zst c) eqn:Hz.
      - destruct (lookup_lt_is_Some_2 l1 i) as [p Hp]; [lia|].
        exists (take i l1), p, (drop (S i) l1). split; [by rewrite take_drop_middle|].
        split; [rewrite take_length; lia|done].
      - destruct (selected_inv _ _ _ (Hsel eq_refl)) as (A & p & B & ? & ? & ? & ?).
        exists A, p, B. auto. }
    rewrite app_length in Hl1. simpl in Hl1.
    (* left *)
    apply wp_bind. change (A ++ p :: B) with ([] ++ A ++ p :: B).
    apply wp_slice_app; [done|simpl; lia|lia|].
    assert (Hdpos : d ≠ 0) by (intros ->; simpl in Hd; lia).
    assert (Hpow : 2 ^ d = 2 * 2 ^ (d - 1)).
    { replace d with (S (d - 1)) at 1 by lia. by rewrite Nat.pow_succ_r'. }
    replace d with (S (d - 1)) at 1 by lia.
    wp_apply (IHd (d - 1) ltac:(lia) (S (length linds)) (length A) (base + 0) offset linds A);
      [done|lia|lia|unfold fits in *; destruct (wide c); lia| |].
    2: { intros e A' HlA' [HpA He] _. simpl. split; [by rewrite HpA|].
         destruct He as [[_ He]|[He Hv]].
         - left. split; [by rewrite HpA|done].
         - right. split; [done|]. rewrite valid_split. intros (_ & Hvl & _).
           apply Hv. by replace (length A) with (pivot - offset) by lia. }
    intros ls A' HlA' (HpA & HvA & -> & HsA) _. simpl.
    (* right *)
    apply wp_bind.
    replace (A' ++ p :: B) with ((A' ++ [p]) ++ B ++ []) by (by rewrite app_nil_r, <-app_assoc).
    apply wp_slice_app; [rewrite app_length; simpl; lia|lia|lia|].
    wp_apply (IHf (length B) (base + (i + 1)) (pivot + 1) rinds B);
      [done|lia|lia|unfold fits in *; destruct (wide c); lia| |].
    2: { intros e B' HlB' [HpB He] _. rewrite app_nil_r, <-app_assoc. simpl.
         assert (HpAll : A' ++ p :: B' ≡ₚ l) by (rewrite HpA, HpB; done).
         split; [done|].
         destruct He as [[_ He]|[He Hv]].
         - left. by split.
         - right. split; [done|]. rewrite valid_split. intros (_ & _ & Hvr).
           apply Hv. by replace (length B) with (n - (pivot - offset + 1)) by lia. }
    intros rs B' HlB' (HpB & HvB & -> & HsB) _. rewrite app_nil_r, <-app_assoc. simpl.
    apply wp_ret. split; [rewrite HpA, HpB; done|].
    assert (Hv : valid_indices offset n (linds ++ pivot :: rinds)).
    { apply valid_split. split; [lia|].
      replace (pivot - offset) with (length A) by lia. split; [done|].
      by replace (n - (length A + 1)) with (length B) by lia. }
    split; [done|]. split.
    { rewrite map_app. simpl. f_equal; [|f_equal].
      - apply map_ext. intros j. f_equal. lia.
      - apply map_ext_in. intros j Hj. f_equal.
        destruct HvB as [_ HvB]. rewrite Forall_forall in HvB.
        specialize (HvB j (proj2 (elem_of_list_In _ _) Hj)). lia. }
    intros Hz. specialize (HsA Hz). specialize (HsB Hz). destruct (HAB Hz) as [HA HB].
    assert (HA' : Forall (λ x, kle x p) A') by (by rewrite HpA).
    assert (HB' : Forall (kle p) B') by (by rewrite HpB).
    apply Forall_app. split; [|constructor].
    - eapply Forall_impl; [exact HsA|]. intros j. by apply selected_left.
    - replace (pivot - offset) with (length A') by lia. by apply selected_app.
    - destruct HvB as [_ HvB]. rewrite Forall_forall in HvB. rewrite Forall_forall in HsB.
      apply Forall_forall. intros j Hj. specialize (HvB j Hj). specialize (HsB j Hj).
      replace (j - offset) with (length A' + 1 + (j - (pivot + 1))) by lia.
      by apply selected_right.
  Qed.
End indices.
