(** * Proofs about the heap sort of MHeap.v. *)
From Verif Require Export WpOps MHeap.
From stdpp Require Import list.

Section heap.
  Context {T : Type} (ans : T * T → option bool → Prop).
  Notation kle := (kle ans).
  Notation klt := (klt ans).
  Notation ksorted := (ksorted ans).
  Implicit Types (l : list T).

  Definition is_child (i j : nat) : Prop := j = 2 * i + 1 ∨ j = 2 * i + 2.

  (** Every node from [s] on is not smaller than its children. *)
  Definition heap (s : nat) l : Prop :=
    ∀ i j x y, s ≤ i → is_child i j → l !! i = Some x → l !! j = Some y → kle y x.

  Lemma heap_root l x y j : heap 0 l → l !! 0 = Some x → l !! j = Some y → kle y x.
  Proof.
    intros Hh Hx. revert y. induction (lt_wf j) as [j _ IH]; intros y Hy.
    destruct (decide (j = 0)) as [->|Hj].
    { rewrite Hx in Hy. injection Hy as ->. apply kle_refl. }
    set (i := (j - 1) / 2).
    assert (Hij : is_child i j).
    { unfold is_child, i. pose proof (Nat.div_mod (j - 1) 2). pose proof (Nat.mod_upper_bound (j-1) 2).
      lia. }
    assert (Hlt : i < j) by (unfold is_child in Hij; lia).
    destruct (lookup_lt_is_Some_2 l i) as [z Hz].
    { apply lookup_lt_Some in Hy. lia. }
    apply (kle_trans ans _ z); [by apply (Hh i j); [lia|..]|]. by apply (IH i).
  Qed.

  Lemma sift_down_spec fuel n s node l :
    n = length l → 0 < fuel → n < fuel + node → s ≤ node →
    (∀ i j x y, s ≤ i → i ≠ node → is_child i j → l !! i = Some x → l !! j = Some y → kle y x) →
    (∀ i j x y, s ≤ i → is_child i node → is_child node j →
       l !! i = Some x → l !! j = Some y → kle y x) →
    wp ans (sift_down fuel n node) (λ _ l', l' ≡ₚ l ∧ heap s l') (upanic ans l) l.
  Proof.
    intros Hn. revert node l Hn.
    induction fuel as [|f IH]; intros node l Hn Hf0 Hf Hs Hh Hg; [lia|]. simpl.
    replace (node + (node + 0)) with (2 * node) by lia.
    destruct (Nat.leb_spec n (2 * node + 1)) as [Hc|Hc].
    { apply wp_ret. split; [done|]. intros i j x y Hi Hij Hx Hy.
      destruct (decide (i = node)) as [->|Hne]; [|by eapply Hh].
      apply lookup_lt_Some in Hy. unfold is_child in Hij. lia. }
    (* the greater child *)
    apply wp_bind.
    eapply (wp_mono _ _ (λ ch l', l' = l ∧ is_child node ch ∧ ch < n ∧
      ∀ j x y, is_child node j → l !! ch = Some x → l !! j = Some y → kle y x) _ (upanic ans l));
      [| |by auto].
    { destruct (Nat.ltb_spec (2 * node + 1 + 1) n).
      - apply wp_bind, wp_get; [lia|lia|]. intros a Ha.
        apply wp_bind, wp_get; [lia|lia|]. intros b Hb.
        apply wp_bind, wp_is_less.
        + intros [] Hr; (apply wp_ret; split; [done|]; split; [unfold is_child; lia|]; split; [lia|]);
            intros j x y [->| ->] Hx Hy;
            replace (2 * node + 1 + 1) with (2 * node + 2) in * by lia;
            simplify_eq; try apply kle_refl.
          * apply klt_kle. by apply ans_true.
          * by apply ans_false.
        + intros Hr. by eapply upanic_intro.
      - apply wp_ret. split; [done|]. split; [unfold is_child; lia|]. split; [lia|].
        intros j x y [->| ->] Hx Hy; simplify_eq; [apply kle_refl|].
        apply lookup_lt_Some in Hy. lia. }
    intros ch l' _ (-> & Hch & Hchn & Hmax). simpl.
    apply wp_bind, wp_get; [unfold is_child in Hch; lia|lia|]. intros a Ha.
    apply wp_bind, wp_get; [lia|lia|]. intros b Hb.
    apply wp_bind, wp_is_less; [|intros Hr; by eapply upanic_intro].
    assert (Hlt : node < ch) by (unfold is_child in Hch; lia).
    intros [] Hr.
    - apply wp_bind, wp_swap; [lia|lia|lia|].
      assert (Hab : kle a b) by (by apply klt_kle, ans_true).
      wp_apply (IH ch (swapl node ch l)).
      + by rewrite swapl_length.
      + lia.
      + lia.
      + lia.
      + intros i j x y Hi Hne Hij Hx Hy.
        rewrite lookup_swapl in Hx by lia. rewrite lookup_swapl in Hy by lia.
        rewrite (decide_False (P := i = ch)) in Hx by done.
        destruct (decide (i = node)) as [->|Hin].
        * rewrite decide_False in Hy by (unfold is_child in Hij; lia).
          rewrite Hb in Hx. injection Hx as <-.
          destruct (decide (j = ch)) as [->|].
          -- rewrite Ha in Hy. by injection Hy as <-.
          -- by eapply Hmax.
        * destruct (decide (j = node)) as [->|Hjn].
          -- rewrite Hb in Hy. injection Hy as <-. by apply (Hg i ch).
          -- destruct (decide (j = ch)) as [->|].
             ++ unfold is_child in *. lia.
             ++ by apply (Hh i j).
      + intros i j x y Hi Hic Hcj Hx Hy.
        assert (i = node) as -> by (unfold is_child in *; lia).
        rewrite lookup_swapl in Hx by lia. rewrite lookup_swapl in Hy by lia.
        rewrite decide_True in Hx by done.
        rewrite !decide_False in Hy by (unfold is_child in *; lia).
        apply (Hh ch j); auto; lia.
      + intros [] l' _ [Hp Hh']. split; [|done]. rewrite Hp. apply swapl_perm; lia.
      + intros e l' _ Hu. eapply upanic_perm; [exact Hu|]. apply swapl_perm; lia.
    - apply wp_ret. split; [done|]. intros i j x y Hi Hij Hx Hy.
      destruct (decide (i = node)) as [->|Hne]; [|by apply (Hh i j)].
      rewrite Ha in Hx. injection Hx as <-.
      apply (kle_trans ans _ b); [by eapply Hmax|]. by apply ans_false.
  Qed.

  Lemma heap_sort_spec n l :
    n = length l →
    wp ans (heap_sort n) (λ _ l', l' ≡ₚ l ∧ ksorted l') (upanic ans l) l.
  Proof.
    intros Hn. unfold heap_sort. apply wp_bind.
    eapply wp_mono; [apply (wp_for_down ans 0 (n / 2) _
      (λ i m, m ≡ₚ l ∧ heap i m) (upanic ans l))| |by auto].
    - split; [done|]. intros i j x y Hi Hij _ Hy. apply lookup_lt_Some in Hy.
      pose proof (Nat.div_mod n 2). pose proof (Nat.mod_upper_bound n 2).
      unfold is_child in Hij. lia.
    - intros i m Hi [Hp Hh]. assert (Hlm : length m = n) by (by rewrite Hp).
      wp_apply (sift_down_spec (S n) n i i m); [lia|lia|lia|lia| | | |].
      + intros i' j x y Hi' Hne. apply Hh. lia.
      + intros i' j x y Hi' Hic. unfold is_child in Hic. lia.
      + intros [] m' _ [Hp' Hh']. split; [by rewrite Hp'|done].
      + intros e m' _ Hu. by eapply upanic_perm.
    - intros [] m _ [Hp Hh].
      assert (Hlm : length m = n) by (by rewrite Hp).
      set (I := λ i (k : list T), k ≡ₚ l ∧ heap 0 (take i k) ∧ ksorted (drop i k) ∧
                 (∀ x y, x ∈ take i k → y ∈ drop i k → kle x y)).
      eapply wp_mono; [apply (wp_for_down ans 1 (n - 1) _ I (upanic ans l))| |by auto].
      + split; [done|]. rewrite (take_ge m) by lia. rewrite (drop_ge m) by lia.
        split; [done|]. split; [constructor|]. set_solver.
      + intros i k Hi (Hpk & Hhk & Hsk & Hxy).
        assert (Hlk : length k = n) by (by rewrite Hpk).
        apply wp_bind, wp_swap; [lia|lia|lia|].
        set (k1 := swapl 0 i k).
        assert (Hlk1 : length k1 = n) by (unfold k1; by rewrite swapl_length).
        assert (Hpk1 : k1 ≡ₚ k) by (apply swapl_perm; lia).
        destruct (lookup_lt_is_Some_2 k 0) as [z Hz]; [lia|].
        assert (Hz1 : k1 !! i = Some z).
        { unfold k1. rewrite lookup_swapl by lia. rewrite decide_False, decide_True by lia. done. }
        assert (Hd1 : drop (S i) k1 = drop (S i) k).
        { apply list_eq. intros q. rewrite !lookup_drop. unfold k1. rewrite lookup_swapl by lia.
          by rewrite !decide_False by lia. }
        assert (Ht1 : take (S i) k1 ≡ₚ take (S i) k).
        { apply (Permutation_app_inv_r (drop (S i) k)).
          rewrite <-Hd1 at 1. by rewrite !take_drop. }
        apply wp_slice; [lia|lia|lia|]. rewrite Nat.sub_0_r. change (drop 0 k1) with k1.
        wp_apply (sift_down_spec (S i) i 0 0 (take i k1)).
        * rewrite take_length; lia.
        * lia.
        * lia.
        * lia.
        * intros i' j x y _ Hne Hij Hx Hy.
          assert (i' < i ∧ j < i) as [Hi' Hj].
          { apply lookup_lt_Some in Hx, Hy. rewrite take_length in *. lia. }
          rewrite lookup_take in Hx, Hy by done.
          unfold k1 in Hx, Hy. rewrite lookup_swapl in Hx, Hy by lia.
          rewrite !decide_False in Hx by lia.
          rewrite !decide_False in Hy by (unfold is_child in *; lia).
          apply (Hhk i' j); [lia|done|by rewrite lookup_take by lia|by rewrite lookup_take by lia].
        * intros i' j x y _ Hic. unfold is_child in Hic. lia.
        * intros [] k2 _ [Hp2 Hh2] Hl2. simpl.
          assert (Hpk2 : k2 ++ drop i k1 ≡ₚ k1) by (by rewrite Hp2, take_drop).
          rewrite (drop_S k1 z i) by done. rewrite Hd1.
          assert (Hin : ∀ x, x ∈ take i k1 → x ∈ take (S i) k).
          { intros x Hx. rewrite <-Ht1. rewrite (take_S_r _ _ z) by done. set_solver. }
          assert (Hin2 : ∀ x, x ∈ take (S i) k → kle x z).
          { intros x [j Hj]%elem_of_list_lookup. eapply (heap_root _ z x j); [exact Hhk| |exact Hj].
            by rewrite lookup_take by lia. }
          assert (Hz2 : z ∈ take (S i) k).
          { apply elem_of_list_lookup. exists 0. by rewrite lookup_take by lia. }
          split; [|split; [|split]].
          -- trans k1; [|by rewrite Hpk1]. rewrite <-Hpk2. rewrite (drop_S k1 z i) by done. by rewrite Hd1.
          -- by rewrite take_app_alt by done.
          -- rewrite drop_app_alt by done. constructor; [done|].
             apply Forall_forall. intros y Hy. by apply Hxy.
          -- rewrite take_app_alt, drop_app_alt by done.
             intros x y Hx Hy. rewrite Hp2 in Hx.
             apply elem_of_cons in Hy as [->|Hy]; auto.
        * intros e k2 _ (He & Hex & Hp2) Hl2. split; [done|]. split; [done|]. simpl.
          rewrite Hp2. rewrite take_drop. by rewrite Hpk1.
      + intros [] k _ (Hpk & _ & Hsk & Hxy). split; [done|].
        destruct k as [|x k]; [constructor|].
        change (x :: k) with ([x] ++ k). apply ksorted_app.
        split; [apply ksorted_singleton|]. split; [done|]. intros; by apply Hxy.
  Qed.
End heap.
