(** * Proofs about MInsertion.v *)
From Verif Require Export WpOps MInsertion.
From stdpp Require Import list.

Section insertion.
  Context {T : Type} (c : cfg) (ans : T * T → option bool → Prop).
  Implicit Types (l : list T).
  Notation kle := (kle ans).
  Notation klt := (klt ans).
  Notation ksorted := (ksorted ans).
  Notation sperm := (sperm ans).

  (** Where an element [x] was inserted among [A]. *)
  Definition inserted_left (A : list T) (x : T) (l' : list T) : Prop :=
    ∃ A1 A2, A = A1 ++ A2 ∧ l' = A1 ++ x :: A2 ∧ Forall (klt x) A2 ∧
             (∀ y, last A1 = Some y → kle y x).

  Lemma insert_tail_loop_spec tmp n A g B :
    n = length (A ++ g :: B) →
    wp ans (insert_tail_loop n tmp (length A))
      (λ _ l', ∃ A1 A2, A = A1 ++ A2 ∧ l' = A1 ++ tmp :: A2 ++ B ∧ Forall (klt tmp) A2 ∧
                        (∀ y, last A1 = Some y → kle y tmp))
      (upanic ans (A ++ tmp :: B)) (A ++ g :: B).
  Proof.
    revert g B. induction A as [|y A IH] using rev_ind; intros g B Hn.
    - simpl. apply wp_uput; [rewrite Hn; simpl; lia|by rewrite Hn|]. simpl.
      exists [], []. repeat split; auto. done.
    - rewrite app_length in Hn; simpl in Hn. rewrite app_length in Hn; simpl in Hn.
      rewrite app_length. simpl. rewrite Nat.add_1_r. simpl.
      assert (Hlen : length ((A ++ [y]) ++ g :: B) = n).
      { rewrite !app_length; simpl. lia. }
      apply wp_bind, wp_uget; [lia|lia|]. intros y' Hy'.
      rewrite <-app_assoc in Hy'. simpl in Hy'. rewrite lookup_middle in Hy'.
      injection Hy' as <-.
      assert (Hins : ∀ x, <[S (length A):=x]> ((A ++ [y]) ++ g :: B) = (A ++ [y]) ++ x :: B).
      { intros x. rewrite <-(insert_middle (A ++ [y]) g B x).
        by rewrite app_length, Nat.add_1_r. }
      apply wp_bind, wp_is_less_guard.
      + intros [] Hr.
        * apply wp_bind, wp_uput; [lia|lia|]. rewrite Hins.
          replace ((A ++ [y]) ++ y :: B) with (A ++ y :: (y :: B)) by (by rewrite <-app_assoc).
          wp_apply (IH y (y :: B)).
          { rewrite app_length. simpl. lia. }
          -- intros [] l' _ (A1 & A2 & -> & -> & HA2 & HA1). exists A1, (A2 ++ [y]).
             rewrite <-!app_assoc. repeat split; auto.
             apply Forall_app; split; [done|]. repeat constructor.
             by apply ans_true.
          -- intros e l' _ Hu. eapply upanic_perm; [exact Hu|]. rewrite <-app_assoc. simpl.
             apply Permutation_app; [done|]. constructor.
        * apply wp_uput; [lia|lia|]. rewrite Hins.
          exists (A ++ [y]), []. rewrite app_nil_r. repeat split; auto.
          intros z Hz. rewrite last_snoc in Hz. injection Hz as <-. by apply ans_false.
      + intros Hr. apply wp_uput; [lia|lia|]. rewrite Hins.
        eapply upanic_intro; [done|]. done.
  Qed.

  Lemma inserted_left_sperm A x l' : inserted_left A x l' → sperm (A ++ [x]) l'.
  Proof.
    intros (A1 & A2 & -> & -> & HA2 & _). rewrite <-app_assoc.
    apply sperm_app_l. by apply sperm_move_left.
  Qed.
  Lemma inserted_left_sorted A x l' : ksorted A → inserted_left A x l' → ksorted l'.
  Proof.
    intros Hs (A1 & A2 & -> & -> & HA2 & HA1).
    apply ksorted_app in Hs as (Hs1 & Hs2 & Hs12).
    assert (HA1' : ∀ y, y ∈ A1 → kle y x).
    { destruct A1 as [|z A1 _] using rev_ind; [set_solver|].
      intros y [Hy| ->%elem_of_list_singleton]%elem_of_app.
      - apply ksorted_app in Hs1 as (_ & _ & Hz). apply (kle_trans ans _ z); [apply Hz; set_solver|].
        apply HA1. apply last_snoc.
      - apply HA1, last_snoc. }
    apply ksorted_app. split; [done|]. split.
    - constructor; [done|]. eapply Forall_impl; [exact HA2|]. intros. by apply klt_kle.
    - intros a b Ha [->|Hb]%elem_of_cons; auto.
  Qed.

  Lemma insert_tail_spec n A x :
    n = S (length A) → A ≠ [] →
    wp ans (insert_tail c n) (λ _ l', inserted_left A x l')
      (upanic ans (A ++ [x])) (A ++ [x]).
  Proof.
    intros Hn HA. destruct A as [|y A _] using rev_ind; [done|]. clear HA.
    rewrite app_length in Hn. simpl in Hn.
    assert (Hlen : length ((A ++ [y]) ++ [x]) = n) by (rewrite !app_length; simpl; lia).
    unfold insert_tail.
    apply wp_bind, wp_dassert; [apply Nat.leb_le; lia|].
    apply wp_bind, wp_usub; [lia|].
    apply wp_bind, wp_usub; [lia|].
    replace (n - 1) with (length (A ++ [y])) by (rewrite app_length; simpl; lia).
    replace (length (A ++ [y]) - 1) with (length A) by (rewrite app_length; simpl; lia).
    assert (HLy : ∀ z, ((A ++ [y]) ++ [z]) !! length A = Some y).
    { intros. rewrite <-app_assoc. apply lookup_middle. }
    assert (Hsl : length (A ++ [y]) < n) by (rewrite app_length; simpl; lia).
    apply wp_bind, wp_uget; [lia|lia|]. intros x' Hx'.
    rewrite lookup_middle in Hx'. injection Hx' as <-.
    apply wp_bind, wp_uget; [lia|lia|]. intros y' Hy'.
    rewrite HLy in Hy'. injection Hy' as <-.
    apply wp_bind, wp_is_less.
    - intros [] Hr.
      + apply wp_bind, wp_uget; [lia|lia|]. intros x' Hx'.
        rewrite lookup_middle in Hx'. injection Hx' as <-.
        apply wp_bind, wp_uget; [lia|lia|]. intros y' Hy'.
        rewrite HLy in Hy'. injection Hy' as <-.
        apply wp_bind, wp_uput; [lia|lia|]. rewrite insert_middle.
        replace ((A ++ [y]) ++ [y]) with (A ++ y :: [y]) by (by rewrite <-app_assoc).
        wp_apply (insert_tail_loop_spec x n A y [y]).
        { rewrite app_length; simpl; lia. }
        * intros [] l' _ (A1 & A2 & -> & -> & HA2 & HA1). exists A1, (A2 ++ [y]).
          rewrite <-app_assoc. repeat split; auto.
          apply Forall_app; split; [done|]. repeat constructor. by apply ans_true.
        * intros e l' _ Hu. eapply upanic_perm; [exact Hu|]. rewrite <-app_assoc. simpl.
          apply Permutation_app; [done|]. constructor.
      + simpl. exists (A ++ [y]), []. rewrite app_nil_r. repeat split; auto.
        intros z Hz. rewrite last_snoc in Hz. injection Hz as <-. by apply ans_false.
    - intros Hr. by eapply upanic_intro.
  Qed.

  (** Insert [x] from the front into [A]. *)
  Definition inserted_right (x : T) (A : list T) (l' : list T) : Prop :=
    ∃ A1 A2, A = A1 ++ A2 ∧ l' = A1 ++ x :: A2 ∧ Forall (λ y, klt y x) A1 ∧
             (∀ y, head A2 = Some y → kle x y).

  Lemma inserted_right_sperm A x l' : inserted_right x A l' → sperm (x :: A) l'.
  Proof.
    intros (A1 & A2 & -> & -> & HA2 & _).
    change (x :: A1 ++ A2) with ((x :: A1) ++ A2).
    replace (A1 ++ x :: A2) with ((A1 ++ [x]) ++ A2) by (by rewrite <-app_assoc).
    apply sperm_app_r. by apply sperm_move_right.
  Qed.
  Lemma inserted_right_sorted A x l' : ksorted A → inserted_right x A l' → ksorted l'.
  Proof.
    intros Hs (A1 & A2 & -> & -> & HA1 & HA2).
    apply ksorted_app in Hs as (Hs1 & Hs2 & Hs12).
    apply ksorted_app. split; [done|]. split.
    - constructor; [done|]. destruct A2 as [|z A2]; [constructor|].
      assert (kle x z) by (by apply HA2).
      constructor; [done|]. apply StronglySorted_inv in Hs2 as [_ Hz].
      eapply Forall_impl; [exact Hz|]. intros. by eapply kle_trans.
    - intros a b Ha [->|Hb]%elem_of_cons; [|auto].
      apply klt_kle. by eapply Forall_forall in HA1.
  Qed.

  Lemma insert_head_loop_spec tmp n A g B :
    n = length (A ++ g :: B) →
    wp ans (insert_head_loop n tmp (S (length A)) (length B))
      (λ _ l', ∃ B1 B2, B = B1 ++ B2 ∧ l' = A ++ B1 ++ tmp :: B2 ∧ Forall (λ y, klt y tmp) B1 ∧
                        (∀ y, head B2 = Some y → kle tmp y))
      (upanic ans (A ++ tmp :: B)) (A ++ g :: B).
  Proof.
    revert A g. induction B as [|y B IH]; intros A g Hn; simpl; rewrite Nat.sub_0_r.
    - rewrite app_length in Hn; simpl in Hn.
      apply wp_uput; [lia|rewrite app_length; simpl; lia|]. rewrite insert_middle.
      exists [], []. repeat split; auto. done.
    - rewrite app_length in Hn; simpl in Hn.
      assert (Hlen : length (A ++ g :: y :: B) = n) by (rewrite app_length; simpl; lia).
      apply wp_bind, wp_uget; [lia|lia|]. intros y' Hy'.
      rewrite lookup_app_r in Hy' by lia.
      replace (S (length A) - length A) with 1 in Hy' by lia. injection Hy' as <-.
      apply wp_bind, wp_is_less_guard.
      + intros [] Hr.
        * apply wp_bind, wp_uput; [lia|lia|]. rewrite insert_middle.
          replace (A ++ y :: y :: B) with ((A ++ [y]) ++ y :: B) by (by rewrite <-app_assoc).
          replace (S (S (length A))) with (S (length (A ++ [y]))) by (rewrite app_length; simpl; lia).
          wp_apply (IH (A ++ [y]) y).
          { rewrite !app_length; simpl; lia. }
          -- intros [] l' _ (B1 & B2 & -> & -> & HB1 & HB2). exists (y :: B1), B2.
             rewrite <-app_assoc. repeat split; auto. constructor; [|done]. by apply ans_true.
          -- intros e l' _ Hu. eapply upanic_perm; [exact Hu|]. rewrite <-app_assoc. simpl.
             apply Permutation_app; [done|]. constructor.
        * apply wp_uput; [lia|lia|]. rewrite insert_middle.
          exists [], (y :: B). repeat split; auto.
          intros z Hz. injection Hz as <-. by apply ans_false.
      + intros Hr. apply wp_uput; [lia|lia|]. rewrite insert_middle. by eapply upanic_intro.
  Qed.

  Lemma insert_head_spec n x A :
    n = S (length A) → A ≠ [] →
    wp ans (insert_head c n) (λ _ l', inserted_right x A l')
      (upanic ans (x :: A)) (x :: A).
  Proof.
    intros Hn HA. destruct A as [|y A]; [done|]. clear HA. simpl in Hn.
    unfold insert_head.
    apply wp_bind, wp_dassert; [apply Nat.leb_le; lia|].
    apply wp_bind, wp_uget; [lia|simpl; lia|]. intros y' Hy'. injection Hy' as <-.
    apply wp_bind, wp_uget; [lia|simpl; lia|]. intros x' Hx'. injection Hx' as <-.
    apply wp_bind, wp_is_less.
    - intros [] Hr.
      + apply wp_bind, wp_uget; [lia|simpl; lia|]. intros x' Hx'. injection Hx' as <-.
        apply wp_bind, wp_uget; [lia|simpl; lia|]. intros y' Hy'. injection Hy' as <-.
        apply wp_bind, wp_uput; [lia|simpl; lia|]. simpl.
        replace (n - 2) with (length A) by lia.
        wp_apply (insert_head_loop_spec x n [y] y A).
        { simpl. lia. }
        * intros [] l' _ (B1 & B2 & -> & -> & HB1 & HB2). exists (y :: B1), B2.
          repeat split; auto. constructor; [|done]. by apply ans_true.
        * intros e l' _ Hu. eapply upanic_perm; [exact Hu|]. constructor.
      + simpl. exists [], (y :: A). repeat split; auto.
        intros z Hz. injection Hz as <-. by apply ans_false.
    - intros Hr. by eapply upanic_intro.
  Qed.

  Lemma insertion_sort_shift_left_spec n offset l :
    n = length l → 0 < offset ≤ n →
    wp ans (insertion_sort_shift_left c n offset)
      (λ _ l', sperm l l' ∧ (ksorted (take offset l) → ksorted l'))
      (upanic ans l) l.
  Proof.
    intros Hn Hoff. unfold insertion_sort_shift_left.
    apply wp_bind, wp_assert.
    { rewrite (proj2 (Nat.leb_le _ _)) by lia. rewrite (proj2 (Nat.eqb_neq _ _)) by lia. done. }
    eapply wp_mono; [apply (wp_for_up ans offset (n - offset) _
      (λ i m, length m = n ∧ sperm l m ∧ drop i m = drop i l ∧
              (ksorted (take offset l) → ksorted (take i m))) (upanic ans l))| |].
    - repeat split; auto; reflexivity.
    - intros i m Hi (Hm & Hp & Hd & Hs).
      destruct (lookup_lt_is_Some_2 m i) as [x Hx]; [lia|].
      assert (Hmm : m = [] ++ (take i m ++ [x]) ++ drop (S i) m).
      { simpl. rewrite <-take_S_r by done. by rewrite take_drop. }
      rewrite Hmm at 1.
      assert (Hti : length (take i m) = i) by (rewrite take_length; lia).
      assert (Hli : length (take i m ++ [x]) = S i) by (rewrite app_length; simpl; lia).
      apply wp_slice_app; [done|rewrite Hli; lia|lia|].
      rewrite Hli.
      wp_apply insert_tail_spec.
      + lia.
      + intros Hnil. rewrite Hnil in Hti. simpl in Hti. lia.
      + intros [] l' _ Hins Hl'.
        assert (Hsp : sperm m (l' ++ drop (S i) m)).
        { rewrite Hmm at 1. simpl. apply sperm_app_r. by apply inserted_left_sperm. }
        simpl. repeat split.
        * rewrite <-Hm. by apply (sperm_length ans).
        * by etrans.
        * rewrite drop_app_alt by done. by apply drop_eq_ge with i; [lia|].
        * intros Hso. rewrite take_app_alt by done.
          eapply inserted_left_sorted; [|exact Hins]. auto.
      + intros e l' _ (He & Hex & Hpp) Hl'. simpl. split; [done|]. split; [done|].
        trans m; [|by apply (sperm_perm ans)]. rewrite Hpp.
        rewrite <-take_S_r by done. by rewrite take_drop.
    - intros [] m _ (Hm & Hp & _ & Hs). split; [done|].
      intros Ho. replace (offset + (n - offset)) with n in Hs by lia.
      rewrite (take_ge m) in Hs by lia. auto.
    - auto.
  Qed.

  Lemma insertion_sort_shift_right_spec n offset l :
    n = length l → 0 < offset → offset ≤ n → 2 ≤ n → offset < n →
    wp ans (insertion_sort_shift_right c n offset)
      (λ _ l', sperm l l' ∧ (ksorted (drop offset l) → ksorted l'))
      (upanic ans l) l.
  Proof.
    intros Hn Hoff Hoff2 H2 Hlt. unfold insertion_sort_shift_right.
    apply wp_bind, wp_assert.
    { rewrite !(proj2 (Nat.leb_le _ _)) by lia. rewrite (proj2 (Nat.eqb_neq _ _)) by lia. done. }
    eapply wp_mono; [apply (wp_for_down ans 0 offset _
      (λ i m, length m = n ∧ sperm l m ∧ take i m = take i l ∧
              (ksorted (drop offset l) → ksorted (drop i m))) (upanic ans l))| |].
    - repeat split; auto; reflexivity.
    - intros i m Hi (Hm & Hp & Hd & Hs).
      destruct (lookup_lt_is_Some_2 m i) as [x Hx]; [lia|].
      assert (Hmm : m = take i m ++ (x :: drop (S i) m) ++ []).
      { rewrite app_nil_r. by rewrite take_drop_middle. }
      rewrite Hmm at 1.
      assert (Hti : length (take i m) = i) by (rewrite take_length; lia).
      assert (Hli : length (x :: drop (S i) m) = n - i) by (simpl; rewrite drop_length; lia).
      apply wp_slice_app; [done|rewrite Hli; lia|lia|].
      rewrite Hli.
      wp_apply insert_head_spec.
      + simpl in Hli. lia.
      + intros Hnil. rewrite Hnil in Hli. simpl in Hli. lia.
      + intros [] l' _ Hins Hl'. rewrite app_nil_r.
        assert (Hsp : sperm m (take i m ++ l')).
        { rewrite Hmm at 1. rewrite app_nil_r. apply sperm_app_l. by apply inserted_right_sperm. }
        repeat split.
        * rewrite <-Hm. by apply (sperm_length ans).
        * by etrans.
        * rewrite take_app_alt by done. by apply take_eq_le with (S i); [lia|].
        * intros Hso. rewrite drop_app_alt by done.
          eapply inserted_right_sorted; [|exact Hins]. auto.
      + intros e l' _ (He & Hex & Hpp) Hl'. rewrite app_nil_r. split; [done|]. split; [done|].
        trans m; [|by apply (sperm_perm ans)]. rewrite Hpp.
        by rewrite take_drop_middle.
    - intros [] m _ (Hm & Hp & _ & Hs). split; [done|].
      intros Ho. change (drop 0 m) with m in Hs. auto.
    - auto.
  Qed.

  Lemma take_S_sorted l i x y :
    ksorted (take i l) → 0 < i → l !! (i - 1) = Some y → l !! i = Some x → kle y x →
    ksorted (take (S i) l).
  Proof.
    intros Hs Hi Hy Hx Hxy. rewrite (take_S_r _ _ x) by done.
    apply ksorted_app. split; [done|]. split; [apply ksorted_singleton|].
    intros a b Ha ->%elem_of_list_singleton.
    apply elem_of_list_lookup in Ha as [j Hj].
    assert (Hji : j < i).
    { apply lookup_lt_Some in Hj. rewrite take_length in Hj. lia. }
    eapply kle_trans; [|exact Hxy].
    eapply (ksorted_lookup_le ans _ j (i - 1)); [exact Hs|lia|exact Hj|].
    rewrite lookup_take by lia. done.
  Qed.

  Lemma find_unsorted_spec fuel n i l :
    n = length l → 0 < i → n < fuel + i → 0 < fuel →
    wp ans (find_unsorted fuel n i)
      (λ j l', l' = l ∧ i ≤ j ∧ (j ≤ n ∨ j = i) ∧ (ksorted (take i l) → ksorted (take j l)))
      (upanic ans l) l.
  Proof.
    intros Hn. revert i. induction fuel as [|f IH]; intros i Hi Hf Hf0; [lia|]. simpl.
    destruct (Nat.ltb_spec i n).
    - apply wp_bind, wp_usub; [lia|].
      apply wp_bind, wp_uget; [lia|lia|]. intros x Hx.
      apply wp_bind, wp_uget; [lia|lia|]. intros y Hy.
      apply wp_bind, wp_is_less.
      + intros [] Hr.
        * apply wp_ret. repeat split; auto.
        * destruct (decide (f = 0)) as [->|Hf']; [lia|].
          wp_apply (IH (S i)); [lia|lia|lia| |auto].
          intros j l' _ (-> & Hj & Hjn & Hs). repeat split; [lia|lia|].
          intros Hs'. apply Hs. eapply take_S_sorted; eauto. by apply ans_false.
      + intros Hr. by eapply upanic_intro.
    - apply wp_ret. repeat split; auto.
  Qed.

  Lemma partial_insertion_steps_spec steps n i l l0 :
    n = length l → 0 < i → (i ≤ n ∨ i = 1) → ksorted (take i l) → l ≡ₚ l0 →
    wp ans (partial_insertion_steps c steps n i)
      (λ b l', l' ≡ₚ l0 ∧ (b = true → ksorted l'))
      (upanic ans l0) l.
  Proof.
    revert i l. induction steps as [|st IH]; intros i l Hn Hi Hin Hs Hp; simpl.
    - apply wp_ret. done.
    - apply wp_bind. wp_apply (find_unsorted_spec (S n) n i l); [done|done|lia|lia| |].
      2: { intros e l' _ Hu. by eapply upanic_perm. }
      intros j l' _ (-> & Hj & Hjn & Hsj). specialize (Hsj Hs).
      destruct (Nat.eqb_spec j n) as [->|Hne].
      { apply wp_ret. split; [done|]. intros _. by rewrite (take_ge l) in Hsj by lia. }
      destruct (Nat.ltb_spec n SHORTEST_SHIFTING).
      { apply wp_ret. done. }
      unfold SHORTEST_SHIFTING in *.
      apply wp_bind, wp_usub; [lia|].
      apply wp_bind, wp_swap; [lia|lia|lia|].
      set (l1 := swapl (j - 1) j l).
      assert (Hl1 : length l1 = n) by (unfold l1; by rewrite swapl_length).
      assert (Hp1 : l1 ≡ₚ l0).
      { rewrite <-Hp. apply swapl_perm; lia. }
      assert (Ht1 : take (j - 1) l1 = take (j - 1) l).
      { apply list_eq_same_length with (j - 1); [rewrite take_length; lia|rewrite take_length; lia|].
        intros k x y Hk. rewrite !lookup_take by done. unfold l1.
        rewrite lookup_swapl by lia. rewrite !decide_False by lia. congruence. }
      assert (Hts : ksorted (take (j - 1) l1)).
      { rewrite Ht1. rewrite <-(Nat.min_l (j - 1) j) by lia. rewrite <-take_take.
        by apply ksorted_sublist_take. }
      apply wp_bind.
      destruct (Nat.leb_spec 2 j).
      + apply wp_bind.
        apply wp_slice; [lia|lia|lia|]. rewrite Nat.sub_0_r. change (drop 0 l1) with l1.
        wp_apply (insertion_sort_shift_left_spec j (j - 1) (take j l1)).
        { rewrite take_length; lia. }
        { lia. }
        2: { intros e m _ (He & Hex & Hpp) Hm. split; [done|]. split; [done|].
             rewrite <-Hp1. simpl. rewrite Hpp. by rewrite take_drop. }
        intros [] m Hlm (Hsp & Hm) Hm'.
        assert (Hsm : ksorted m).
        { apply Hm. rewrite take_take, Nat.min_l by lia. done. }
        set (l2 := take 0 l1 ++ m ++ drop j l1).
        assert (Hl2 : l2 = m ++ drop j l1) by done.
        assert (Hl2n : length l2 = n) by (rewrite Hl2, app_length, drop_length; lia).
        assert (Hp2 : l2 ≡ₚ l0).
        { rewrite <-Hp1, Hl2. rewrite (sperm_perm _ _ _ Hsp). by rewrite take_drop. }
        assert (Htm : take j l2 = m) by (by rewrite Hl2, take_app_alt).
        apply wp_slice; [lia|lia|lia|]. rewrite Nat.sub_0_r. change (drop 0 l2) with l2.
        rewrite Htm.
        wp_apply (insertion_sort_shift_right_spec j 1 m); [lia|lia|lia|lia|lia| |].
        2: { intros e m2 _ (He & Hex & Hpp) Hm2. split; [done|]. split; [done|].
             rewrite <-Hp2. simpl. rewrite Hpp, <-Htm. by rewrite take_drop. }
        intros [] m2 Hlm2 (Hsp2 & Hms2) Hm2'.
        assert (Hsm2 : ksorted m2).
        { apply Hms2. by apply ksorted_sublist_drop. }
        simpl. apply IH.
        * rewrite app_length, drop_length. lia.
        * lia.
        * lia.
        * by rewrite take_app_alt.
        * rewrite <-Hp2. rewrite (sperm_perm _ _ _ Hsp2), <-Htm. by rewrite take_drop.
      + apply wp_ret. apply IH; [lia|lia|lia| |done].
        assert (j = 1) as -> by lia.
        destruct l1; [constructor|]. simpl. apply ksorted_singleton.
  Qed.

  Lemma partial_insertion_sort_spec n l :
    n = length l →
    wp ans (partial_insertion_sort c n)
      (λ b l', l' ≡ₚ l ∧ (b = true → ksorted l'))
      (upanic ans l) l.
  Proof.
    intros Hn. apply partial_insertion_steps_spec; [done|lia|lia| |done].
    destruct l as [|x l]; [constructor|]. simpl. apply ksorted_singleton.
  Qed.
End insertion.
