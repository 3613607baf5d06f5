(** * Proofs about block partitioning ([partition_in_blocks], [partition]). *)
From Verif Require Export PPartition.
From stdpp Require Import list.

Ltac mem :=
  repeat match goal with
         | H : _ ∉ _ :: _ |- _ => rewrite elem_of_cons in H
         end;
  rewrite ?elem_of_app, ?elem_of_cons, ?elem_of_nil; tauto.

Lemma ltb_0_S k : (0 <? S k) = true.
Proof. done. Qed.

Section blocks.
  Context {T : Type} (c : cfg) (ans : T * T → option bool → Prop) (pivot : T).
  Notation lo x := (klt ans x pivot).
  Notation hi x := (kle ans pivot x).
  Notation incr := (StronglySorted lt).

  Lemma incr_snoc (a : list nat) i : incr a → Forall (λ o, o < i) a → incr (a ++ [i]).
  Proof.
    induction 1 as [|x a Ha IH Hx]; intros Hi; simpl; [repeat constructor|].
    apply Forall_cons in Hi as [Hxi Hi].
    constructor; [auto|]. apply Forall_app. split; [done|]. by repeat constructor.
  Qed.
  Lemma Forall_lt_S (a : list nat) i : Forall (λ o, o < i) a → Forall (λ o, o < S i) a.
  Proof. intros H. eapply Forall_impl; [exact H|]. simpl. lia. Qed.

  (** Tracing marks exactly the misplaced elements of the block. *)
  Lemma trace_l_spec n l0 i cnt acc (l : list T) :
    n = length l → l0 + i + cnt ≤ n → i + cnt ≤ BLOCK →
    length acc ≤ i → incr acc → Forall (λ o, o < i) acc →
    (∀ o x, o < i → l !! (l0 + o) = Some x → (o ∈ acc → hi x) ∧ (o ∉ acc → lo x)) →
    wp ans (trace_l n pivot (l0 + i) i cnt acc)
      (λ off l', l' = l ∧ incr off ∧ Forall (λ o, o < i + cnt) off ∧
         (∀ o x, o < i + cnt → l !! (l0 + o) = Some x → (o ∈ off → hi x) ∧ (o ∉ off → lo x)))
      (upanic ans l) l.
  Proof.
    intros Hn. revert i acc. induction cnt as [|k IH]; intros i acc Hin HB Hacc Hinc Hlt Hcl; simpl.
    - apply wp_ret. rewrite Nat.add_0_r. done.
    - unfold BLOCK in *. rewrite (proj2 (Nat.ltb_lt _ _)) by lia.
      apply wp_bind, wp_ret.
      apply wp_bind, wp_get; [lia|lia|]. intros x Hx.
      apply wp_bind, wp_is_less; [|intros Hr; by eapply upanic_intro].
      intros b Hb.
      replace (S (l0 + i)) with (l0 + S i) by lia.
      replace (i + S k) with (S i + k) by lia.
      rewrite Nat.mod_small by lia.
      assert (Hni : i ∉ acc).
      { intros Hi. eapply Forall_forall in Hlt; [|exact Hi]. simpl in Hlt. lia. }
      apply IH; [lia|lia|..].
      + destruct b; [lia|]. rewrite app_length. simpl. lia.
      + destruct b; [done|]. by apply incr_snoc.
      + destruct b; [by apply Forall_lt_S|]. apply Forall_app. split; [by apply Forall_lt_S|].
        repeat constructor.
      + intros o y Ho Hy. destruct (decide (o = i)) as [->|Hne].
        * rewrite Hx in Hy. injection Hy as <-. destruct b.
          -- split; [done|]. intros _. by apply ans_true.
          -- split; [intros _; by apply ans_false|]. mem.
        * destruct (Hcl o y) as [H1 H2]; [lia|done|]. destruct b; [done|]. mem.
  Qed.

  Lemma trace_r_spec n r0 i cnt acc (l : list T) :
    n = length l → i + cnt ≤ r0 → r0 ≤ n → i + cnt ≤ BLOCK →
    length acc ≤ i → incr acc → Forall (λ o, o < i) acc →
    (∀ o x, o < i → l !! (r0 - 1 - o) = Some x → (o ∈ acc → lo x) ∧ (o ∉ acc → hi x)) →
    wp ans (trace_r n pivot (r0 - i) i cnt acc)
      (λ off l', l' = l ∧ incr off ∧ Forall (λ o, o < i + cnt) off ∧
         (∀ o x, o < i + cnt → l !! (r0 - 1 - o) = Some x → (o ∈ off → lo x) ∧ (o ∉ off → hi x)))
      (upanic ans l) l.
  Proof.
    intros Hn. revert i acc. induction cnt as [|k IH]; intros i acc Hin Hr0 HB Hacc Hinc Hlt Hcl; simpl.
    - apply wp_ret. rewrite Nat.add_0_r. done.
    - unfold BLOCK in *. apply wp_bind, wp_usub; [lia|].
      rewrite (proj2 (Nat.ltb_lt _ _)) by lia.
      apply wp_bind, wp_ret.
      apply wp_bind, wp_get; [lia|lia|]. intros x Hx.
      apply wp_bind, wp_is_less; [|intros Hr; by eapply upanic_intro].
      intros b Hb.
      replace (r0 - i - 1) with (r0 - S i) by lia.
      replace (r0 - i - 1) with (r0 - 1 - i) in Hx by lia.
      replace (i + S k) with (S i + k) by lia.
      rewrite Nat.mod_small by lia.
      assert (Hni : i ∉ acc).
      { intros Hi. eapply Forall_forall in Hlt; [|exact Hi]. simpl in Hlt. lia. }
      apply IH; [lia|lia|lia|..].
      + destruct b; [|lia]. rewrite app_length. simpl. lia.
      + destruct b; [|done]. by apply incr_snoc.
      + destruct b; [|by apply Forall_lt_S]. apply Forall_app. split; [by apply Forall_lt_S|].
        repeat constructor.
      + intros o y Ho Hy. destruct (decide (o = i)) as [->|Hne].
        * rewrite Hx in Hy. injection Hy as <-. destruct b.
          -- split; [intros _; by apply ans_true|]. mem.
          -- split; [done|]. intros _. by apply ans_false.
        * destruct (Hcl o y) as [H1 H2]; [lia|done|]. destruct b; [|done]. mem.
  Qed.

  (** What is known about the element [x] at position [k], when [offl]/[offr]
      are the pending offsets of the left block [l .. l+bl] and of the right
      block [r-br .. r]. *)
  Definition cls (l r bl br : nat) (offl offr : list nat) (k : nat) (x : T) : Prop :=
    (k < l → lo x) ∧ (r ≤ k → hi x) ∧
    (l ≤ k < l + bl → (k - l ∈ offl → hi x) ∧ (k - l ∉ offl → lo x)) ∧
    (r - br ≤ k < r → (r - 1 - k ∈ offr → lo x) ∧ (r - 1 - k ∉ offr → hi x)).

  Record offs_ok (l r n bl br : nat) (offl offr : list nat) : Prop := {
    ok_blocks : l + bl + br ≤ r;
    ok_r : r ≤ n;
    ok_incl : incr offl;
    ok_incr : incr offr;
    ok_ltl : Forall (λ o, o < bl) offl;
    ok_ltr : Forall (λ o, o < br) offr
  }.

  Lemma offs_ok_tail l r n bl br ol ls orr rs :
    offs_ok l r n bl br (ol :: ls) (orr :: rs) → offs_ok l r n bl br ls rs.
  Proof.
    intros []. split; auto.
    - by apply StronglySorted_inv in ok_incl0 as [??].
    - by apply StronglySorted_inv in ok_incr0 as [??].
    - by apply Forall_cons in ok_ltl0 as [??].
    - by apply Forall_cons in ok_ltr0 as [??].
  Qed.
  Lemma offs_ok_heads l r n bl br ol ls orr rs :
    offs_ok l r n bl br (ol :: ls) (orr :: rs) →
    ol < bl ∧ orr < br ∧ ol ∉ ls ∧ orr ∉ rs.
  Proof.
    intros []. apply Forall_cons in ok_ltl0 as [? _]. apply Forall_cons in ok_ltr0 as [? _].
    apply StronglySorted_inv in ok_incl0 as [_ H1]. apply StronglySorted_inv in ok_incr0 as [_ H2].
    repeat split; auto; intros Hin.
    - eapply Forall_forall in H1; [|exact Hin]. lia.
    - eapply Forall_forall in H2; [|exact Hin]. lia.
  Qed.

  Lemma cls_other l r bl br ol ls orr rs k x :
    l + bl + br ≤ r → k ≠ l + ol → k ≠ r - 1 - orr →
    cls l r bl br (ol :: ls) (orr :: rs) k x → cls l r bl br ls rs k x.
  Proof.
    intros Hb Hk1 Hk2 (H1 & H2 & H3 & H4). split; [done|]. split; [done|]. split.
    - intros Hk. destruct (H3 Hk) as [Ha Hc]. split.
      + intros Hin. apply Ha. mem.
      + intros Hin. apply Hc. intros [|]%elem_of_cons; [lia|done].
    - intros Hk. destruct (H4 Hk) as [Ha Hc]. split.
      + intros Hin. apply Ha. mem.
      + intros Hin. apply Hc. intros [|]%elem_of_cons; [lia|done].
  Qed.
  Lemma cls_left l r bl br ls rs ol x :
    l + bl + br ≤ r → ol < bl → ol ∉ ls → lo x → cls l r bl br ls rs (l + ol) x.
  Proof.
    intros Hb Ho Hn Hx. repeat split; try lia; try done.
    replace (l + ol - l) with ol by lia. done.
  Qed.
  Lemma cls_right l r bl br ls rs orr x :
    l + bl + br ≤ r → orr < br → orr ∉ rs → hi x → cls l r bl br ls rs (r - 1 - orr) x.
  Proof.
    intros Hb Ho Hn Hx. repeat split; try lia; try done.
    replace (r - 1 - (r - 1 - orr)) with orr by lia. done.
  Qed.

  Lemma cls_left_inv l r bl br ls rs ol x :
    ol < bl → cls l r bl br (ol :: ls) rs (l + ol) x → hi x.
  Proof.
    intros Ho (_ & _ & H & _). apply H; [lia|].
    replace (l + ol - l) with ol by lia. by left.
  Qed.
  Lemma cls_right_inv l r bl br ls rs orr x :
    orr < br → br ≤ r → cls l r bl br ls (orr :: rs) (r - 1 - orr) x → lo x.
  Proof.
    intros Ho Hbr (_ & _ & _ & H). apply H; [lia|].
    replace (r - 1 - (r - 1 - orr)) with orr by lia. by left.
  Qed.
  Lemma cls_right_out l r bl br ls rs orr x :
    orr < br → br ≤ r → orr ∉ rs → cls l r bl br ls rs (r - 1 - orr) x → hi x.
  Proof.
    intros Ho Hbr Hn (_ & _ & _ & H). apply H; [lia|].
    replace (r - 1 - (r - 1 - orr)) with orr by lia. done.
  Qed.

  (** [m] is the array, [M] the array with the temporary put back in the hole. *)
  Lemma cycle_spec n l r bl br cnt tmp ol ls orr rs m M :
    n = length m → M = <[r - 1 - orr := tmp]> m →
    offs_ok l r n bl br ls rs → orr < br → orr ∉ rs →
    cnt = Nat.min (length ls) (length rs) →
    (∀ k x, M !! k = Some x → cls l r bl br ls rs k x) →
    wp ans (cycle n l r cnt tmp ol ls orr rs)
      (λ '(ls', rs') m', m' ≡ₚ M ∧ (ls' = [] ∨ rs' = []) ∧ offs_ok l r n bl br ls' rs' ∧
         (∀ k x, m' !! k = Some x → cls l r bl br ls' rs' k x))
      (upanic ans M) m.
  Proof.
    intros Hn HM Hok Ho Hno Hcnt Hcls.
    revert cnt ol ls orr rs m M Hn HM Hok Ho Hno Hcnt Hcls.
    induction cnt as [|k IH]; intros ol ls orr rs m M Hn HM Hok Ho Hno Hcnt Hcls; simpl.
    - pose proof (ok_blocks _ _ _ _ _ _ _ Hok). pose proof (ok_r _ _ _ _ _ _ _ Hok).
      apply wp_bind, wp_usub; [lia|].
      replace (r - (orr + 1)) with (r - 1 - orr) by lia.
      apply wp_bind, wp_put; [lia|lia|]. rewrite <-HM. apply wp_ret.
      split; [done|]. split; [|done].
      destruct ls, rs; auto. simpl in Hcnt. lia.
    - destruct ls as [|ol' ls]; [simpl in Hcnt; lia|].
      destruct rs as [|or' rs]; [simpl in Hcnt; lia|].
      destruct (offs_ok_heads _ _ _ _ _ _ _ _ _ Hok) as (Hol' & Hor' & Hnl & Hnr).
      pose proof (ok_blocks _ _ _ _ _ _ _ Hok). pose proof (ok_r _ _ _ _ _ _ _ Hok).
      set (a := r - 1 - orr). set (b := l + ol'). set (d := r - 1 - or').
      assert (Hne : or' ≠ orr) by (intros ->; mem).
      assert (a ≠ b ∧ a ≠ d ∧ b ≠ d) as (Hab & Had & Hbd) by (unfold a, b, d; lia).
      assert (a < n ∧ b < n ∧ d < n) as (Han & Hbn & Hdn) by (unfold a, b, d; lia).
      apply wp_bind, wp_get; [lia|lia|]. intros x Hx.
      apply wp_bind, wp_usub; [lia|].
      replace (r - (orr + 1)) with a by (unfold a; lia).
      apply wp_bind, wp_nonoverlapping; [done|].
      apply wp_bind, wp_put; [lia|lia|].
      apply wp_bind, wp_usub; [lia|].
      replace (r - (or' + 1)) with d by (unfold d; lia).
      apply wp_bind, wp_get; [lia|rewrite insert_length; lia|]. intros y Hy.
      rewrite list_lookup_insert_ne in Hy by lia.
      apply wp_bind, wp_nonoverlapping; [done|].
      apply wp_bind, wp_put; [lia|rewrite insert_length; lia|]. fold b.
      set (M' := <[d:=tmp]> (<[b:=y]> (<[a:=x]> m))).
      assert (HM' : M' = swapl b d (swapl a b M)).
      { apply list_eq_same_length with n.
        - by rewrite !swapl_length, HM, insert_length.
        - unfold M'. by rewrite !insert_length.
        - intros q u v Hq Hu Hv. unfold M' in Hu.
          assert (length M = n) by (by rewrite HM, insert_length).
          rewrite lookup_swapl in Hv by (rewrite swapl_length; lia).
          rewrite !lookup_swapl in Hv by lia.
          rewrite HM in Hv.
          destruct (decide (q = d)) as [->|].
          + rewrite list_lookup_insert in Hu by (rewrite !insert_length; lia).
            rewrite (decide_False (P := d = b)) in Hv by lia.
            rewrite (decide_False (P := b = a)) in Hv by lia.
            rewrite (decide_True (P := b = b)) in Hv by done.
            rewrite list_lookup_insert in Hv by lia. congruence.
          + rewrite list_lookup_insert_ne in Hu by done.
            destruct (decide (q = b)) as [->|].
            * rewrite list_lookup_insert in Hu by (rewrite !insert_length; lia).
              rewrite !decide_False in Hv by lia.
              rewrite list_lookup_insert_ne in Hv by lia. congruence.
            * rewrite list_lookup_insert_ne in Hu by done.
              destruct (decide (q = a)) as [->|].
              -- rewrite list_lookup_insert in Hu by lia.
                 rewrite list_lookup_insert_ne in Hv by lia. unfold b in *. congruence.
              -- rewrite list_lookup_insert_ne in Hu by done.
                 rewrite list_lookup_insert_ne in Hv by done. congruence. }
      assert (HlM : length M = n) by (by rewrite HM, insert_length).
      assert (HpM : M' ≡ₚ M).
      { rewrite HM'. rewrite swapl_perm by (rewrite swapl_length; lia). apply swapl_perm; lia. }
      wp_apply (IH ol' ls or' rs (<[b:=y]> (<[a:=x]> m)) M').
      + by rewrite !insert_length.
      + done.
      + by eapply offs_ok_tail.
      + done.
      + done.
      + simpl in Hcnt. lia.
      + intros q z Hz.
        assert (HMb : M !! b = Some x).
        { rewrite HM. rewrite list_lookup_insert_ne by done. done. }
        assert (HMd : M !! d = Some y).
        { rewrite HM. rewrite list_lookup_insert_ne by (unfold a, d in *; lia). done. }
        assert (HMa : M !! a = Some tmp).
        { rewrite HM. rewrite list_lookup_insert by lia. done. }
        assert (Hhix : hi x).
        { eapply cls_left_inv, (Hcls b); done. }
        assert (Hloy : lo y).
        { eapply cls_right_inv, (Hcls d); [done|lia|done]. }
        assert (Hhit : hi tmp).
        { eapply cls_right_out, (Hcls a); [done|lia|done|done]. }
        assert (Hz' : z = if decide (q = d) then tmp else if decide (q = b) then y else
                      if decide (q = a) then x else default z (M !! q)).
        { unfold M' in Hz. repeat case_decide; try subst q.
          - rewrite list_lookup_insert in Hz by (rewrite !insert_length; lia). congruence.
          - rewrite list_lookup_insert_ne, list_lookup_insert in Hz by (rewrite ?insert_length; lia).
            congruence.
          - rewrite !list_lookup_insert_ne, list_lookup_insert in Hz by lia. congruence.
          - rewrite !list_lookup_insert_ne in Hz by done. rewrite HM.
            rewrite list_lookup_insert_ne by done. by rewrite Hz. }
        destruct (decide (q = d)) as [->|Hqd].
        { rewrite Hz'. by apply cls_right. }
        destruct (decide (q = b)) as [->|Hqb].
        { rewrite Hz'. by apply cls_left. }
        destruct (decide (q = a)) as [->|Hqa].
        { rewrite Hz'. apply cls_right; auto. mem. }
        destruct (M !! q) as [z'|] eqn:HMq; simpl in Hz'.
        * subst z'. eapply cls_other; [done|exact Hqb|exact Hqd|]. by apply Hcls.
        * apply lookup_ge_None in HMq. apply lookup_lt_Some in Hz.
          rewrite HM', !swapl_length in Hz. lia.
      + intros [ls' rs'] m' _ (Hp & Hemp & Hok' & Hc'). split; [by rewrite Hp|done].
      + intros e m' _ Hu. eapply upanic_perm; [exact Hu|done].
  Qed.

  Lemma exchange_spec n l r bl br offl offr m :
    n = length m → offs_ok l r n bl br offl offr →
    (∀ k x, m !! k = Some x → cls l r bl br offl offr k x) →
    wp ans (exchange n l r offl offr)
      (λ '(ls', rs') m', m' ≡ₚ m ∧ (ls' = [] ∨ rs' = []) ∧ offs_ok l r n bl br ls' rs' ∧
         (∀ k x, m' !! k = Some x → cls l r bl br ls' rs' k x))
      (upanic ans m) m.
  Proof.
    intros Hn Hok Hcls. unfold exchange.
    destruct offl as [|ol ls].
    { rewrite (proj2 (Nat.ltb_ge 0 _)) by (simpl; lia). apply wp_ret. auto. }
    destruct offr as [|orr rs].
    { rewrite (proj2 (Nat.ltb_ge 0 _)) by (simpl; lia). apply wp_ret. auto. }
    simpl length. rewrite (proj2 (Nat.ltb_lt _ _)) by lia.
    destruct (offs_ok_heads _ _ _ _ _ _ _ _ _ Hok) as (Hol & Hor & Hnl & Hnr).
    pose proof (ok_blocks _ _ _ _ _ _ _ Hok). pose proof (ok_r _ _ _ _ _ _ _ Hok).
    set (b := l + ol). set (d := r - 1 - orr).
    assert (b ≠ d ∧ b < n ∧ d < n) as (Hbd & Hbn & Hdn) by (unfold b, d; lia).
    apply wp_bind, wp_get; [lia|lia|]. intros tmp Htmp.
    apply wp_bind, wp_usub; [lia|]. replace (r - (orr + 1)) with d by (unfold d; lia).
    apply wp_bind, wp_get; [lia|lia|]. intros x Hx.
    apply wp_bind, wp_nonoverlapping; [done|].
    apply wp_bind, wp_put; [lia|lia|].
    assert (Hsw : <[d:=tmp]> (<[b:=x]> m) = swapl b d m).
    { unfold swapl. by rewrite Htmp, Hx. }
    wp_apply (cycle_spec n l r bl br (S (Nat.min (length ls) (length rs)) - 1) tmp ol ls orr rs
      (<[b:=x]> m) (swapl b d m)).
    - by rewrite insert_length.
    - done.
    - by eapply offs_ok_tail.
    - done.
    - done.
    - lia.
    - intros k z Hz. rewrite lookup_swapl in Hz by lia.
      destruct (decide (k = b)) as [->|Hkb].
      { rewrite Hx in Hz. injection Hz as <-. apply cls_left; auto.
        eapply cls_right_inv, (Hcls d); [done|lia|done]. }
      destruct (decide (k = d)) as [->|Hkd].
      { rewrite Htmp in Hz. injection Hz as <-. apply cls_right; auto.
        eapply cls_left_inv, (Hcls b); done. }
      eapply cls_other; [done|exact Hkb|exact Hkd|]. by apply Hcls.
    - intros [ls' rs'] m' _ (Hp & Hrest). split; [|done]. rewrite Hp. apply swapl_perm; lia.
    - intros e m' _ Hu. eapply upanic_perm; [exact Hu|]. apply swapl_perm; lia.
  Qed.

  Notation decr := (StronglySorted (λ a b : nat, b < a)).
  Lemma incr_rev (a : list nat) : incr a → decr (rev a).
  Proof.
    induction 1 as [|x a Ha IH Hx]; simpl; [constructor|].
    assert (Hrev : Forall (lt x) (rev a)) by (by apply Forall_rev).
    clear -IH Hrev. induction IH as [|y b Hb IHb Hy]; simpl; [repeat constructor|].
    apply Forall_cons in Hrev as [Hxy Hrev].
    constructor; [auto|]. apply Forall_app. split; [done|]. by repeat constructor.
  Qed.

  Lemma finish_l_spec n l r offs m :
    n = length m → l ≤ r → r ≤ n → decr offs → Forall (λ o, l + o < r) offs →
    (∀ k x, m !! k = Some x → (k < l → lo x) ∧ (r ≤ k → hi x) ∧
       (l ≤ k < r → (k - l ∈ offs → hi x) ∧ (k - l ∉ offs → lo x))) →
    wp ans (finish_l n l r offs)
      (λ k m', m' ≡ₚ m ∧ k ≤ n ∧ rng (λ x, lo x) m' 0 k ∧ rng (λ x, hi x) m' k n)
      (upanic ans m) m.
  Proof.
    revert r m. induction offs as [|o os IH]; intros r m Hn Hlr Hrn Hd Hf Hcls; simpl.
    - apply wp_ret. split; [done|]. split; [done|]. split.
      + intros k x Hk Hx. destruct (Hcls k x Hx) as (H1 & H2 & H3).
        destruct (decide (k < l)); [auto|]. apply H3; [lia|mem].
      + intros k x Hk Hx. destruct (Hcls k x Hx) as (H1 & H2 & H3). apply H2; lia.
    - apply Forall_cons in Hf as [Ho Hf]. apply StronglySorted_inv in Hd as [Hd Hod].
      assert (Hno : ∀ o', o' ∈ os → o' < o).
      { intros o' Hin. by eapply Forall_forall in Hod. }
      apply wp_bind, wp_usub; [lia|].
      apply wp_bind, wp_uswap; [lia|lia|lia|].
      wp_apply (IH (r - 1) (swapl (l + o) (r - 1) m)).
      + by rewrite swapl_length.
      + lia.
      + lia.
      + done.
      + apply Forall_forall. intros o' Hin. specialize (Hno o' Hin). lia.
      + intros k x Hx. rewrite lookup_swapl in Hx by lia.
        destruct (lookup_lt_is_Some_2 m (l + o)) as [u Hu]; [lia|].
        assert (Hhiu : hi u).
        { destruct (Hcls _ _ Hu) as (_ & _ & H3). apply H3; [lia|].
          replace (l + o - l) with o by lia. by left. }
        destruct (decide (k = l + o)) as [->|Hk1].
        * destruct (Hcls _ _ Hx) as (H1 & H2 & H3).
          destruct (decide (r - 1 = l + o)) as [Heq|Hne].
          { rewrite Heq, Hu in Hx. injection Hx as <-. repeat split; [lia|done|lia|lia]. }
          split; [lia|]. split; [lia|]. intros Hk.
          replace (l + o - l) with o by lia. split.
          -- intros Hin. specialize (Hno o Hin). lia.
          -- intros _. apply H3; [lia|]. intros [|Hin]%elem_of_cons; [lia|].
             specialize (Hno _ Hin). lia.
        * destruct (decide (k = r - 1)) as [->|Hk2].
          -- rewrite Hu in Hx. injection Hx as <-. repeat split; [lia|done|lia|lia].
          -- destruct (Hcls _ _ Hx) as (H1 & H2 & H3). split; [done|]. split.
             ++ intros Hk. apply H2. lia.
             ++ intros Hk. destruct H3 as [H3 H4]; [lia|]. split; [intros; apply H3; by right|].
                intros Hin. apply H4. intros [|]%elem_of_cons; [lia|done].
      + intros k m' _ (Hp & Hrest). split; [|done]. rewrite Hp. apply swapl_perm; lia.
      + intros e m' _ Hu. eapply upanic_perm; [exact Hu|]. apply swapl_perm; lia.
  Qed.

  Lemma finish_r_spec n l r offs m :
    n = length m → l ≤ r → r ≤ n → decr offs → Forall (λ o, l + o < r) offs →
    (∀ k x, m !! k = Some x → (k < l → lo x) ∧ (r ≤ k → hi x) ∧
       (l ≤ k < r → (r - 1 - k ∈ offs → lo x) ∧ (r - 1 - k ∉ offs → hi x))) →
    wp ans (finish_r n l r offs)
      (λ k m', m' ≡ₚ m ∧ k ≤ n ∧ rng (λ x, lo x) m' 0 k ∧ rng (λ x, hi x) m' k n)
      (upanic ans m) m.
  Proof.
    revert l m. induction offs as [|o os IH]; intros l m Hn Hlr Hrn Hd Hf Hcls; simpl.
    - apply wp_ret. split; [done|]. split; [lia|]. split.
      + intros k x Hk Hx. destruct (Hcls k x Hx) as (H1 & H2 & H3). apply H1; lia.
      + intros k x Hk Hx. destruct (Hcls k x Hx) as (H1 & H2 & H3).
        destruct (decide (r ≤ k)); [auto|]. apply H3; [lia|mem].
    - apply Forall_cons in Hf as [Ho Hf]. apply StronglySorted_inv in Hd as [Hd Hod].
      assert (Hno : ∀ o', o' ∈ os → o' < o).
      { intros o' Hin. by eapply Forall_forall in Hod. }
      apply wp_bind, wp_usub; [lia|].
      replace (r - (o + 1)) with (r - 1 - o) by lia.
      apply wp_bind, wp_uswap; [lia|lia|lia|].
      wp_apply (IH (S l) (swapl l (r - 1 - o) m)).
      + by rewrite swapl_length.
      + lia.
      + lia.
      + done.
      + apply Forall_forall. intros o' Hin. specialize (Hno o' Hin). lia.
      + intros k x Hx. rewrite lookup_swapl in Hx by lia.
        destruct (lookup_lt_is_Some_2 m (r - 1 - o)) as [u Hu]; [lia|].
        assert (Hlou : lo u).
        { destruct (Hcls _ _ Hu) as (_ & _ & H3). apply H3; [lia|].
          replace (r - 1 - (r - 1 - o)) with o by lia. by left. }
        destruct (decide (k = l)) as [->|Hk1].
        * rewrite Hu in Hx. injection Hx as <-. repeat split; [done|lia|lia|lia].
        * destruct (decide (k = r - 1 - o)) as [->|Hk2].
          -- destruct (Hcls _ _ Hx) as (H1 & H2 & H3).
             split; [lia|]. split; [lia|]. intros Hk.
             replace (r - 1 - (r - 1 - o)) with o by lia. split.
             ++ intros Hin. specialize (Hno o Hin). lia.
             ++ intros _. apply H3; [lia|]. intros [|Hin]%elem_of_cons; [lia|].
                specialize (Hno _ Hin). lia.
          -- destruct (Hcls _ _ Hx) as (H1 & H2 & H3). split; [intros; apply H1; lia|]. split.
             ++ done.
             ++ intros Hk. destruct H3 as [H3 H4]; [lia|]. split; [intros; apply H3; by right|].
                intros Hin. apply H4. intros [|]%elem_of_cons; [lia|done].
      + intros k m' _ (Hp & Hrest). split; [|done]. rewrite Hp. apply swapl_perm; lia.
      + intros e m' _ Hu. eapply upanic_perm; [exact Hu|]. apply swapl_perm; lia.
  Qed.

  Lemma BLOCK_eq : BLOCK = 128.
  Proof. done. Qed.
  Local Opaque BLOCK.

  Definition blk (off : list nat) : nat := match off with [] => 0 | _ => BLOCK end.

  Lemma pib_loop_spec fuel n l r offl offr m :
    n = length m → l ≤ r → r ≤ n → r < fuel + l →
    (offl = [] ∨ offr = []) →
    (offl ≠ [] ∨ offr ≠ [] → l + BLOCK ≤ r) →
    offs_ok l r n (blk offl) (blk offr) offl offr →
    (∀ k x, m !! k = Some x → cls l r (blk offl) (blk offr) offl offr k x) →
    wp ans (pib_loop c fuel n pivot l r BLOCK BLOCK offl offr)
      (λ k m', m' ≡ₚ m ∧ k ≤ n ∧ rng (λ x, lo x) m' 0 k ∧ rng (λ x, hi x) m' k n)
      (upanic ans m) m.
  Proof.
    revert l r offl offr m.
    induction fuel as [|f IH]; intros l r offl offr m Hn Hlr Hrn Hf Hone Hpend Hok Hcls; [lia|].
    cbn [pib_loop]. pose proof BLOCK_eq as HB. 
    apply wp_bind. unfold width at 1. apply wp_usub; [lia|].
    set (w := r - l) in *.
    (* block sizes *)
    apply wp_bind.
    eapply (wp_mono _ _ (λ '(bl, br) m', m' = m ∧ l + bl + br ≤ r ∧ bl ≤ BLOCK ∧ br ≤ BLOCK ∧
        (w ≤ 2 * BLOCK → l + bl + br = r) ∧ (2 * BLOCK < w → bl = BLOCK ∧ br = BLOCK) ∧
        (offl ≠ [] → bl = BLOCK) ∧ (offr ≠ [] → br = BLOCK)) _ (upanic ans m)).
    { destruct (Nat.leb_spec w (2 * BLOCK)) as [Hw|Hw].
      - apply wp_bind.
        assert (Hrest : ∀ bl br, l + bl + br = r → bl ≤ BLOCK → br ≤ BLOCK →
           (offl ≠ [] → bl = BLOCK) → (offr ≠ [] → br = BLOCK) →
           wp ans (bind (dassert c ((bl <=? BLOCK) && (br <=? BLOCK)))
                   (λ _, bind (dassert c (w =? bl + br)) (λ _, Ret (bl, br))))
             (λ '(bl, br) m', m' = m ∧ l + bl + br ≤ r ∧ bl ≤ BLOCK ∧ br ≤ BLOCK ∧
              (w ≤ 2 * BLOCK → l + bl + br = r) ∧ (2 * BLOCK < w → bl = BLOCK ∧ br = BLOCK) ∧
              (offl ≠ [] → bl = BLOCK) ∧ (offr ≠ [] → br = BLOCK)) (upanic ans m) m).
        { intros bl br Hbb H1 H2 H3 H4.
          apply wp_bind, wp_dassert. { by rewrite !(proj2 (Nat.leb_le _ _)) by lia. }
          apply wp_bind, wp_dassert. { apply Nat.eqb_eq. lia. }
          apply wp_ret. repeat split; auto; lia. }
        destruct offl as [|ol ls]; simpl length.
        + rewrite (proj2 (Nat.ltb_ge 0 0)) by lia. simpl.
          destruct offr as [|orr rs]; simpl length.
          * rewrite (proj2 (Nat.ltb_ge 0 0)) by lia. apply wp_ret.
            pose proof (Nat.div_mod w 2). pose proof (Nat.mod_upper_bound w 2).
            apply Hrest; try done; lia.
          * rewrite ltb_0_S.
            assert (l + BLOCK ≤ r) by (apply Hpend; auto).
            apply wp_usub; [lia|]. apply Hrest; try done; lia.
        + rewrite ltb_0_S. simpl.
          destruct Hone as [| ->]; [done|].
          assert (l + BLOCK ≤ r) by (apply Hpend; auto).
          apply wp_usub; [lia|]. apply Hrest; try done; lia.
      - apply wp_ret. repeat split; auto; lia. }
    2: by auto.
    intros [bl br] m' _ (-> & Hbb & Hbl & Hbr & Hdone & Hnd & Hpl & Hpr).
    (* trace left *)
    apply wp_bind.
    eapply (wp_mono _ _ (λ offl' m', m' = m ∧ incr offl' ∧ Forall (λ o, o < bl) offl' ∧
        (∀ o x, o < bl → m !! (l + o) = Some x → (o ∈ offl' → hi x) ∧ (o ∉ offl' → lo x)))
        _ (upanic ans m)).
    { destruct offl as [|ol ls].
      - simpl. rewrite <-(Nat.add_0_r l) at 1.
        wp_apply (trace_l_spec n l 0 bl [] m);
          [done|lia|lia|done|constructor|constructor|lia| |by auto].
        intros off m' _ H. exact H.
      - simpl. apply wp_ret. destruct Hok. specialize (Hpl ltac:(done)). subst bl.
        split; [done|]. split; [done|]. split; [done|]. intros o x Ho Hx.
        destruct (Hcls _ _ Hx) as (_ & _ & H3 & _).
        replace (l + o - l) with o in H3 by lia. apply H3. simpl. lia. }
    2: by auto.
    intros offl' m' _ (-> & Hincl & Hltl & Hcl).
    apply wp_bind.
    eapply (wp_mono _ _ (λ offr' m', m' = m ∧ incr offr' ∧ Forall (λ o, o < br) offr' ∧
        (∀ o x, o < br → m !! (r - 1 - o) = Some x → (o ∈ offr' → lo x) ∧ (o ∉ offr' → hi x)))
        _ (upanic ans m)).
    { destruct offr as [|orr rs].
      - simpl. rewrite <-(Nat.sub_0_r r) at 1.
        wp_apply (trace_r_spec n r 0 br [] m);
          [done|lia|lia|lia|done|constructor|constructor|lia| |by auto].
        intros off m' _ H. exact H.
      - simpl. apply wp_ret. destruct Hok. specialize (Hpr ltac:(done)). subst br.
        split; [done|]. split; [done|]. split; [done|]. intros o x Ho Hx.
        destruct (Hcls _ _ Hx) as (_ & _ & _ & H3).
        replace (r - 1 - (r - 1 - o)) with o in H3 by lia. apply H3. simpl. lia. }
    2: by auto.
    intros offr' m' _ (-> & Hincr & Hltr & Hcr).
    assert (Hok' : offs_ok l r n bl br offl' offr') by (by split).
    assert (Hcls' : ∀ k x, m !! k = Some x → cls l r bl br offl' offr' k x).
    { intros k x Hx. destruct (Hcls k x Hx) as (H1 & H2 & _). split; [done|]. split; [done|]. split.
      - intros Hk. apply Hcl; [lia|]. replace (l + (k - l)) with k by lia. done.
      - intros Hk. apply Hcr; [lia|]. replace (r - 1 - (r - 1 - k)) with k by lia. done. }
    (* exchange *)
    apply wp_bind. wp_apply (exchange_spec n l r bl br offl' offr' m Hn Hok' Hcls').
    2: by auto.
    intros [ls rs] m1 Hlm1 (Hp1 & Hemp & Hok1 & Hcls1).
    assert (Hpost : ∀ k m2,
      m2 ≡ₚ m1 ∧ k ≤ n ∧ rng (λ x, lo x) m2 0 k ∧ rng (λ x, hi x) m2 k n →
      m2 ≡ₚ m ∧ k ≤ n ∧ rng (λ x, lo x) m2 0 k ∧ rng (λ x, hi x) m2 k n).
    { intros k m2 (H & ?). split; [|done]. by rewrite H. }
    assert (HpostE : ∀ e m2, upanic ans m1 e m2 → upanic ans m e m2).
    { intros e m2 Hu. by eapply upanic_perm. }
    destruct Hok1 as [_ _ Hil Hir Hfl Hfr].
    set (l2 := if length ls =? 0 then l + bl else l).
    set (r2 := if length rs =? 0 then r - br else r).
    apply wp_bind.
    eapply (wp_mono _ _ (λ r' m', m' = m1 ∧ r' = r2) _ (upanic ans m)).
    { unfold r2. destruct (Nat.eqb_spec (length rs) 0); [apply wp_usub; [lia|]|apply wp_ret]; done. }
    2: by auto.
    intros r' m' _ (-> & ->).
    destruct (Nat.leb_spec w (2 * BLOCK)) as [Hw|Hw].
    - (* last round *)
      specialize (Hdone Hw).
      destruct ls as [|ol ls].
      + simpl length. rewrite (proj2 (Nat.ltb_ge 0 0)) by lia.
        unfold l2; simpl.
        destruct rs as [|orr rs].
        * simpl.
          unfold width. apply wp_usub; [lia|]. rewrite Nat.sub_0_r. apply Hpost.
          split; [done|]. split; [lia|]. split.
          -- intros k x Hk Hx. destruct (Hcls1 k x Hx) as (H1 & _ & H3 & _).
             destruct (decide (k < l)); [auto|]. apply H3; [lia|mem].
          -- intros k x Hk Hx. destruct (Hcls1 k x Hx) as (_ & H2 & _ & H4).
             destruct (decide (r ≤ k)); [auto|]. apply H4; [lia|mem].
        * simpl length. rewrite ltb_0_S.
          unfold r2; simpl.
          apply wp_bind. unfold width at 1. apply wp_usub; [lia|].
          apply wp_bind, wp_dassert. { apply Nat.eqb_eq. lia. }
          apply wp_bind.
          wp_apply (finish_r_spec n (l + bl) r (rev rs ++ [orr]) m1); try lia.
          -- by apply (incr_rev (orr :: rs)).
          -- apply (Forall_rev (l := orr :: rs)). eapply Forall_impl; [exact Hfr|]. simpl. lia.
          -- intros k x Hx. destruct (Hcls1 k x Hx) as (H1 & H2 & H3 & H4).
             split; [|split].
             ++ intros Hk. destruct (decide (k < l)); [auto|]. apply H3; [lia|mem].
             ++ done.
             ++ intros Hk. destruct H4 as [H4 H5]; [lia|].
                change (rev rs ++ [orr]) with (rev (orr :: rs)).
                split.
                ** intros Hin. apply H4. apply elem_of_list_In, in_rev. by apply elem_of_list_In.
                ** intros Hin. apply H5. intros Hin'. apply Hin.
                   apply elem_of_list_In. rewrite <-in_rev. by apply elem_of_list_In.
          -- intros k m2 _ H. unfold width. apply wp_usub; [lia|]. rewrite Nat.sub_0_r.
             by apply Hpost.
          -- auto.
      + destruct Hemp as [| ->]; [done|]. unfold r2; simpl.
        unfold l2; simpl.
        apply wp_bind. unfold width at 1. apply wp_usub; [lia|].
        apply wp_bind, wp_dassert. { apply Nat.eqb_eq. lia. }
        apply wp_bind.
        wp_apply (finish_l_spec n l (r - br) (rev ls ++ [ol]) m1); try lia.
        * by apply (incr_rev (ol :: ls)).
        * apply (Forall_rev (l := ol :: ls)). eapply Forall_impl; [exact Hfl|]. simpl. lia.
        * intros k x Hx. destruct (Hcls1 k x Hx) as (H1 & H2 & H3 & H4).
          split; [|split].
          -- done.
          -- intros Hk. destruct (decide (r ≤ k)); [auto|]. apply H4; [lia|mem].
          -- intros Hk. destruct H3 as [H3 H5]; [lia|].
             change (rev ls ++ [ol]) with (rev (ol :: ls)).
             split.
             ** intros Hin. apply H3. apply elem_of_list_In, in_rev. by apply elem_of_list_In.
             ** intros Hin. apply H5. intros Hin'. apply Hin.
                apply elem_of_list_In. rewrite <-in_rev. by apply elem_of_list_In.
        * intros k m2 _ H. unfold width. apply wp_usub; [lia|]. rewrite Nat.sub_0_r.
          by apply Hpost.
        * auto.
    - (* another round *)
      destruct (Hnd Hw) as [-> ->].
      assert (Hl2 : l2 = l + (BLOCK - blk ls)).
      { unfold l2, blk. destruct ls; simpl; lia. }
      assert (Hr2 : r2 = r - (BLOCK - blk rs)).
      { unfold r2, blk. destruct rs; simpl; lia. }
      assert (Hbl' : blk ls = 0 ∧ ls = [] ∨ blk ls = BLOCK) by (destruct ls; auto).
      assert (Hbr' : blk rs = 0 ∧ rs = [] ∨ blk rs = BLOCK) by (destruct rs; auto).
      assert (Hsum : blk ls = 0 ∨ blk rs = 0) by (destruct Hemp; subst; auto).
      wp_apply (IH l2 r2 ls rs m1).
      + lia.
      + lia.
      + lia.
      + lia.
      + done.
      + intros Hp. assert (blk ls = BLOCK ∨ blk rs = BLOCK); [|lia].
        destruct ls; [|by left]. destruct rs; [|by right]. by destruct Hp.
      + split; [lia|lia|done|done|..].
        * destruct Hbl' as [[-> ->]| ->]; [constructor|done].
        * destruct Hbr' as [[-> ->]| ->]; [constructor|done].
      + intros k x Hx. destruct (Hcls1 k x Hx) as (H1 & H2 & H3 & H4).
        split; [|split; [|split]].
        * intros Hk. destruct (decide (k < l)); [auto|].
          destruct Hbl' as [[Hb2 Hls]| Hb2]; [|lia]. apply H3; [lia|]. rewrite Hls. mem.
        * intros Hk. destruct (decide (r ≤ k)); [auto|].
          destruct Hbr' as [[Hb2 Hls]| Hb2]; [|lia]. apply H4; [lia|]. rewrite Hls. mem.
        * intros Hk. destruct Hbl' as [[Hb2 _]| Hb2]; [lia|].
          replace l2 with l by lia. apply H3. lia.
        * intros Hk. destruct Hbr' as [[Hb2 _]| Hb2]; [lia|].
          replace r2 with r by lia. apply H4. lia.
      + intros k m2 _ H. by apply Hpost.
      + auto.
  Qed.

  Lemma partition_in_blocks_spec n m :
    n = length m →
    wp ans (partition_in_blocks c n pivot)
      (λ k m', m' ≡ₚ m ∧ k ≤ n ∧ rng (λ x, lo x) m' 0 k ∧ rng (λ x, hi x) m' k n)
      (upanic ans m) m.
  Proof.
    intros Hn. unfold partition_in_blocks. destruct (Nat.eqb_spec n 0) as [H0|H0].
    - apply wp_ret. split; [done|]. split; [lia|]. split; apply rng_nil; lia.
    - apply pib_loop_spec; try lia; auto.
      + intros [|]; done.
      + split; simpl; try lia; constructor.
      + intros k x Hx. apply lookup_lt_Some in Hx. split; [lia|]. split; [lia|]. simpl.
        split; lia.
  Qed.
End blocks.
