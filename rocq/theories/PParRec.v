(** * Proofs about the parallel merges of MParMerge.v. *)
From Verif Require Export PPar PParMerge.
From stdpp Require Import list.

Section mem.
  Context {T : Type}.
  Implicit Types (M X Y : list T).

  Definition sub M (b k : nat) : list T := take k (drop b M).
  Lemma sub_len M b k : b + k ≤ length M → length (sub M b k) = k.
  Proof. intros. unfold sub. rewrite take_length, drop_length. lia. Qed.
  Lemma sub_lookup M b k i : i < k → sub M b k !! i = M !! (b + i).
  Proof. intros. unfold sub. rewrite lookup_take by done. apply lookup_drop. Qed.
  Lemma sub_lookup_ge M b k i : k ≤ i → sub M b k !! i = None.
  Proof. intros. unfold sub. by apply lookup_take_ge. Qed.
  Lemma sub_ext M M' b k :
    (∀ i, b ≤ i < b + k → M' !! i = M !! i) → sub M' b k = sub M b k.
  Proof.
    intros H. apply list_eq. intros i. destruct (decide (i < k)).
    - rewrite !sub_lookup by done. apply H. lia.
    - by rewrite !sub_lookup_ge by lia.
  Qed.
  Lemma sub_split M b k1 k2 : sub M b (k1 + k2) = sub M b k1 ++ sub M (b + k1) k2.
  Proof. unfold sub. rewrite <-drop_drop. by rewrite take_plus_app || by rewrite <-take_take_drop. Qed.
  Lemma sub_take M b k j : j ≤ k → take j (sub M b k) = sub M b j.
  Proof. intros. unfold sub. rewrite take_take. f_equal. lia. Qed.
  Lemma sub_drop M b k j : drop j (sub M b k) = sub M (b + j) (k - j).
  Proof. unfold sub. by rewrite skipn_firstn_comm, drop_drop. Qed.

  Notation ins := list_inserts.
  Lemma ins_lookup_out b X M i : i < b ∨ b + length X ≤ i → ins b X M !! i = M !! i.
  Proof.
    intros [?|?]; [by apply list_lookup_inserts_lt|by apply list_lookup_inserts_ge].
  Qed.
  Lemma ins_sub_out b X M a k :
    a + k ≤ b ∨ b + length X ≤ a → sub (ins b X M) a k = sub M a k.
  Proof. intros H. apply sub_ext. intros i Hi. apply ins_lookup_out. lia. Qed.
  Lemma ins_sub_in b X M :
    b + length X ≤ length M → sub (ins b X M) b (length X) = X.
  Proof.
    intros H. apply list_eq. intros i. destruct (decide (i < length X)).
    - rewrite sub_lookup by done. rewrite list_lookup_inserts by lia. f_equal. lia.
    - rewrite sub_lookup_ge by lia. symmetry. by apply lookup_ge_None_2; lia.
  Qed.
  Lemma ins_snoc b X x M : ins b (X ++ [x]) M = <[b + length X:=x]> (ins b X M).
  Proof. rewrite list_inserts_app_l. simpl. by rewrite Nat.add_comm. Qed.
End mem.
Notation ins := list_inserts.
Tactic Notation "wp_eapply" uconstr(H) := eapply wp_mono; [eapply H| |].

Section merge.
  Context {T : Type} (c : cfg) (ans : T * T → option bool → Prop).
  Implicit Types (M X L R D : list T).
  Notation kle := (kle ans).
  Notation klt := (klt ans).
  Notation ksorted := (ksorted ans).
  Notation sperm := (sperm ans).

  Lemma wp_vget (v : view) i x (Φ : T → list T → Prop) E M :
    i < v.2 → M !! (v.1 + i) = Some x → Φ x M → wp ans (vget v i) Φ E M.
  Proof.
    intros Hi Hx H. unfold vget. rewrite (proj2 (Nat.ltb_lt _ _) Hi).
    assert (H' : wp ans (uget (S (v.1 + i)) (v.1 + i) : cmp_prog T T) Φ E M).
    { apply wp_uget; [lia|by eapply lookup_lt_Some|]. intros y Hy. by simplify_eq. }
    unfold uget in H'. rewrite (proj2 (Nat.ltb_lt _ _)) in H' by lia. done.
  Qed.
  Lemma wp_vput (v : view) i x (Φ : unit → list T → Prop) E M :
    i < v.2 → v.1 + i < length M → Φ tt (<[v.1 + i:=x]> M) → wp ans (vput v i x) Φ E M.
  Proof.
    intros Hi Hx H. unfold vput. rewrite (proj2 (Nat.ltb_lt _ _) Hi).
    assert (H' : wp ans (uput (S (v.1 + i)) (v.1 + i) x : cmp_prog T unit) Φ E M).
    { by apply wp_uput; [lia|..]. }
    unfold uput in H'. rewrite (proj2 (Nat.ltb_lt _ _)) in H' by lia. done.
  Qed.

  Lemma wp_vcopy (u v : view) j i x (Φ : unit → list T → Prop) E M :
    i < v.2 → v.1 + i < length M → u.1 + j ≠ v.1 + i → Φ tt (<[v.1 + i:=x]> M) →
    wp ans (vcopy u j v i x) Φ E M.
  Proof.
    intros Hi Hx Hne H. unfold vcopy. rewrite (proj2 (Nat.eqb_neq _ _) Hne). by apply wp_vput.
  Qed.

  (** A loop that copies [k] elements from address [sb] to address [db]. *)
  Lemma copy_spec a k (body : nat → cmp_prog T unit) sb db M E :
    sb + k ≤ length M → db + k ≤ length M → sb + k ≤ db ∨ db + k ≤ sb →
    (∀ i x (Φ : unit → list T → Prop) M', i < k → length M' = length M →
       M' !! (sb + i) = Some x → Φ tt (<[db + i:=x]> M') → wp ans (body (a + i)) Φ E M') →
    wp ans (for_up a k body) (λ _ M', M' = ins db (sub M sb k) M) E M.
  Proof.
    intros Hs Hd Hdis Hbody.
    eapply wp_mono; [apply (wp_for_up ans a k body
      (λ j M', a ≤ j ∧ M' = ins db (sub M sb (j - a)) M) E)| |].
    - rewrite Nat.sub_diag. done.
    - intros j M' Hj [Haj ->].
      assert (∃ i, j = a + i ∧ i < k) as (i & -> & Hi) by (exists (j - a); lia).
      replace (a + i - a) with i by lia.
      destruct (lookup_lt_is_Some_2 M (sb + i)) as [x Hx]; [lia|].
      assert (Hl : length (sub M sb i) = i) by (apply sub_len; lia).
      apply (Hbody i x); [done|by rewrite inserts_length| |].
      + rewrite ins_lookup_out by lia. done.
      + split; [lia|]. replace (S (a + i) - a) with (i + 1) by lia.
        rewrite sub_split. replace (sub M (sb + i) 1) with [x].
        * rewrite ins_snoc, Hl. done.
        * unfold sub. by erewrite drop_S.
    - intros [] M' _ [_ ->]. do 2 f_equal. lia.
    - auto.
  Qed.

  Lemma state_drop_spec (left right dest : view) ls rs ds M E :
    left.1 + left.2 ≤ length M → right.1 + right.2 ≤ length M →
    ls ≤ left.2 → rs ≤ right.2 →
    ds + (left.2 - ls) + (right.2 - rs) ≤ dest.2 →
    dest.1 + ds + (left.2 - ls) + (right.2 - rs) ≤ length M →
    left.1 + left.2 ≤ dest.1 ∨ dest.1 + ds + (left.2 - ls) + (right.2 - rs) ≤ left.1 →
    right.1 + right.2 ≤ dest.1 ∨ dest.1 + ds + (left.2 - ls) + (right.2 - rs) ≤ right.1 →
    wp ans (state_drop left right dest ls rs ds)
      (λ _ M', M' = ins (dest.1 + ds) (sub M (left.1 + ls) (left.2 - ls) ++
                                       sub M (right.1 + rs) (right.2 - rs)) M) E M.
  Proof.
    intros HlM HrM Hls Hrs Hd HdM Hdl Hdr. unfold state_drop.
    apply wp_bind, wp_usub; [lia|]. apply wp_bind.
    wp_eapply (copy_spec 0 (left.2 - ls) _ (left.1 + ls) (dest.1 + ds) M E); [lia|lia|lia| | |auto].
    { intros i x Φ M' Hi HM' Hx HΦ. apply wp_bind. apply (wp_vget _ _ x); [simpl; lia| |].
      - rewrite <-Hx. f_equal. simpl. lia.
      - apply wp_vcopy; [simpl; lia|simpl; lia|simpl; lia|]. simpl.
        by replace (dest.1 + (i + ds)) with (dest.1 + ds + i) by lia. }
    intros [] M' _ ->.
    apply wp_bind, wp_usub; [lia|].
    set (L := sub M (left.1 + ls) (left.2 - ls)).
    assert (HL : length L = left.2 - ls) by (apply sub_len; lia).
    wp_eapply (copy_spec 0 (right.2 - rs) _ (right.1 + rs) (dest.1 + ds + (left.2 - ls)) _ E).
    - rewrite inserts_length. lia.
    - rewrite inserts_length. lia.
    - lia.
    - intros i x Φ M' Hi HM' Hx HΦ. rewrite inserts_length in HM'.
      apply wp_bind. apply (wp_vget _ _ x); [simpl; lia| |].
      + rewrite <-Hx. f_equal. simpl. lia.
      + apply wp_vcopy; [simpl; lia|simpl; lia|simpl; lia|]. simpl.
        by replace (dest.1 + (i + ds + (left.2 - ls))) with (dest.1 + ds + (left.2 - ls) + i) by lia.
    - intros [] M' _ ->. rewrite list_inserts_app_l, HL.
      rewrite ins_sub_out by lia. f_equal. lia.
    - auto.
  Qed.

  (** The two sides of a merge and its destination. *)
  Record merge_views (left right dest : view) M L R : Prop := {
    mv_left : left.1 + left.2 ≤ length M;
    mv_right : right.1 + right.2 ≤ length M;
    mv_dest : left.2 + right.2 ≤ dest.2;
    mv_dest_M : dest.1 + left.2 + right.2 ≤ length M;
    mv_dl : left.1 + left.2 ≤ dest.1 ∨ dest.1 + left.2 + right.2 ≤ left.1;
    mv_dr : right.1 + right.2 ≤ dest.1 ∨ dest.1 + left.2 + right.2 ≤ right.1;
    mv_L : sub M left.1 left.2 = L;
    mv_R : sub M right.1 right.2 = R
  }.
  Lemma mv_L_len left right dest M L R : merge_views left right dest M L R → length L = left.2.
  Proof. intros H. rewrite <-(mv_L _ _ _ _ _ _ H). apply sub_len, H. Qed.
  Lemma mv_R_len left right dest M L R : merge_views left right dest M L R → length R = right.2.
  Proof. intros H. rewrite <-(mv_R _ _ _ _ _ _ H). apply sub_len, H. Qed.
  Lemma mv_L_get left right dest M L R i :
    merge_views left right dest M L R → i < left.2 → M !! (left.1 + i) = L !! i.
  Proof. intros H Hi. rewrite <-(mv_L _ _ _ _ _ _ H). by rewrite sub_lookup. Qed.
  Lemma mv_R_get left right dest M L R i :
    merge_views left right dest M L R → i < right.2 → M !! (right.1 + i) = R !! i.
  Proof. intros H Hi. rewrite <-(mv_R _ _ _ _ _ _ H). by rewrite sub_lookup. Qed.

  Definition merged (left right dest : view) M L R (X : list T) M' : Prop :=
    M' = ins dest.1 X M ∧ sperm (L ++ R) X ∧ ksorted X.
  Definition merge_panic (dest : view) M L R e M' : Prop :=
    ∃ X, M' = ins dest.1 X M ∧ mpanic ans (L ++ R) e X.

  Lemma seq_merge_spec fuel left right dest M L1 L R1 R D :
    merge_views left right dest M (L1 ++ L) (R1 ++ R) →
    length D = length L1 + length R1 →
    ksorted (D ++ L) → ksorted (D ++ R) →
    sperm ((L1 ++ L) ++ (R1 ++ R)) (D ++ L ++ R) →
    length L + length R < fuel →
    wp ans (seq_merge fuel left right dest (length L1) (length R1) (length D))
      (λ _ M', ∃ X, merged left right dest M (L1 ++ L) (R1 ++ R) X M')
      (merge_panic dest M (L1 ++ L) (R1 ++ R)) (ins dest.1 D M).
  Proof.
    intros Hv. remember (L1 ++ L) as L0 eqn:HL0. remember (R1 ++ R) as R0 eqn:HR0.
    assert (Hll := mv_L_len _ _ _ _ _ _ Hv). assert (Hrl := mv_R_len _ _ _ _ _ _ Hv).
    pose proof Hv as [Hm1 Hm2 Hm3 Hm4 Hm5 Hm6 _ _].
    revert L1 L R1 R D HL0 HR0.
    induction fuel as [|f IH]; intros L1 L R1 R D HL0 HR0 HD HsL HsR Hp Hf; [lia|].
    cbn [seq_merge].
    assert (HlL : left.2 = length L1 + length L) by (by rewrite <-Hll, HL0, app_length).
    assert (HrR : right.2 = length R1 + length R) by (by rewrite <-Hrl, HR0, app_length).
    assert (Hdrop : ∀ E, wp ans (state_drop left right dest (length L1) (length R1) (length D))
      (λ _ M', M' = ins dest.1 (D ++ L ++ R) M) E (ins dest.1 D M)).
    { intros E. wp_apply (state_drop_spec left right dest (length L1) (length R1) (length D)
        (ins dest.1 D M) E); rewrite ?inserts_length; try lia; [|auto].
      intros [] M' _ ->. rewrite (list_inserts_app_l D), Nat.add_comm.
      f_equal. rewrite !ins_sub_out by lia.
      replace (sub M (left.1 + length L1) (left.2 - length L1)) with L.
      2: { rewrite <-(sub_drop M left.1 left.2 (length L1)), (mv_L _ _ _ _ _ _ Hv), HL0.
           by rewrite drop_app. }
      replace (sub M (right.1 + length R1) (right.2 - length R1)) with R; [done|].
      rewrite <-(sub_drop M right.1 right.2 (length R1)), (mv_R _ _ _ _ _ _ Hv), HR0.
      by rewrite drop_app. }
    destruct (Nat.ltb_spec (length L1) left.2) as [HL|HL]; simpl.
    2: { wp_apply (Hdrop (merge_panic dest M L0 R0)); [|auto]. intros [] M' _ ->.
         destruct L; simpl in *; [|lia]. exists (D ++ R). done. }
    destruct (Nat.ltb_spec (length R1) right.2) as [HR|HR]; simpl.
    2: { wp_apply (Hdrop (merge_panic dest M L0 R0)); [|auto]. intros [] M' _ ->.
         destruct R; simpl in *; [|lia]. rewrite !app_nil_r in *. exists (D ++ L). done. }
    destruct R as [|x R]; simpl in *; [lia|].
    destruct L as [|y L]; simpl in *; [lia|].
    apply wp_bind, wp_on_unwind. apply (wp_vget _ _ x); [lia| |].
    { rewrite ins_lookup_out by lia. rewrite (mv_R_get _ _ _ _ _ _ _ Hv) by lia.
      rewrite HR0. apply lookup_middle. }
    apply wp_bind, wp_on_unwind. apply (wp_vget _ _ y); [lia| |].
    { rewrite ins_lookup_out by lia. rewrite (mv_L_get _ _ _ _ _ _ _ Hv) by lia.
      rewrite HL0. apply lookup_middle. }
    apply wp_bind, wp_is_less_guard.
    2: { intros Hr. wp_apply (Hdrop (merge_panic dest M L0 R0)); [|auto]. intros [] M' _ ->.
         eexists. split; [done|].
         eapply mpanic_intro; [done| |set_solver|set_solver]. by apply (sperm_perm ans). }
    intros [] Hr.
    - (* the right element is smaller *)
      apply wp_bind, wp_on_unwind. apply wp_vcopy; [lia|rewrite inserts_length; lia|lia|].
      rewrite <-ins_snoc.
      assert (Hsp : sperm (D ++ (y :: L) ++ x :: R) (D ++ x :: (y :: L) ++ R)).
      { apply sperm_app_l.
        replace ((y :: L) ++ x :: R) with (((y :: L) ++ [x]) ++ R) by (by rewrite <-app_assoc).
        replace (x :: (y :: L) ++ R) with ((x :: y :: L) ++ R) by done.
        apply sperm_app_r, sperm_move_left.
        apply ksorted_app in HsL as (_ & HsL & _).
        apply StronglySorted_inv in HsL as [_ HyL].
        assert (Hxy : klt x y) by (by apply ans_true).
        constructor; [done|]. eapply Forall_impl; [exact HyL|]. intros z Hz.
        by eapply klt_kle_trans. }
      replace (S (length D)) with (length (D ++ [x])) by (rewrite app_length; simpl; lia).
      replace (S (length R1)) with (length (R1 ++ [x])) by (rewrite app_length; simpl; lia).
      apply (IH L1 (y :: L) (R1 ++ [x]) R (D ++ [x])).
      + done.
      + by rewrite <-app_assoc.
      + rewrite !app_length; simpl. lia.
      + apply ksorted_app in HsL as (HD' & HyL & HDL).
        apply ksorted_app in HsR as (_ & HxR & HDR).
        apply ksorted_app. repeat split; [|done|].
        * apply ksorted_app. repeat split; [done|apply ksorted_singleton|].
          intros a b Ha ->%elem_of_list_singleton. apply HDR; [done|by left].
        * intros a b [Ha| ->%elem_of_list_singleton]%elem_of_app Hb; [by apply HDL|].
          assert (Hxy : kle x y) by (by apply klt_kle, ans_true).
          apply (kle_trans ans _ y); [done|].
          apply elem_of_cons in Hb as [->|Hb]; [apply kle_refl|].
          apply StronglySorted_inv in HyL as [_ HyL].
          exact (proj1 (Forall_forall _ _) HyL b Hb).
      + rewrite <-app_assoc. done.
      + etrans; [exact Hp|]. rewrite <-app_assoc. exact Hsp.
      + simpl. lia.
    - (* the left element goes first *)
      apply wp_bind, wp_on_unwind. apply wp_vcopy; [lia|rewrite inserts_length; lia|lia|].
      rewrite <-ins_snoc.
      replace (S (length D)) with (length (D ++ [y])) by (rewrite app_length; simpl; lia).
      replace (S (length L1)) with (length (L1 ++ [y])) by (rewrite app_length; simpl; lia).
      apply (IH (L1 ++ [y]) L R1 (x :: R) (D ++ [y])).
      + by rewrite <-app_assoc.
      + done.
      + rewrite !app_length; simpl. lia.
      + rewrite <-app_assoc. done.
      + apply ksorted_app in HsL as (HD' & HyL & HDL).
        apply ksorted_app in HsR as (_ & HxR & HDR).
        apply ksorted_app. repeat split; [|done|].
        * apply ksorted_app. repeat split; [done|apply ksorted_singleton|].
          intros a b Ha ->%elem_of_list_singleton. apply HDL; [done|by left].
        * intros a b [Ha| ->%elem_of_list_singleton]%elem_of_app Hb; [by apply HDR|].
          assert (Hxy : kle y x) by (by apply ans_false).
          apply (kle_trans ans _ x); [done|].
          apply elem_of_cons in Hb as [->|Hb]; [apply kle_refl|].
          apply StronglySorted_inv in HxR as [_ HxR].
          exact (proj1 (Forall_forall _ _) HxR b Hb).
      + etrans; [exact Hp|]. rewrite <-app_assoc. done.
      + simpl. lia.
  Qed.

  (** A comparison of two elements of [l] panicked and [M] is unchanged. *)
  Definition cmp_panic (l : list T) M (e : exn) M' : Prop :=
    M' = M ∧ e = UserPanic ∧ ∃ a b, a ∈ l ∧ b ∈ l ∧ ans (a, b) None.

  Lemma split_search_right_spec fuel left right dest left_mid a b M L R x :
    merge_views left right dest M L R → ksorted R → L !! left_mid = Some x →
    a ≤ b → b ≤ right.2 → b - a < fuel →
    (∀ y, y ∈ take a R → klt y x) → (∀ y, y ∈ drop b R → kle x y) →
    wp ans (split_search_right fuel left right left_mid a b)
      (λ i M', M' = M ∧ i ≤ right.2 ∧
         (∀ y, y ∈ take i R → klt y x) ∧ (∀ y, y ∈ drop i R → kle x y))
      (cmp_panic (L ++ R) M) M.
  Proof.
    intros Hv HsR Hx. revert a b.
    assert (Hll := mv_L_len _ _ _ _ _ _ Hv). assert (Hrl := mv_R_len _ _ _ _ _ _ Hv).
    induction fuel as [|f IH]; intros a b Hab Hb Hf Ha1 Hb1; [lia|]. cbn [split_search_right].
    destruct (Nat.ltb_spec a b).
    2: { apply wp_ret. assert (a = b) as -> by lia. done. }
    cbv zeta. set (m := a + (b - a) / 2).
    assert (Hm : a ≤ m < b).
    { unfold m. pose proof (Nat.div_lt (b - a) 2). lia. }
    destruct (lookup_lt_is_Some_2 R m) as [y Hy]; [lia|].
    apply wp_bind. apply (wp_vget _ _ y); [lia|by rewrite (mv_R_get _ _ _ _ _ _ _ Hv) by lia|].
    apply wp_bind.
    assert (left_mid < left.2) by (rewrite <-Hll; by eapply lookup_lt_Some).
    apply (wp_vget _ _ x); [lia|by rewrite (mv_L_get _ _ _ _ _ _ _ Hv) by lia|].
    apply wp_bind, wp_is_less.
    - intros [] Hr.
      + apply IH; [lia|lia|lia| |done].
        intros z (i & Hz)%elem_of_list_lookup.
        assert (i < m + 1). { apply lookup_lt_Some in Hz. rewrite take_length in Hz. lia. }
        rewrite lookup_take in Hz by done.
        apply (kle_klt_trans ans _ y); [|by apply ans_true].
        eapply ksorted_lookup_le; [exact HsR| |exact Hz|exact Hy]. lia.
      + apply IH; [lia|lia|lia|done|].
        intros z (i & Hz)%elem_of_list_lookup. rewrite lookup_drop in Hz.
        apply (kle_trans ans _ y); [by apply ans_false|].
        eapply ksorted_lookup_le; [exact HsR| |exact Hy|exact Hz]. lia.
    - intros Hr. split; [done|]. split; [done|]. exists y, x.
      rewrite !elem_of_app. split; [|split]; [| |done].
      + right. by eapply elem_of_list_lookup_2.
      + left. by eapply elem_of_list_lookup_2.
  Qed.

  Lemma split_search_left_spec fuel left right dest right_mid a b M L R x :
    merge_views left right dest M L R → ksorted L → R !! right_mid = Some x →
    a ≤ b → b ≤ left.2 → b - a < fuel →
    (∀ y, y ∈ take a L → kle y x) → (∀ y, y ∈ drop b L → klt x y) →
    wp ans (split_search_left fuel left right right_mid a b)
      (λ i M', M' = M ∧ i ≤ left.2 ∧
         (∀ y, y ∈ take i L → kle y x) ∧ (∀ y, y ∈ drop i L → klt x y))
      (cmp_panic (L ++ R) M) M.
  Proof.
    intros Hv HsL Hx. revert a b.
    assert (Hll := mv_L_len _ _ _ _ _ _ Hv). assert (Hrl := mv_R_len _ _ _ _ _ _ Hv).
    induction fuel as [|f IH]; intros a b Hab Hb Hf Ha1 Hb1; [lia|]. cbn [split_search_left].
    destruct (Nat.ltb_spec a b).
    2: { apply wp_ret. assert (a = b) as -> by lia. done. }
    cbv zeta. set (m := a + (b - a) / 2).
    assert (Hm : a ≤ m < b).
    { unfold m. pose proof (Nat.div_lt (b - a) 2). lia. }
    destruct (lookup_lt_is_Some_2 L m) as [y Hy]; [lia|].
    assert (right_mid < right.2) by (rewrite <-Hrl; by eapply lookup_lt_Some).
    apply wp_bind.
    apply (wp_vget _ _ x); [lia|by rewrite (mv_R_get _ _ _ _ _ _ _ Hv) by lia|].
    apply wp_bind. apply (wp_vget _ _ y); [lia|by rewrite (mv_L_get _ _ _ _ _ _ _ Hv) by lia|].
    apply wp_bind, wp_is_less.
    - intros [] Hr.
      + apply IH; [lia|lia|lia|done|].
        intros z (i & Hz)%elem_of_list_lookup. rewrite lookup_drop in Hz.
        apply (klt_kle_trans ans _ y); [by apply ans_true|].
        eapply ksorted_lookup_le; [exact HsL| |exact Hy|exact Hz]. lia.
      + apply IH; [lia|lia|lia| |done].
        intros z (i & Hz)%elem_of_list_lookup.
        assert (i < m + 1). { apply lookup_lt_Some in Hz. rewrite take_length in Hz. lia. }
        rewrite lookup_take in Hz by done.
        apply (kle_trans ans _ y); [|by apply ans_false].
        eapply ksorted_lookup_le; [exact HsL| |exact Hz|exact Hy]. lia.
    - intros Hr. split; [done|]. split; [done|]. exists x, y.
      rewrite !elem_of_app. split; [|split]; [| |done].
      + right. by eapply elem_of_list_lookup_2.
      + left. by eapply elem_of_list_lookup_2.
  Qed.

  Lemma ksorted_split l i x :
    ksorted l → l !! i = Some x →
    (∀ y, y ∈ take i l → kle y x) ∧ (∀ y, y ∈ drop i l → kle x y).
  Proof.
    intros Hs Hx. split; intros y (j & Hy)%elem_of_list_lookup.
    - assert (j < i). { apply lookup_lt_Some in Hy. rewrite take_length in Hy. lia. }
      rewrite lookup_take in Hy by done.
      eapply ksorted_lookup_le; [exact Hs| |exact Hy|exact Hx]. lia.
    - rewrite lookup_drop in Hy.
      eapply ksorted_lookup_le; [exact Hs| |exact Hx|exact Hy]. lia.
  Qed.

  Lemma split_for_merge_spec left right dest M L R :
    merge_views left right dest M L R → ksorted L → ksorted R →
    left.2 ≠ 0 → right.2 ≠ 0 → 4 ≤ left.2 + right.2 →
    wp ans (split_for_merge left right)
      (λ p M', M' = M ∧ p.1 ≤ left.2 ∧ p.2 ≤ right.2 ∧
         p.1 + p.2 < left.2 + right.2 ∧ 0 < p.1 + p.2 ∧
         (∀ x y, x ∈ take p.1 L → y ∈ drop p.2 R → kle x y) ∧
         (∀ x y, x ∈ drop p.1 L → y ∈ take p.2 R → klt y x))
      (cmp_panic (L ++ R) M) M.
  Proof.
    intros Hv HsL HsR Hl0 Hr0 H4. unfold split_for_merge.
    assert (Hll := mv_L_len _ _ _ _ _ _ Hv). assert (Hrl := mv_R_len _ _ _ _ _ _ Hv).
    destruct (Nat.leb_spec right.2 left.2); apply wp_bind.
    - pose proof (Nat.div_lt left.2 2). pose proof (Nat.div_le_lower_bound left.2 2 1).
      destruct (lookup_lt_is_Some_2 L (left.2 / 2)) as [x Hx]; [lia|].
      destruct (ksorted_split _ _ _ HsL Hx) as [Hk1 Hk2].
      wp_apply (split_search_right_spec (S right.2) left right dest (left.2 / 2) 0 right.2 M L R x);
        [done|done|done|lia|lia|lia| | | |auto].
      { intros y Hy. by apply elem_of_nil in Hy. }
      { intros y Hy. rewrite drop_ge in Hy by lia. by apply elem_of_nil in Hy. }
      intros i M' _ (-> & Hi & H3 & H5). apply wp_ret. simpl.
      split; [done|]. split; [lia|]. split; [done|]. split; [lia|]. split; [lia|]. split.
      + intros a b Ha Hb. apply (kle_trans ans _ x); auto.
      + intros a b Ha Hb. apply (klt_kle_trans ans _ x); auto.
    - pose proof (Nat.div_lt right.2 2). pose proof (Nat.div_le_lower_bound right.2 2 1).
      destruct (lookup_lt_is_Some_2 R (right.2 / 2)) as [x Hx]; [lia|].
      destruct (ksorted_split _ _ _ HsR Hx) as [Hk1 Hk2].
      wp_apply (split_search_left_spec (S left.2) left right dest (right.2 / 2) 0 left.2 M L R x);
        [done|done|done|lia|lia|lia| | | |auto].
      { intros y Hy. by apply elem_of_nil in Hy. }
      { intros y Hy. rewrite drop_ge in Hy by lia. by apply elem_of_nil in Hy. }
      intros i M' _ (-> & Hi & H3 & H5). apply wp_ret. simpl.
      split; [done|]. split; [lia|]. split; [lia|]. split; [lia|]. split; [lia|]. split.
      + intros a b Ha Hb. apply (kle_trans ans _ x); auto.
      + intros a b Ha Hb. apply (kle_klt_trans ans _ x); auto.
  Qed.

  Lemma sperm_block (L R : list T) :
    (∀ x y, x ∈ L → y ∈ R → klt y x) → sperm (L ++ R) (R ++ L).
  Proof.
    revert R. induction L as [|x L IH]; intros R H; simpl.
    - by rewrite app_nil_r.
    - etrans; [apply (sperm_app_l ans [x]), IH|].
      { intros a b Ha Hb. apply H; [by right|done]. }
      simpl. change (x :: R ++ L) with ((x :: R) ++ L).
      replace (R ++ x :: L) with ((R ++ [x]) ++ L) by (by rewrite <-app_assoc).
      apply sperm_app_r, sperm_move_right. apply Forall_forall. intros y Hy.
      apply H; [by left|done].
  Qed.

  Lemma wp_vsplit (v : view) k (Φ : view * view → list T → Prop) E M :
    k ≤ v.2 → Φ ((v.1, k), (v.1 + k, v.2 - k)) M → wp ans (vsplit v k) Φ E M.
  Proof.
    intros Hk H. unfold vsplit. rewrite (proj2 (Nat.leb_le _ _) Hk). by apply wp_ret.
  Qed.

  Lemma merge_sequential_false ll rl :
    merge_sequential ll rl = false → ll ≠ 0 ∧ rl ≠ 0 ∧ 4 ≤ ll + rl.
  Proof.
    unfold merge_sequential. intros [[H1%Nat.eqb_neq H2%Nat.eqb_neq]%orb_false_iff H3%N.ltb_ge]%orb_false_iff.
    split; [done|]. split; [done|]. lia.
  Qed.

  Lemma par_merge_spec fuel left right dest M L R :
    merge_views left right dest M L R → ksorted L → ksorted R →
    left.2 + right.2 < fuel →
    wp ans (par_merge fuel left right dest)
      (λ _ M', ∃ X, merged left right dest M L R X M')
      (merge_panic dest M L R) M.
  Proof.
    revert left right dest M L R.
    induction fuel as [|f IH]; intros left right dest M L R Hv HsL HsR Hf; [lia|].
    cbn [par_merge].
    assert (Hll := mv_L_len _ _ _ _ _ _ Hv). assert (Hrl := mv_R_len _ _ _ _ _ _ Hv).
    destruct (merge_sequential left.2 right.2) eqn:Hseq.
    { wp_apply (seq_merge_spec (S (left.2 + right.2)) left right dest M [] L [] R []); auto.
      - reflexivity.
      - lia. }
    apply merge_sequential_false in Hseq as (Hl0 & Hr0 & H4).
    pose proof Hv as [Hm1 Hm2 Hm3 Hm4 Hm5 Hm6 HL HR].
    apply wp_bind, wp_on_unwind.
    wp_apply (split_for_merge_spec left right dest M L R); try done.
    2: { intros e M' _ (-> & -> & a & b & Ha & Hb & Hr).
         wp_apply (state_drop_spec left right dest 0 0 0 M (merge_panic dest M L R)); try lia; [|auto].
         intros [] M' _ ->. rewrite !Nat.add_0_r, !Nat.sub_0_r, HL, HR.
         eexists. split; [done|]. split; [done|]. split; [|done]. by exists a, b. }
    intros [lm rm] M' _ (-> & Hlm & Hrm & Hlt & Hgt & HLR & HRL). simpl in *.
    apply wp_bind, wp_on_unwind, wp_vsplit; [done|].
    apply wp_bind, wp_on_unwind, wp_vsplit; [done|]. simpl.
    apply wp_bind, wp_vsplit; [lia|]. simpl.
    apply wp_bind, wp_join.
    set (L1 := take lm L) in *. set (L2 := drop lm L) in *.
    set (R1 := take rm R) in *. set (R2 := drop rm R) in *.
    assert (HL12 : L = L1 ++ L2) by (by unfold L1, L2; rewrite take_drop).
    assert (HR12 : R = R1 ++ R2) by (by unfold R1, R2; rewrite take_drop).
    assert (HlL1 : length L1 = lm) by (unfold L1; rewrite take_length; lia).
    assert (HlR1 : length R1 = rm) by (unfold R1; rewrite take_length; lia).
    assert (HlL2 : length L2 = left.2 - lm) by (unfold L2; rewrite drop_length; lia).
    assert (HlR2 : length R2 = right.2 - rm) by (unfold R2; rewrite drop_length; lia).
    assert (HsL12 := HsL). rewrite HL12 in HsL12. apply ksorted_app in HsL12 as (HsL1 & HsL2 & HcL).
    assert (HsR12 := HsR). rewrite HR12 in HsR12. apply ksorted_app in HsR12 as (HsR1 & HsR2 & HcR).
    assert (Hv1 : merge_views (left.1, lm) (right.1, rm) (dest.1, lm + rm) M L1 R1).
    { split; simpl; try lia.
      - unfold L1. rewrite <-HL. by rewrite sub_take by lia.
      - unfold R1. rewrite <-HR. by rewrite sub_take by lia. }
    assert (Hv2 : ∀ X, length X = lm + rm →
      merge_views (left.1 + lm, left.2 - lm) (right.1 + rm, right.2 - rm)
        (dest.1 + (lm + rm), dest.2 - (lm + rm)) (ins dest.1 X M) L2 R2).
    { intros X HX. split; simpl; rewrite ?inserts_length; try lia.
      - rewrite ins_sub_out by lia. unfold L2. rewrite <-HL. by rewrite sub_drop.
      - rewrite ins_sub_out by lia. unfold R2. rewrite <-HR. by rewrite sub_drop. }
    assert (Hsplice : ∀ X1 X2, length X1 = lm + rm →
      ins (dest.1 + (lm + rm)) X2 (ins dest.1 X1 M) = ins dest.1 (X1 ++ X2) M).
    { intros X1 X2 HX1. rewrite list_inserts_app_l. f_equal. lia. }
    assert (Hblock : sperm (L ++ R) ((L1 ++ R1) ++ (L2 ++ R2))).
    { rewrite HL12, HR12, <-!app_assoc. apply sperm_app_l. rewrite !app_assoc.
      apply sperm_app_r. by apply sperm_block. }
    assert (Hpan : ∀ X1 X2 e, length X1 = lm + rm → X1 ≡ₚ L1 ++ R1 → X2 ≡ₚ L2 ++ R2 →
      e = UserPanic → (∃ a b, a ∈ L ++ R ∧ b ∈ L ++ R ∧ ans (a, b) None) →
      merge_panic dest M L R e (ins (dest.1 + (lm + rm)) X2 (ins dest.1 X1 M))).
    { intros X1 X2 e HX1 Hp1 Hp2 -> He. exists (X1 ++ X2). split; [by apply Hsplice|].
      split; [done|]. split; [done|]. rewrite Hp1, Hp2. symmetry. symmetry.
      by apply (sperm_perm ans). }
    assert (Hm1L : ∀ a, a ∈ L1 ++ R1 → a ∈ L ++ R).
    { intros a. rewrite HL12, HR12. set_solver. }
    assert (Hm2L : ∀ a, a ∈ L2 ++ R2 → a ∈ L ++ R).
    { intros a. rewrite HL12, HR12. set_solver. }
    assert (H1 := IH (left.1, lm) (right.1, rm) (dest.1, lm + rm) M L1 R1 Hv1 HsL1 HsR1).
    assert (H2 := λ X HX,
      IH (left.1 + lm, left.2 - lm) (right.1 + rm, right.2 - rm)
         (dest.1 + (lm + rm), dest.2 - (lm + rm)) (ins dest.1 X M) L2 R2 (Hv2 X HX) HsL2 HsR2).
    simpl in H1, H2.
    wp_apply H1; [lia| |].
    - intros [] M1 _ (X1 & -> & Hp1 & Hs1). simpl.
      assert (HX1 : length X1 = lm + rm).
      { rewrite (sperm_length ans _ _ Hp1), app_length. lia. }
      wp_apply (H2 X1 HX1); [lia| |].
      + intros [] M2 _ (X2 & -> & Hp2 & Hs2). simpl. apply wp_ret.
        exists (X1 ++ X2). split; [by apply Hsplice|]. split.
        * etrans; [exact Hblock|]. by apply sperm_app.
        * apply ksorted_app. split; [done|]. split; [done|].
          intros a b Ha Hb. rewrite (sperm_perm ans _ _ Hp1) in Ha.
          rewrite (sperm_perm ans _ _ Hp2) in Hb.
          apply elem_of_app in Ha as [Ha|Ha]; apply elem_of_app in Hb as [Hb|Hb]; auto.
          apply klt_kle. auto.
      + intros e M2 _ (X2 & -> & -> & (a & b & Ha & Hb & Hr) & Hp2). simpl.
        apply Hpan; auto.
        * by apply (sperm_perm ans).
        * exists a, b. auto.
    - intros e M1 _ (X1 & -> & -> & (a & b & Ha & Hb & Hr) & Hp1). simpl.
      assert (HX1 : length X1 = lm + rm).
      { rewrite Hp1, app_length. lia. }
      wp_apply (H2 X1 HX1); [lia| |].
      + intros [] M2 _ (X2 & -> & Hp2 & Hs2). simpl. apply Hpan; auto.
        * by apply (sperm_perm ans).
        * exists a, b. auto.
      + intros e M2 _ (X2 & -> & _ & _ & Hp2). simpl. apply Hpan; auto.
        exists a, b. auto.
  Qed.

  (** ** [recurse] *)
  Fixpoint chunks_of (s : nat) (segs : list (list T)) : list (nat * nat) :=
    match segs with
    | [] => []
    | x :: segs => (s, s + length x) :: chunks_of (s + length x) segs
    end.
  Lemma chunks_of_length s segs : length (chunks_of s segs) = length segs.
  Proof. revert s. induction segs; intros s; simpl; auto. Qed.
  Lemma chunks_of_app s S1 S2 :
    chunks_of s (S1 ++ S2) = chunks_of s S1 ++ chunks_of (s + length (concat S1)) S2.
  Proof.
    revert s. induction S1 as [|x S1 IH]; intros s; simpl.
    - by rewrite Nat.add_0_r.
    - rewrite IH, app_length. by rewrite Nat.add_assoc.
  Qed.

  (** Nothing is changed but positions [s] to [s + k] of the two views. *)
  Definition rec_frame (vb bb s k : nat) M M' : Prop :=
    length M' = length M ∧
    ∀ i, ¬ (vb + s ≤ i < vb + s + k) → ¬ (bb + s ≤ i < bb + s + k) → M' !! i = M !! i.
  Lemma rec_frame_refl vb bb s k M : rec_frame vb bb s k M M.
  Proof. done. Qed.
  Lemma rec_frame_trans vb bb s k s1 k1 s2 k2 M M1 M2 :
    rec_frame vb bb s1 k1 M M1 → rec_frame vb bb s2 k2 M1 M2 →
    s ≤ s1 → s1 + k1 ≤ s + k → s ≤ s2 → s2 + k2 ≤ s + k →
    rec_frame vb bb s k M M2.
  Proof.
    intros [Hl1 H1] [Hl2 H2] ????. split; [congruence|].
    intros i Hi1 Hi2. rewrite H2 by lia. apply H1; lia.
  Qed.
  Lemma rec_frame_ins vb bb s k db X M :
    db = vb ∨ db = bb → length X = k → rec_frame vb bb s k M (ins (db + s) X M).
  Proof.
    intros Hdb HX. split; [apply inserts_length|]. intros i Hi1 Hi2.
    apply ins_lookup_out. destruct Hdb as [-> | ->]; lia.
  Qed.

  Definition rec_dest (vb bb : nat) (into_buf : bool) : nat := if into_buf then bb else vb.

  Lemma wp_chunk_get chunks i x (Φ : nat * nat → list T → Prop) E M :
    chunks !! i = Some x → Φ x M → wp ans (chunk_get chunks i) Φ E M.
  Proof. intros Hx H. unfold chunk_get. rewrite Hx. by apply wp_ret. Qed.
  Lemma wp_vslice (v : view) a b (Φ : view → list T → Prop) E M :
    a ≤ b → b ≤ v.2 → Φ (v.1 + a, b - a) M → wp ans (vslice v a b) Φ E M.
  Proof.
    intros Ha Hb H. unfold vslice.
    rewrite (proj2 (Nat.leb_le _ _) Ha), (proj2 (Nat.leb_le _ _) Hb). by apply wp_ret.
  Qed.

  Lemma copy_on_drop_spec (src dest : view) s k M E :
    s + k ≤ src.2 → s + k ≤ dest.2 → src.1 + src.2 ≤ length M → dest.1 + dest.2 ≤ length M →
    src.1 + src.2 ≤ dest.1 ∨ dest.1 + dest.2 ≤ src.1 →
    wp ans (copy_on_drop src dest s k)
      (λ _ M', M' = ins (dest.1 + s) (sub M (src.1 + s) k) M) E M.
  Proof.
    intros. unfold copy_on_drop. eapply copy_spec; [lia|lia|lia|].
    intros i x Φ M' Hi HM' Hx HΦ. apply wp_bind. apply (wp_vget _ _ x); [simpl; lia| |].
    - rewrite <-Hx. f_equal. simpl. lia.
    - apply wp_vcopy; [simpl; lia|simpl; lia|simpl; lia|]. simpl.
      by replace (dest.1 + (s + i)) with (dest.1 + s + i) by lia.
  Qed.

  Lemma pm_recurse_spec fuel vb bb n s segs (into_buf : bool) M :
    segs ≠ [] → length segs < fuel → Forall ksorted segs →
    s + length (concat segs) ≤ n →
    vb + n ≤ length M → bb + n ≤ length M → vb + n ≤ bb ∨ bb + n ≤ vb →
    sub M (vb + s) (length (concat segs)) = concat segs →
    wp ans (pm_recurse c fuel (vb, n) (bb, n) (chunks_of s segs) into_buf)
      (λ _ M', rec_frame vb bb s (length (concat segs)) M M' ∧
         sperm (concat segs) (sub M' (rec_dest vb bb into_buf + s) (length (concat segs))) ∧
         ksorted (sub M' (rec_dest vb bb into_buf + s) (length (concat segs))))
      (λ e M', rec_frame vb bb s (length (concat segs)) M M' ∧
         mpanic ans (concat segs) e
           (sub M' (rec_dest vb bb into_buf + s) (length (concat segs)))) M.
  Proof.
    revert s segs into_buf M.
    induction fuel as [|f IH]; intros s segs into_buf M Hne Hf Hs Hn Hv Hb Hdis Hsub; [lia|].
    cbn [pm_recurse]. rewrite chunks_of_length.
    apply wp_bind, wp_dassert.
    { apply Nat.ltb_lt. destruct segs; simpl; [done|lia]. }
    destruct (Nat.eqb_spec (length segs) 1) as [H1|H1].
    { destruct segs as [|x [|]]; simpl in *; try done. rewrite app_nil_r in *.
      apply Forall_cons in Hs as [Hs _].
      destruct into_buf; simpl.
      - apply wp_bind. eapply wp_chunk_get; [done|]. cbv beta iota.
        replace (s + length x - s) with (length x) by lia.
        wp_eapply (copy_spec s (length x) _ (vb + s) (bb + s) M (λ _ _, False)); [lia|lia|lia| | |done].
        { intros i y Φ M' Hi HM' Hy HΦ. apply wp_bind. apply (wp_vget _ _ y); [simpl; lia| |].
          - rewrite <-Hy. f_equal. simpl. lia.
          - apply wp_vcopy; [simpl; lia|simpl; lia|simpl; lia|]. simpl.
            by replace (bb + (s + i)) with (bb + s + i) by lia. }
        intros [] M' _ ->. rewrite Hsub. rewrite ins_sub_in by lia. split.
        + apply rec_frame_ins; auto.
        + split; [reflexivity|done].
      - apply wp_ret. rewrite Hsub. split; [apply rec_frame_refl|]. split; [reflexivity|done]. }
    set (len := length segs) in *.
    assert (Hlen : 2 ≤ len) by (destruct segs as [|x [|]]; simpl in *; [done|done|unfold len; simpl; lia]).
    assert (Hh : 1 ≤ len / 2 < len).
    { split; [by apply Nat.div_le_lower_bound; lia|apply Nat.div_lt; lia]. }
    set (S1 := take (len / 2) segs). set (S2 := drop (len / 2) segs).
    assert (HS : segs = S1 ++ S2) by (unfold S1, S2; by rewrite take_drop).
    assert (HlS1 : length S1 = len / 2) by (unfold S1; rewrite take_length; fold len; lia).
    assert (HlS2 : length S2 = len - len / 2) by (unfold S2; rewrite drop_length; fold len; lia).
    assert (HS1 : S1 ≠ []) by (intros Hnil; rewrite Hnil in HlS1; simpl in *; lia).
    assert (HS2 : S2 ≠ []) by (intros Hnil; rewrite Hnil in HlS2; simpl in *; lia).
    set (mid := s + length (concat S1)).
    assert (Hck : chunks_of s segs = chunks_of s S1 ++ chunks_of mid S2).
    { rewrite HS. apply chunks_of_app. }
    assert (Htake : take (len / 2) (chunks_of s segs) = chunks_of s S1).
    { rewrite Hck. apply take_app_alt. by rewrite chunks_of_length. }
    assert (Hdrop : drop (len / 2) (chunks_of s segs) = chunks_of mid S2).
    { rewrite Hck. apply drop_app_alt. by rewrite chunks_of_length. }
    rewrite Htake, Hdrop.
    assert (Hcat : length (concat segs) = length (concat S1) + length (concat S2)).
    { rewrite HS at 1. by rewrite concat_app, app_length. }
    set (k := length (concat segs)) in *.
    assert (∃ z, chunks_of s segs !! 0 = Some (s, z)) as [z0 Hc0].
    { destruct segs; [done|]. simpl. eauto. }
    apply wp_bind. eapply wp_chunk_get; [exact Hc0|]. cbv beta iota.
    assert (∃ z, chunks_of s segs !! (len / 2) = Some (mid, z)) as [z1 Hc1].
    { rewrite Hck, lookup_app_r by (rewrite chunks_of_length; lia).
      rewrite chunks_of_length, HlS1, Nat.sub_diag. destruct S2; [done|]. simpl. eauto. }
    apply wp_bind. eapply wp_chunk_get; [exact Hc1|]. cbv beta iota.
    apply wp_bind, wp_usub; [lia|].
    assert (∃ z, chunks_of s segs !! (len - 1) = Some (z, s + k)) as [z2 Hc2].
    { unfold k, len. clear -Hne. destruct segs as [|x l _] using rev_ind; [done|].
      rewrite app_length, chunks_of_app, concat_app, app_length. simpl.
      rewrite app_nil_r, Nat.add_sub. exists (s + length (concat l)).
      rewrite lookup_app_r; rewrite chunks_of_length; [|done].
      rewrite Nat.sub_diag. simpl. do 2 f_equal. lia. }
    apply wp_bind. eapply wp_chunk_get; [exact Hc2|]. cbv beta iota.
    set (src := if into_buf then vb else bb).
    set (dst := rec_dest vb bb into_buf).
    replace (if into_buf then ((vb, n) : view, (bb, n) : view) else ((bb, n) : view, (vb, n) : view))
      with ((src, n) : view, (dst, n) : view)
      by (unfold src, dst, rec_dest; by destruct into_buf).
    assert (Hsd : (src = vb ∧ dst = bb) ∨ (src = bb ∧ dst = vb)).
    { unfold src, dst, rec_dest. destruct into_buf; auto. }
    assert (Hsrc : rec_dest vb bb (negb into_buf) = src).
    { unfold src, rec_dest. by destruct into_buf. }
    clearbody src dst. cbv beta iota.
    apply wp_bind, wp_usub; [lia|]. replace (s + k - s) with k by lia.
    apply wp_bind, wp_on_unwind, wp_join.
    rewrite HS in Hs. apply Forall_app in Hs as [Hs1 Hs2].
    rewrite Hcat, sub_split in Hsub. rewrite HS, concat_app in Hsub.
    set (k1 := length (concat S1)) in *. set (k2 := length (concat S2)) in *.
    apply app_inj_1 in Hsub as [Hsub1 Hsub2]; [|apply sub_len; lia].
    replace (vb + s + k1) with (vb + mid) in Hsub2 by (unfold mid; lia).
    assert (Hboth : ∀ M1 M2, rec_frame vb bb s k1 M M1 → rec_frame vb bb mid k2 M1 M2 →
      rec_frame vb bb s k M M2 ∧ sub M2 (src + s) k1 = sub M1 (src + s) k1 ∧
      sub M2 (src + s) k = sub M1 (src + s) k1 ++ sub M2 (src + mid) k2).
    { intros M1 M2 H12 H22.
      assert (Hfr : sub M2 (src + s) k1 = sub M1 (src + s) k1).
      { apply sub_ext. intros i Hi. apply H22; unfold mid; destruct Hsd as [[-> ->]|[-> ->]]; lia. }
      split; [|split; [done|]].
      - eapply rec_frame_trans; [exact H12|exact H22|unfold mid; lia..].
      - rewrite Hcat, sub_split, Hfr. do 2 f_equal. unfold mid. lia. }
    assert (HIH1 := IH s S1 (negb into_buf) M HS1).
    rewrite Hsrc in HIH1. fold k1 in HIH1.
    assert (HIH2 : ∀ M1, rec_frame vb bb s k1 M M1 → _)
      by (intros M1 HM1; exact (IH mid S2 (negb into_buf) M1 HS2)).
    rewrite Hsrc in HIH2. fold k2 in HIH2.
    assert (Hpan : ∀ M1 M2, rec_frame vb bb s k1 M M1 → rec_frame vb bb mid k2 M1 M2 →
      sub M1 (src + s) k1 ≡ₚ concat S1 → sub M2 (src + mid) k2 ≡ₚ concat S2 →
      (∃ a b, a ∈ concat segs ∧ b ∈ concat segs ∧ ans (a, b) None) →
      wp ans (copy_on_drop (src, n) (dst, n) s k)
        (λ _ M', rec_frame vb bb s k M M' ∧ mpanic ans (concat segs) UserPanic (sub M' (dst + s) k))
        (λ e M', rec_frame vb bb s k M M' ∧ mpanic ans (concat segs) e (sub M' (dst + s) k)) M2).
    { intros M1 M2 H12 H22 Hp1 Hp2 Hab.
      destruct (Hboth M1 M2 H12 H22) as (Hfr & _ & Hsub).
      assert (Hlm : length M2 = length M) by apply Hfr.
      eapply wp_mono; [apply (copy_on_drop_spec (src, n) (dst, n) s k M2 (λ _ _, False))| |];
        simpl; try (destruct Hsd as [[-> ->]|[-> ->]]; lia).
      intros [] M' _ ->.
      assert (Hl : length (sub M2 (src + s) k) = k).
      { apply sub_len. destruct Hsd as [[-> ->]|[-> ->]]; lia. }
      split.
      - eapply (rec_frame_trans _ _ _ _ s k s k); [exact Hfr| |lia..].
        apply rec_frame_ins; [destruct Hsd as [[-> ->]|[-> ->]]; auto|done].
      - split; [done|]. split; [done|].
        replace k with (length (sub M2 (src + s) k)) at 2.
        rewrite ins_sub_in by (rewrite Hl; destruct Hsd as [[-> ->]|[-> ->]]; lia).
        rewrite Hsub, Hp1, Hp2, HS. by rewrite concat_app. }
    assert (Hm1 : ∀ a, a ∈ concat S1 → a ∈ concat segs).
    { intros a. rewrite HS, concat_app. set_solver. }
    assert (Hm2 : ∀ a, a ∈ concat S2 → a ∈ concat segs).
    { intros a. rewrite HS, concat_app. set_solver. }
    assert (Hnext : ∀ M1, rec_frame vb bb s k1 M M1 →
      length M1 = length M ∧ sub M1 (vb + mid) k2 = concat S2).
    { intros M1 [Hl HM1]. split; [done|]. rewrite <-Hsub2. apply sub_ext. intros i Hi.
      apply HM1; unfold mid in *; lia. }
    wp_apply HIH1; [lia|done|lia|done|done|done|done| |].
    - intros [] M1 _ (Hf1 & Hsp1 & Hso1).
      destruct (Hnext M1 Hf1) as [Hl1 HsubM1].
      wp_apply (HIH2 M1 Hf1); [lia|done|unfold mid; lia|lia|lia|done|done| |].
      + intros [] M2 _ (Hf2 & Hsp2 & Hso2).
        destruct (Hboth M1 M2 Hf1 Hf2) as (Hfr & HM12 & Hsub).
        assert (Hl2 : length M2 = length M) by apply Hfr.
        apply wp_bind, wp_vslice; [unfold mid; lia|simpl; unfold mid; lia|]. simpl.
        apply wp_bind, wp_vslice; [unfold mid; lia|simpl; unfold mid; lia|]. simpl.
        apply wp_bind, wp_vslice; [lia|simpl; lia|]. simpl.
        replace (mid - s) with k1 by (unfold mid; lia).
        replace (s + k - mid) with k2 by (unfold mid; lia).
        wp_apply (par_merge_spec (S (k1 + k2)) (src + s, k1) (src + mid, k2) (dst + s, n - s) M2
          (sub M1 (src + s) k1) (sub M2 (src + mid) k2)).
        * unfold mid. split; simpl; try (destruct Hsd as [[-> ->]|[-> ->]]; lia); done.
        * done.
        * done.
        * simpl. lia.
        * intros [] M3 _ (X & -> & HspX & HsoX). simpl.
          assert (HlX : length X = k).
          { rewrite (sperm_length ans _ _ HspX), app_length.
            rewrite (sperm_length ans _ _ Hsp1), (sperm_length ans _ _ Hsp2). done. }
          split; [|].
          -- eapply (rec_frame_trans _ _ _ _ s k s k); [exact Hfr| |lia..].
             apply rec_frame_ins; [destruct Hsd as [[-> ->]|[-> ->]]; auto|done].
          -- rewrite <-HlX.
             rewrite ins_sub_in by (rewrite HlX; destruct Hsd as [[-> ->]|[-> ->]]; lia).
             split; [|done]. etrans; [|exact HspX]. rewrite HS, concat_app.
             by apply sperm_app.
        * intros e M3 _ (X & -> & -> & (a & b & Ha & Hb' & Hr) & HpX). simpl.
          assert (HlX : length X = k).
          { rewrite HpX, app_length.
            rewrite (sperm_length ans _ _ Hsp1), (sperm_length ans _ _ Hsp2). done. }
          split; [|].
          -- eapply (rec_frame_trans _ _ _ _ s k s k); [exact Hfr| |lia..].
             apply rec_frame_ins; [destruct Hsd as [[-> ->]|[-> ->]]; auto|done].
          -- rewrite <-HlX at 1.
             rewrite ins_sub_in by (rewrite HlX; destruct Hsd as [[-> ->]|[-> ->]]; lia).
             assert (Hpp : sub M1 (src + s) k1 ++ sub M2 (src + mid) k2 ≡ₚ concat segs).
             { rewrite HS, concat_app.
               by rewrite (sperm_perm ans _ _ Hsp1), (sperm_perm ans _ _ Hsp2). }
             split; [done|]. split; [|by rewrite HpX].
             exists a, b. rewrite <-Hpp. done.
      + intros e M2 _ (Hf2 & -> & (a & b & Ha & Hb' & Hr) & Hp2).
        eapply Hpan; [done|done|by apply (sperm_perm ans)|done|]. exists a, b. auto.
    - intros e M1 _ (Hf1 & -> & (a & b & Ha & Hb' & Hr) & Hp1).
      destruct (Hnext M1 Hf1) as [Hl1 HsubM1].
      wp_apply (HIH2 M1 Hf1); [lia|done|unfold mid; lia|lia|lia|done|done| |].
      + intros [] M2 _ (Hf2 & Hsp2 & Hso2).
        eapply Hpan; [done|done|done|by apply (sperm_perm ans)|]. exists a, b. auto.
      + intros e M2 _ (Hf2 & _ & _ & Hp2).
        eapply Hpan; [done|done|done|done|]. exists a, b. auto.
  Qed.
End merge.
