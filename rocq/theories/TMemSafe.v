(** * TMemSafe: the stable sort with its memory management is safe and sorts, whatever the
    allocator answers. *)
From Verif Require Export PMerge PAlloc.
From stdpp Require Import list.

Section safe.
  Context {T : Type} (c : cfg) (ans : T * T → option bool → Prop).
  Notation P A := (prog T (mem_question T) mem_answer A).
  Implicit Types (l : list T) (rv : run_vec).
  Notation ksorted := (ksorted ans).
  Notation sperm := (sperm ans).
  Notation seg_ok := (seg_ok ans).

  (** The allocator answers anything. *)
  Definition mem_ans (q : mem_question T) (r : mem_answer) : Prop :=
    match q with
    | Compare a b => ans (a, b) (match r with Less v => v | _ => None end)
    | _ => True
    end.
  (** The comparison of two elements panicked, or there was no memory. *)
  Definition mem_panic (l0 : list T) (e : exn) (l' : list T) : Prop :=
    upanic ans l0 e l' ∨ (e = AssertPanic ∧ l' ≡ₚ l0).
  Lemma mem_panic_perm l0 l1 e l' : mem_panic l0 e l' → l0 ≡ₚ l1 → mem_panic l1 e l'.
  Proof.
    intros [H|[-> H]] Hl; [left; by eapply upanic_perm|right]. split; [done|]. by rewrite H.
  Qed.

  Lemma wp_lift {A} (p : cmp_prog T A) Φ E l : wp ans p Φ E l → wp mem_ans (lift p) Φ E l.
  Proof.
    apply wp_with_asks. intros [a b] Φ' E' l' H. apply wp_ask. intros r Hr. apply wp_ret, H, Hr.
  Qed.
  Lemma wp_dealloc k p len (Φ : unit → list T → Prop) E l : Φ tt l → wp mem_ans (dealloc k p len) Φ E l.
  Proof. intros H. unfold dealloc. apply wp_ask. intros r _. by apply wp_ret. Qed.
  Lemma wp_guard {A} rv (p : cmp_prog T A) Φ E l :
    wp ans p Φ E l → wp mem_ans (on_unwind (rv_drop rv) (lift p)) Φ E l.
  Proof.
    intros H. apply wp_on_unwind, wp_lift. eapply wp_mono; [exact H|done|].
    intros e l' _ He. by apply wp_dealloc.
  Qed.
  Lemma wp_alloc k len (Φ : nat → list T → Prop) (E : exn → list T → Prop) l :
    (∀ p, Φ p l) → E AssertPanic l → wp mem_ans (alloc k len) Φ E l.
  Proof.
    intros H HE. unfold alloc. apply wp_ask. intros r _.
    destruct r as [v|[p|]|]; [by apply wp_throw|by apply wp_ret|by apply wp_throw..].
  Qed.

  Lemma wp_push rv runs v (Φ : run_vec → list T → Prop) (E : exn → list T → Prop) l :
    rvok rv runs → (∀ rv', rvok rv' (runs ++ [v]) → Φ rv' l) → E AssertPanic l →
    wp mem_ans (rv_push rv v) Φ E l.
  Proof.
    intros (H1 & H2 & H3 & H4 & H5) H HE. unfold rv_push. apply wp_bind.
    destruct (Nat.eqb_spec (rv_len rv) (rv_cap rv)) as [Hf|Hf].
    - cbv zeta. apply wp_bind, wp_on_unwind, wp_alloc; [|by apply wp_dealloc].
      intros p. rewrite (proj2 (Nat.leb_le (rv_cap rv) (length _))) by lia.
      rewrite (proj2 (Nat.leb_le (rv_cap rv) (rv_cap rv * 2))) by lia. cbn [andb].
      apply wp_bind, wp_dealloc, wp_ret. cbn [rv_len rv_cap rv_slots rv_ptr].
      rewrite app_length, take_length, replicate_length.
      rewrite (proj2 (Nat.ltb_lt _ _)) by lia. apply wp_ret, H.
      unfold rvok. cbn [rv_slots rv_cap rv_len].
      rewrite insert_length, !app_length, take_length, replicate_length. cbn [length].
      split_and!; [lia..|].
      rewrite H2, Nat.add_1_r, (take_S_r _ _ (Some v)).
      + rewrite take_insert by lia. rewrite take_app_alt.
        * rewrite <-H2, Hf in H5. by rewrite H5, fmap_app.
        * rewrite take_length. lia.
      + apply list_lookup_insert. rewrite app_length, take_length, replicate_length. lia.
    - apply wp_ret. rewrite (proj2 (Nat.ltb_lt _ _)) by lia. apply wp_ret, H.
      unfold rvok. cbn [rv_slots rv_cap rv_len]. rewrite insert_length, app_length. cbn [length].
      split_and!; [lia..|].
      rewrite H2, Nat.add_1_r, (take_S_r _ _ (Some v)).
      + rewrite take_insert by lia. by rewrite H5, fmap_app.
      + apply list_lookup_insert. lia.
  Qed.

  Lemma collapse_mem_spec fuel n l0 segs rest rv :
    n = length (concat segs ++ rest) → rvok rv (runs_of 0 segs) →
    segs ≠ [] → length segs < fuel →
    Forall seg_ok segs → sperm l0 (concat segs ++ rest) →
    wp mem_ans (collapse_loop_mem fuel (n / 2) n rv)
      (λ rv' l', ∃ segs', rvok rv' (runs_of 0 segs') ∧ l' = concat segs' ++ rest ∧
         segs' ≠ [] ∧ Forall seg_ok segs' ∧ sperm l0 l' ∧ collapse (runs_of 0 segs') n = None)
      (mem_panic l0) (concat segs ++ rest).
  Proof.
    revert segs rv. induction fuel as [|f IH]; intros segs rv Hn Hrv Hne Hf Hok Hp; [lia|].
    cbn [collapse_loop_mem]. rewrite (rv_slice_ok _ _ Hrv). apply wp_bind, wp_ret.
    destruct (collapse (runs_of 0 segs) n) as [r|] eqn:Hc.
    2: { apply wp_ret. exists segs. done. }
    apply collapse_some in Hc. rewrite runs_of_length in Hc.
    assert (∃ S1 a b S2, segs = S1 ++ a :: b :: S2 ∧ length S1 = r)
      as (S1 & a & b & S2 & -> & <-).
    { destruct (lookup_lt_is_Some_2 segs r) as [a Ha]; [lia|].
      destruct (lookup_lt_is_Some_2 segs (S r)) as [b Hb]; [lia|].
      exists (take r segs), a, b, (drop (S (S r)) segs). split.
      - rewrite <-(drop_S _ b) by done. rewrite <-(drop_S _ a) by done. by rewrite take_drop.
      - rewrite take_length. lia. }
    assert (Hga : runs_of 0 (S1 ++ a :: b :: S2) !! length S1
                  = Some (Run (length (concat S1)) (length a))).
    { rewrite runs_of_app. simpl. rewrite <-(runs_of_length 0 S1). apply lookup_middle. }
    assert (Hgb : runs_of 0 (S1 ++ a :: b :: S2) !! (length S1 + 1)
                  = Some (Run (length (concat S1) + length a) (length b))).
    { rewrite runs_of_app. simpl. rewrite lookup_app_r; rewrite runs_of_length; [|lia].
      by replace (length S1 + 1 - length S1) with 1 by lia. }
    rewrite (rv_index_ok rv _ _ _ Hrv Hga). apply wp_bind, wp_ret.
    rewrite (rv_index_ok rv _ _ _ Hrv Hgb). apply wp_bind, wp_ret. cbn [r_start r_len].
    apply Forall_app in Hok as [Hok1 Hok2].
    apply Forall_cons in Hok2 as [[Hna Hsa] Hok2].
    apply Forall_cons in Hok2 as [[Hnb Hsb] Hok2].
    assert (Hcat : concat (S1 ++ a :: b :: S2) ++ rest
                   = concat S1 ++ (a ++ b) ++ concat S2 ++ rest).
    { rewrite concat_app. simpl. by rewrite <-!app_assoc. }
    rewrite Hcat in *.
    rewrite !app_length in Hn.
    apply wp_bind, wp_guard. apply wp_slice_app.
    { done. }
    { rewrite app_length. lia. }
    { rewrite Hn. lia. }
    wp_apply (merge_spec ans (n / 2) (length (a ++ b)) a b); [done| |done|done| |].
    { pose proof (Nat.div_mod n 2). pose proof (Nat.mod_upper_bound n 2). lia. }
    2: { intros e l' _ (He & Hex & Hpp)%mpanic_upanic _. left. split; [done|]. split; [done|].
         rewrite Hpp. by apply (sperm_perm ans). }
    intros [] m _ [Hm Hsm] Hlm.
    rewrite app_length in Hlm.
    destruct (rv_assign_ok (T:=T) rv _ (length S1 + 1)
      (Run (length (concat S1)) (length a + length b)) Hrv) as (rv1 & -> & Hrv1 & _).
    { rewrite runs_of_length, app_length. simpl. lia. }
    apply wp_bind, wp_ret.
    destruct (rv_remove_ok (T:=T) rv1 _ (length S1) Hrv1) as (rv2 & -> & Hrv2 & _).
    { rewrite insert_length, runs_of_length, app_length. simpl. lia. }
    apply wp_bind, wp_ret.
    rewrite (runs_of_merge S1 a b m S2) in Hrv2 by done.
    assert (Hcat' : concat S1 ++ m ++ concat S2 ++ rest = concat (S1 ++ m :: S2) ++ rest).
    { rewrite concat_app. simpl. by rewrite <-!app_assoc. }
    rewrite Hcat'. apply IH; [|done| | | |].
    - rewrite <-Hcat'. rewrite !app_length. lia.
    - intros Hnil. by apply app_eq_nil in Hnil as [_ ?].
    - rewrite app_length in *. simpl in *. lia.
    - apply Forall_app. split; [done|]. constructor; [|done]. split; [|done].
      intros ->. simpl in Hlm. destruct a; simpl in *; [done|lia].
    - rewrite <-Hcat'. etrans; [exact Hp|]. apply sperm_app_l. by apply sperm_app_r.
  Qed.

  Lemma loop_mem_spec fuel n l0 segs rest rv :
    n = length (concat segs ++ rest) → rvok rv (runs_of 0 segs) → length rest < fuel →
    Forall seg_ok segs → sperm l0 (concat segs ++ rest) →
    (rest = [] → length segs = 1) →
    wp mem_ans (merge_sort_loop_mem c fuel (n / 2) n (length (concat segs)) (length (concat segs)) rv)
      (λ rv' l', sperm l0 l' ∧ ksorted l' ∧ rvok rv' [Run 0 n])
      (mem_panic l0) (concat segs ++ rest).
  Proof.
    revert segs rest rv.
    induction fuel as [|f IH]; intros segs rest rv Hn Hrv Hf Hok Hp Hend; [lia|].
    cbn [merge_sort_loop_mem].
    rewrite app_length in Hn.
    destruct (Nat.ltb_spec (length (concat segs)) n) as [Hlt|Hge].
    2: { apply wp_ret. assert (rest = []) as -> by (destruct rest; simpl in *; [done|lia]).
         specialize (Hend eq_refl). destruct segs as [|s [|]]; simpl in *; try done.
         rewrite !app_nil_r in *. split; [done|]. split.
         - by apply Forall_cons in Hok as [[_ ?] _].
         - by replace n with (length s) by lia. }
    assert (Hrest : 0 < length rest) by lia.
    apply wp_bind, wp_guard.
    replace (concat segs ++ rest) with (concat segs ++ rest ++ []) by (by rewrite app_nil_r).
    apply wp_slice_app; [done|lia|lia|].
    wp_apply (find_streak_spec ans (length rest) rest); [done|done| |].
    2: { intros e l' _ (He & Hex & Hpp) _. left. split; [done|]. split; [done|].
         rewrite app_nil_r, Hpp. by apply (sperm_perm ans). }
    intros [e r] l' _ (-> & He0 & He & Hs) _. simpl in He0, He, Hs. rewrite app_nil_r.
    cbv zeta. apply wp_bind, wp_guard.
    assert (Hte : length (take e rest) = e) by (rewrite take_length; lia).
    eapply (wp_mono _ _ (λ _ l', ∃ s, l' = concat segs ++ s ++ drop e rest ∧
              s ≠ [] ∧ length s = e ∧ ksorted s ∧ sperm (take e rest) s) _ (λ _ _, False)).
    { destruct r; simpl in Hs.
      - replace (concat segs ++ rest) with (concat segs ++ take e rest ++ drop e rest)
          by (by rewrite take_drop).
        apply wp_slice_app; [done|lia|lia|].
        wp_apply (reverse_spec ans (length (take e rest)) (take e rest) (λ _ _, False));
          [done| |done].
        intros [] m _ -> Hlm. exists (rev (take e rest)). repeat split.
        + intros Hnil. rewrite Hnil in Hlm. simpl in Hlm. lia.
        + lia.
        + by apply ksorted_rev.
        + by apply sperm_reverse.
      - apply wp_ret. exists (take e rest). repeat split.
        + by rewrite take_drop.
        + intros Hnil. rewrite Hnil in Hte. simpl in Hte. lia.
        + done.
        + done.
        + reflexivity. }
    2: done.
    intros [] l' _ (s & -> & Hsne & Hsl & Hss & Hsp).
    apply wp_bind, wp_guard.
    assert (Hp1 : sperm l0 (concat segs ++ s ++ drop e rest)).
    { etrans; [exact Hp|]. apply sperm_app_l.
      rewrite <-(take_drop e rest) at 1. by apply sperm_app_r. }
    rewrite <-Hsl.
    wp_apply (provide_sorted_batch_spec c ans n (concat segs) s (drop (length s) rest)).
    { rewrite !app_length, drop_length. lia. }
    { done. }
    { done. }
    2: { intros e' l' _ Hu. left. eapply upanic_perm; [exact Hu|]. rewrite Hsl.
         by apply (sperm_perm ans). }
    intros e2 l' _ (s2 & rest2 & -> & -> & Hne2 & Hs2 & Hsp2).
    rewrite Hsl in Hsp2.
    apply wp_bind, wp_guard, wp_usub; [lia|].
    replace (length (concat segs) + length s2 - length (concat segs)) with (length s2) by lia.
    assert (Hruns : runs_of 0 segs ++ [Run (length (concat segs)) (length s2)]
                    = runs_of 0 (segs ++ [s2])).
    { rewrite runs_of_app. done. }
    assert (Hcat : concat segs ++ s2 ++ rest2 = concat (segs ++ [s2]) ++ rest2).
    { rewrite concat_app. simpl. rewrite app_nil_r. by rewrite <-app_assoc. }
    assert (Hlen2 : length s2 + length rest2 = length rest).
    { apply (sperm_length ans) in Hsp2. rewrite !app_length, drop_length in Hsp2. lia. }
    assert (0 < length s2) by (destruct s2; simpl; [done|lia]).
    assert (Hcl : length (concat (segs ++ [s2])) = length (concat segs) + length s2).
    { rewrite concat_app, app_length. simpl. rewrite app_nil_r. done. }
    assert (Hp2 : sperm l0 (concat segs ++ s2 ++ rest2)).
    { etrans; [exact Hp1|]. by apply sperm_app_l. }
    apply wp_bind. eapply wp_push; [exact Hrv| |].
    2: { right. split; [done|]. by apply (sperm_perm ans). }
    intros rv1 Hrv1. rewrite Hruns in Hrv1. rewrite Hcat. apply wp_bind.
    assert (Hl1 : rv_len rv1 = S (length segs)).
    { destruct Hrv1 as (_ & -> & _). rewrite runs_of_length, app_length. simpl. lia. }
    rewrite Hl1.
    wp_apply (collapse_mem_spec (S (S (length segs))) n l0 (segs ++ [s2]) rest2 rv1).
    - rewrite <-Hcat, !app_length. lia.
    - done.
    - intros Hnil. by apply app_eq_nil in Hnil as [_ ?].
    - rewrite app_length. simpl. lia.
    - apply Forall_app. split; [done|]. constructor; [|done]. done.
    - by rewrite <-Hcat.
    - intros rv2 l' Hll (segs' & Hrv2 & -> & Hne' & Hok' & Hp' & Hcn).
      assert (Hlc : length (concat segs') = length (concat (segs ++ [s2]))).
      { rewrite !app_length in Hll. lia. }
      rewrite <-Hcl, <-Hlc.
      apply IH; auto.
      + rewrite app_length. lia.
      + lia.
      + intros ->. destruct segs' as [|sl segs' _] using rev_ind; [done|].
        rewrite <-(runs_of_length 0 (segs' ++ [sl])).
        eapply (collapse_none_full _ n (Run (length (concat segs')) (length sl))); [|simpl|exact Hcn].
        * rewrite runs_of_app. simpl. apply last_snoc.
        * rewrite concat_app, app_length in Hlc. simpl in Hlc. rewrite app_nil_r in Hlc.
          simpl in *. lia.
    - auto.
  Qed.

  Lemma merge_sort_mem_spec n l :
    n = length l → zst c = false →
    wp mem_ans (merge_sort_mem c n) (λ _ l', sperm l l' ∧ ksorted l') (mem_panic l) l.
  Proof.
    intros Hn Hz. unfold merge_sort_mem.
    apply wp_bind, wp_lift, wp_dassert; [by rewrite Hz|].
    destruct (Nat.leb_spec n MS_MAX_INSERTION) as [Hle|Hgt].
    - apply wp_lift.
      assert (Hms := merge_sort_spec c ans n l Hn Hz). unfold merge_sort in Hms.
      rewrite (proj2 (Nat.leb_le _ _) Hle) in Hms. unfold dassert in Hms. rewrite Hz in Hms.
      rewrite andb_false_r in Hms.
      eapply wp_mono; [exact Hms|done|]. intros e l' _ H. by left.
    - apply wp_bind, wp_alloc; [|by right]. intros buf.
      apply wp_bind, wp_on_unwind. unfold rv_new. apply wp_bind, wp_bind, wp_alloc.
      2: { apply wp_dealloc. by right. }
      intros p. apply wp_ret. apply wp_bind.
      wp_apply (loop_mem_spec (S n) n l [] l
        (RunVec p START_RUN_CAPACITY 0 (replicate START_RUN_CAPACITY None))).
      + done.
      + apply rvok_new.
      + lia.
      + constructor.
      + reflexivity.
      + intros ->. simpl in Hn. unfold MS_MAX_INSERTION in *. lia.
      + intros rv l' _ (H1 & H2 & Hrv). rewrite (rv_slice_ok _ _ Hrv). apply wp_bind, wp_ret.
        apply wp_bind, wp_guard, wp_dassert.
        { simpl. by rewrite Nat.eqb_refl. }
        apply wp_dealloc, wp_dealloc. done.
      + intros e l' _ H. by apply wp_dealloc.
  Qed.

  Lemma stable_sort_mem_spec n l :
    n = length l →
    wp mem_ans (stable_sort_mem c n) (λ _ l', sperm l l' ∧ (zst c = false → ksorted l')) (mem_panic l) l.
  Proof.
    intros Hn. unfold stable_sort_mem. destruct (zst c) eqn:Hz.
    - apply wp_ret. by split.
    - eapply wp_mono; [by apply merge_sort_mem_spec| |done]. intros [] l' _ [? ?]. by split.
  Qed.
End safe.
