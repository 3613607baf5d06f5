(** * TAccessPar: the accesses of the parallel methods. *)
From Verif Require Export TAccessSeq.
From stdpp Require Import list.
Local Open Scope prog_scope.

Section par.
  Context {T : Type} (c : cfg).

  Lemma par_qs_recurse_pays fuel n pred limit wb wp (Ψ : unit → nat → Prop) (E : nat → Prop) b :
    2 * n + 30 ≤ b → (∀ a b', b ≤ b' + 4 → Ψ a b') → (∀ b', b ≤ b' + 2 * n + 30 → E b') →
    pay (par_qs_recurse (T:=T) c fuel n pred limit wb wp) Ψ E b.
  Proof.
    revert n pred limit wb wp Ψ E b.
    induction fuel as [|f IH]; intros n pred limit wb wp Ψ E b Hb HΨ HE; [simpl; pays_go|].
    cbn [par_qs_recurse]. unfold QS_MAX_INSERTION. destruct (Nat.leb_spec n 20).
    { pays_go. apply shift_left_pays; [lia|intros; pays_end..]. }
    destruct (limit =? 0).
    { apply heap_sort_pays; [lia|intros; pays_end..]. }
    apply pays_bind, limit_pays; [lia| |intros; pays_end]. intros limit' b1 Hb1.
    apply pays_bind, choose_pivot_pays; [lia| |intros; pays_end]. intros [pivot likely] b2 Hb2.
    apply pays_bind.
    eapply (pays_mono _ _ (λ (x : bool) b', b2 + (if x then 14 * (n - 1) else 0) ≤ b') _ E).
    { destruct (_ && _); [|apply pays_ret; lia].
      apply partial_insertion_sort_pays; [lia|auto|intros; pays_end]. }
    2: { done. }
    intros done b3 Hb3. destruct done.
    { apply pays_ret, HΨ. lia. }
    apply pays_bind, pred_pays; [lia| |intros; pays_end]. intros eq b4 Hb4.
    destruct eq.
    { apply pays_bind, partition_equal_pays; [lia| |intros; pays_end]. intros mid b5 Hb5. pays_go.
      apply IH; [lia|intros; pays_end..]. }
    apply pays_bind, partition_pays; [lia| |intros; pays_end]. intros [mid was_p] b5 Hb5.
    apply pays_bind, pays_usub; [intros Hmid|pays_end].
    apply pays_bind, pays_slice; [intros _ _|pays_end]. apply pays_slice; [intros _ H1|pays_end].
    apply pays_ret, pays_bind, pays_get; [lia| |pays_end]. intros p.
    destruct (sequential _).
    - pays_go.
      + apply IH; [lia| |intros; pays_end]. intros _ b6 Hb6. pays_go. apply IH; [lia|intros; pays_end..].
      + apply IH; [lia| |intros; pays_end]. intros _ b6 Hb6. pays_go. apply IH; [lia|intros; pays_end..].
    - apply pays_bind.
      eapply (pays_join _ _ _ _ _ (2 * mid + 30) (2 * (n - (mid + 1)) + 30)
        (λ _ b', 2 * mid + 26 ≤ b') (λ _, True) (λ _ b', 2 * (n - (mid + 1)) + 26 ≤ b') (λ _, True)).
      + lia.
      + apply pays_slice; [intros _ _|done]. apply IH; [lia|intros; lia|done].
      + apply pays_slice; [intros _ _|done]. apply IH; [lia|intros; lia|done].
      + intros _ _ c1 c2 Hc1 Hc2. pays_go.
      + intros; pays_end.
  Qed.
  Lemma par_quick_sort_pays n (Ψ : unit → nat → Prop) (E : nat → Prop) b :
    2 * n + 30 ≤ b → (∀ a b', Ψ a b') → (∀ b', E b') →
    pay (par_quick_sort (T:=T) c n) Ψ E b.
  Proof. intros Hb HΨ HE. unfold par_quick_sort. pays_go. apply par_qs_recurse_pays; auto. Qed.

  Lemma par_partition_at_indices_pays fuel n base offset vlen inds
      (Ψ : list (option nat) → nat → Prop) (E : nat → Prop) b :
    2 * n + 30 + 34 * length inds ≤ b →
    (∀ x b', b ≤ b' + 34 * length inds → Ψ x b') →
    (∀ b', b ≤ b' + 2 * n + 30 + 34 * length inds → E b') →
    pay (par_partition_at_indices (T:=T) c fuel n base offset vlen inds) Ψ E b.
  Proof.
    revert n base offset vlen inds Ψ E b.
    induction fuel as [|f IH]; intros n base offset vlen inds Ψ E b Hb HΨ HE; [simpl; pays_go|].
    cbn [par_partition_at_indices]. destruct inds as [|i0 inds0]; [pays_go|].
    remember (i0 :: inds0) as inds eqn:Heq. clear Heq.
    assert (length (take (length inds / 2) inds) + length (drop (length inds / 2) inds) = length inds) as Hlen.
    { by rewrite <-app_length, take_drop. }
    destruct (drop (length inds / 2) inds) as [|pivot right_inds]; [pays_go|]. simpl in Hlen.
    apply pays_bind, rel_index_pays; [intros i|pays_end].
    apply pays_bind, partition_at_index_pays; [lia| |intros; pays_end].
    intros lv v rv b1 Hlv Hrv Hlr Hb1. destruct (vlen <=? _); [pays_go|]. apply pays_bind.
    destruct (_ || _).
    - pays_go. apply IH; [lia| |intros; pays_end]. intros ls b2 Hb2. pays_go.
      apply IH; [lia| |intros; pays_end]. intros rs b3 Hb3. pays_go.
    - remember (take (length inds / 2) inds) as left_inds eqn:Hl. clear Hl.
      eapply (pays_join _ _ _ _ _ (2 * lv.2 + 30 + 34 * length left_inds)
        (2 * rv.2 + 30 + 34 * length right_inds)
        (λ _ b', 2 * lv.2 + 30 ≤ b') (λ _, True) (λ _ b', 2 * rv.2 + 30 ≤ b') (λ _, True)).
      + lia.
      + apply pays_slice; [intros _ _|done]. apply IH; [lia|intros; lia|done].
      + apply pays_slice; [intros _ _|done]. apply IH; [lia|intros; lia|done].
      + intros ls rs c1 c2 Hc1 Hc2. pays_go.
      + intros; pays_end.
  Qed.
  Lemma par_select_many_pays n vlen inds (Ψ : list (option nat) → nat → Prop) (E : nat → Prop) b :
    2 * n + 30 + 34 * length inds ≤ b → (∀ x b', Ψ x b') → (∀ b', E b') →
    pay (par_select_many (T:=T) c n vlen inds) Ψ E b.
  Proof.
    intros. unfold par_select_many. apply pays_bind, par_partition_at_indices_pays; auto.
    intros. pays_go.
  Qed.
End par.

Section chunk.
  Context {T : Type} (c : cfg).

  Lemma pm_insert_loop_pays n (tmp : T) i cnt (Ψ : unit → nat → Prop) (E : nat → Prop) b :
    2 ≤ b → (∀ a b', b ≤ b' + 2 → Ψ a b') → (∀ b', b ≤ b' + 2 → E b') →
    pay (pm_insert_loop n tmp i cnt) Ψ E b.
  Proof.
    revert i b. induction cnt as [|j IH]; intros i b Hb HΨ HE; simpl; pays_go.
    apply IH; [lia|intros; pays_end..].
  Qed.
  Lemma pm_insert_head_pays n (Ψ : unit → nat → Prop) (E : nat → Prop) b :
    2 ≤ b → (∀ a b', b ≤ b' → Ψ a b') → (∀ b', b ≤ b' + 2 → E b') →
    pay (pm_insert_head (T:=T) n) Ψ E b.
  Proof.
    intros Hb HΨ HE. unfold pm_insert_head. pays_go.
    apply pm_insert_loop_pays; [lia|intros; pays_end..].
  Qed.
  Lemma bget_pays n cap i (Ψ : T → nat → Prop) (E : nat → Prop) b :
    0 < b → (∀ x, Ψ x (b - 1)) → pay (bget n cap i) Ψ E b.
  Proof. intros. unfold bget. destruct (i <? cap); [by apply pays_read|apply pays_undef]. Qed.
  Lemma bput_pays n cap i (x : T) (Ψ : unit → nat → Prop) (E : nat → Prop) b :
    0 < b → Ψ tt (b - 1) → pay (bput n cap i x) Ψ E b.
  Proof. intros. unfold bput. destruct (i <? cap); [by apply pays_write|apply pays_undef]. Qed.
  Lemma pm_copy_out_pays n cap base cnt (Ψ : unit → nat → Prop) (E : nat → Prop) b :
    2 * cnt ≤ b → (∀ a b', b ≤ b' + 2 * cnt → Ψ a b') → (∀ b', b ≤ b' + 2 * cnt → E b') →
    pay (pm_copy_out (T:=T) n cap base cnt) Ψ E b.
  Proof.
    intros Hb HΨ HE. unfold pm_copy_out.
    eapply pays_mono; [apply (pays_for_up _ _ _ _ (λ i b', b ≤ b' + 2 * i) E)| |auto]; [lia| |].
    - intros i b0 Hi Hb0. pays_go. apply bput_pays; lia.
    - simpl. auto.
  Qed.
  Lemma pm_hole_drop_pays n cap start end_ dest (Ψ : unit → nat → Prop) (E : nat → Prop) b :
    2 * (end_ - start) ≤ b → (∀ a b', b ≤ b' + 2 * (end_ - start) → Ψ a b') →
    (∀ b', b ≤ b' + 2 * (end_ - start) → E b') →
    pay (pm_hole_drop (T:=T) n cap start end_ dest) Ψ E b.
  Proof.
    intros Hb HΨ HE. unfold pm_hole_drop. pays_go.
    eapply pays_mono; [apply (pays_for_up _ _ _ _ (λ i b', b ≤ b' + 2 * i) E)| |auto]; [lia| |].
    - intros i b0 Hi Hb0. apply pays_bind, bget_pays; [lia|]. intros x. pays_go. lia.
    - simpl. auto.
  Qed.
  Lemma pm_merge_fwd_pays fuel n cap mid left right out (Ψ : unit → nat → Prop) (E : nat → Prop) b :
    2 * (mid - left) + 2 ≤ b →
    (∀ x b', b + 13 * Nat.min (mid - left) (n - right) ≤ b' + 2 * (mid - left) → Ψ x b') →
    (∀ b', b ≤ b' + 2 * (mid - left) + 2 → E b') →
    pay (pm_merge_fwd (T:=T) fuel n cap mid left right out) Ψ E b.
  Proof.
    revert left right out b.
    induction fuel as [|f IH]; intros left right out b Hb HΨ HE; cbn [pm_merge_fwd]; [pays_go|].
    destruct (Nat.ltb_spec left mid), (Nat.ltb_spec right n); cbn [andb];
      try (apply pm_hole_drop_pays; [lia|intros; pays_end..]).
    apply pays_bind, pays_uget; [lia|]. intros x. apply pays_bind, bget_pays; [lia|]. intros y.
    apply pays_bind, pays_on_unwind, pays_is_less.
    2: { apply pm_hole_drop_pays; [lia|intros; pays_end..]. }
    intros r. apply pays_bind, pays_nonoverlapping_if.
    apply pays_bind, pays_on_unwind, pays_put; [lia| |].
    2: { apply pm_hole_drop_pays; [lia|intros; pays_end..]. }
    destruct r; (apply IH; [lia| |intros; pays_end]); intros; apply HΨ; lia.
  Qed.
  Lemma pm_merge_bwd_pays fuel n cap left right out (Ψ : unit → nat → Prop) (E : nat → Prop) b :
    2 * right + 2 ≤ b →
    (∀ x b', b + 13 * Nat.min left right ≤ b' + 2 * right → Ψ x b') →
    (∀ b', b ≤ b' + 2 * right + 2 → E b') →
    pay (pm_merge_bwd (T:=T) fuel n cap left right out) Ψ E b.
  Proof.
    revert left right out b.
    induction fuel as [|f IH]; intros left right out b Hb HΨ HE; cbn [pm_merge_bwd]; [pays_go|].
    destruct (Nat.ltb_spec 0 left), (Nat.ltb_spec 0 right); cbn [andb];
      try (apply pm_hole_drop_pays; [lia|intros; pays_end..]).
    apply pays_bind, bget_pays; [lia|]. intros y. apply pays_bind, pays_uget; [lia|]. intros x.
    apply pays_bind, pays_on_unwind, pays_is_less.
    2: { apply pm_hole_drop_pays; [lia|intros; pays_end..]. }
    intros r. apply pays_bind, pays_on_unwind, pays_usub.
    2: { destruct r; (apply pm_hole_drop_pays; [lia|intros; pays_end..]). }
    intros _. apply pays_bind, pays_nonoverlapping_if.
    apply pays_bind, pays_on_unwind, pays_put; [lia| |].
    2: { destruct r; (apply pm_hole_drop_pays; [lia|intros; pays_end..]). }
    destruct r; (apply IH; [lia| |intros; pays_end]); intros; apply HΨ; lia.
  Qed.
  Lemma pm_merge_pays n cap mid (Ψ : unit → nat → Prop) (E : nat → Prop) b :
    2 * n + 2 ≤ b → (∀ x b', b ≤ b' → Ψ x b') → (∀ b', b ≤ b' + 2 * n + 2 → E b') →
    pay (pm_merge (T:=T) n cap mid) Ψ E b.
  Proof.
    intros Hb HΨ HE. unfold pm_merge. pays_go.
    - apply pm_copy_out_pays; [lia| |intros; pays_end]. intros _ b1 Hb1.
      apply pm_merge_fwd_pays; [lia| |intros; pays_end]. intros. apply HΨ. lia.
    - apply pm_copy_out_pays; [lia| |intros; pays_end]. intros _ b1 Hb1.
      apply pm_merge_bwd_pays; [lia| |intros; pays_end]. intros. apply HΨ. lia.
  Qed.
  Lemma pays_slice_buf {A} n i j (p : nat → cmp_prog T A) Ψ (E : nat → Prop) b :
    (i ≤ j → j ≤ n → pay (p (j - i)) Ψ E b) → E b → pay (slice_buf n i j p) Ψ E b.
  Proof.
    intros Hp HE. unfold slice_buf. destruct (Nat.leb_spec i j), (Nat.leb_spec j n); simpl;
      try by apply pays_throw. apply pays_relocate. auto.
  Qed.
  Lemma pm_streak_pays want n start (Ψ : nat → nat → Prop) (E : nat → Prop) b :
    2 ≤ b → (∀ s b', s ≤ start → b + 14 * (start - s) ≤ b' → Ψ s b') → (∀ b', b ≤ b' + 2 → E b') →
    pay (pm_streak (T:=T) want n start) Ψ E b.
  Proof.
    revert b. induction start as [|s IH]; intros b Hb HΨ HE; simpl; pays_go.
    apply IH; [lia| |intros; pays_end]. intros. apply HΨ; lia.
  Qed.
  Lemma pm_find_run_pays n end_ (Ψ : nat + ms_result → nat → Prop) (E : nat → Prop) b :
    2 ≤ b → (∀ x b', b ≤ b' → Ψ x b') → (∀ b', b ≤ b' + 2 → E b') →
    pay (pm_find_run (T:=T) n end_) Ψ E b.
  Proof.
    intros Hb HΨ HE. unfold pm_find_run. cbv zeta.
    apply pays_bind, pays_usub; [intros Hend|pays_end].
    destruct (Nat.ltb_spec 0 (end_ - 1)); [|pays_go].
    apply pays_bind, pays_uget; [lia|]. intros x. apply pays_bind, pays_uget; [lia|]. intros y.
    apply pays_bind, pays_is_less; [|pays_end]. intros r.
    apply pays_bind, pm_streak_pays; [lia| |intros; pays_end]. intros s b1 Hs Hb1.
    destruct r; [|pays_go]. destruct (_ && _); pays_go.
    apply reverse_pays; [lia| |intros; pays_end]. intros. pays_go.
  Qed.
  Lemma pm_extend_pays n end_ start (Ψ : nat → nat → Prop) (E : nat → Prop) b :
    2 ≤ b → (∀ x b', b ≤ b' → Ψ x b') → (∀ b', b ≤ b' + 2 → E b') →
    pay (pm_extend (T:=T) n end_ start) Ψ E b.
  Proof.
    revert b. induction start as [|s IH]; intros b Hb HΨ HE; cbn [pm_extend]; pays_go.
    apply pm_insert_head_pays; [lia| |intros; pays_end]. intros _ b1 Hb1.
    apply IH; [lia|intros; pays_end..].
  Qed.
  Lemma pm_collapse_loop_pays fuel n cap runs (Ψ : list run_t → nat → Prop) (E : nat → Prop) b :
    2 * n + 2 ≤ b → (∀ x b', b ≤ b' → Ψ x b') → (∀ b', b ≤ b' + 2 * n + 2 → E b') →
    pay (pm_collapse_loop (T:=T) fuel n cap runs) Ψ E b.
  Proof.
    revert runs b. induction fuel as [|f IH]; intros runs b Hb HΨ HE; cbn [pm_collapse_loop]; [pays_go|].
    destruct (pm_collapse runs); [|pays_go].
    assert (∀ r (Ψ' : run_t → nat → Prop), (∀ x, Ψ' x b) → pay (run_get (T:=T) runs r) Ψ' E b) as Hget.
    { intros r Ψ' H. unfold run_get. destruct (runs !! r); [by apply pays_ret|apply pays_throw; pays_end]. }
    apply pays_bind, Hget. intros lft. apply pays_bind, Hget. intros rgt.
    apply pays_bind, pays_slice_buf; [intros ? ?|pays_end].
    apply pm_merge_pays; [lia| |intros; pays_end]. intros _ b1 Hb1. apply IH; [lia|intros; pays_end..].
  Qed.
  Lemma pm_sort_loop_pays fuel n cap end_ runs (Ψ : ms_result → nat → Prop) (E : nat → Prop) b :
    2 * n + 2 ≤ b → (∀ x b', b ≤ b' → Ψ x b') → (∀ b', b ≤ b' + 2 * n + 2 → E b') →
    pay (pm_sort_loop (T:=T) c fuel n cap end_ runs) Ψ E b.
  Proof.
    revert end_ runs b. induction fuel as [|f IH]; intros end_ runs b Hb HΨ HE; cbn [pm_sort_loop]; [pays_go|].
    destruct (0 <? end_); [|pays_go].
    apply pays_bind, pm_find_run_pays; [lia| |intros; pays_end]. intros [start|res] b1 Hb1; [|pays_go].
    apply pays_bind, pm_extend_pays; [lia| |intros; pays_end]. intros s b2 Hb2.
    apply pays_bind, pays_usub; [intros _|pays_end].
    apply pays_bind, pm_collapse_loop_pays; [lia| |intros; pays_end]. intros runs' b3 Hb3.
    apply IH; [lia|intros; pays_end..].
  Qed.
  Lemma pm_merge_sort_pays n cap (Ψ : ms_result → nat → Prop) (E : nat → Prop) b :
    2 * n + 2 ≤ b → (∀ x b', b ≤ b' → Ψ x b') → (∀ b', b ≤ b' + 2 * n + 2 → E b') →
    pay (pm_merge_sort (T:=T) c n cap) Ψ E b.
  Proof. apply pm_sort_loop_pays. Qed.
End chunk.
