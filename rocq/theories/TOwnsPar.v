(** * TOwnsPar: the same for the parallel functions.  The parallel stable sort
    additionally never reads a cell of its buffer before writing it. *)
From Verif Require Export TOwns CParSort.
From stdpp Require Import list.

Local Notation own U n p := (whole U n p (λ _, True)).

Section whole.
  Context {T : Type} (U : T → Prop).
  Notation P A := (cmp_prog T A).

  Lemma whole_uget_le n k i : k ≤ n → whole U n (uget k i) U.
  Proof. intros Hk m Hm. apply whole_uget. intros j Hj. apply Hm. lia. Qed.
  Lemma whole_for_up_in n a cnt (body : nat → P unit) :
    (∀ i, a ≤ i < a + cnt → own U n (body i)) → own U n (for_up a cnt body).
  Proof.
    revert a. induction cnt as [|cnt IH]; intros a Hb; simpl; [by apply whole_ret|].
    eapply whole_bind; [apply Hb; lia|]. intros [] _. apply IH. intros i Hi. apply Hb. lia.
  Qed.
  Lemma whole_par_each {B} n (ts : list (P B)) :
    Forall (λ t, own U n t) ts → own U n (par_each ts).
  Proof.
    induction 1 as [|t ts Ht Hts IH]; simpl; [by apply whole_ret|].
    eapply whole_par; [exact Ht|exact IH|]. intros x [y|e] _ _; [by apply whole_ret|apply whole_throw].
  Qed.
  Lemma whole_all_done {B} n (rs : list (B + exn)) : own U n (all_done (T:=T) (Q:=T*T) (R:=option bool) rs).
  Proof.
    induction rs as [|[b|e] rs IH]; simpl; [by apply whole_ret| |apply whole_throw].
    eapply whole_bind; [exact IH|]. intros bs _. by apply whole_ret.
  Qed.
  Lemma whole_par_bridge {B} n take_item (ts : list (P B)) :
    Forall (λ t, own U n t) ts → own U n (par_bridge take_item ts).
  Proof.
    intros Hts. unfold par_bridge.
    eapply (whole_bind _ _ _ _ (λ _, True)).
    { apply whole_par_each. generalize 0 as i. induction Hts as [|t ts Ht Hts IH]; intros i; simpl; constructor.
      - destruct (take_item i); [|by apply whole_ret].
        eapply whole_bind; [exact Ht|]. intros b _. by apply whole_ret.
      - apply IH. }
    intros rs _. eapply (whole_bind _ _ _ _ (λ _, True)); [apply whole_all_done|]. intros rs' _.
    eapply (whole_bind _ _ _ _ (λ _, True)); [|intros ? _; apply whole_all_done].
    apply whole_par_each. clear rs. revert rs'. induction Hts as [|t ts Ht Hts IH]; intros rs.
    - destruct rs as [|[b|] rs]; constructor.
    - destruct rs as [|[b|] rs]; simpl; constructor; auto. by apply whole_ret.
  Qed.
End whole.

Section functions.
  Context {T : Type} (c : cfg) (U : T → Prop).
  Notation P A := (cmp_prog T A).
  Notation own n p := (whole U n p (λ _, True)).
  Notation owned := (owns (Q:=T * T) (R:=option bool) U (both U) any).
  Hint Resolve insertion_sort_shift_left_owns heap_sort_owns choose_pivot_owns break_patterns_owns
    partial_insertion_sort_owns partition_equal_owns partition_owns partition_at_index_owns
    rel_index_owns reverse_owns run_get_owns : owns.

  Lemma par_qs_recurse_owns fuel n pred limit wb wp :
    from_option U True pred → own n (par_qs_recurse c fuel n pred limit wb wp).
  Proof.
    revert n pred limit wb wp. induction fuel as [|f IH]; intros n pred limit wb wp HU;
      [apply whole_nofuel|].
    cbn [par_qs_recurse]. own; try (by apply IH).
    eapply whole_mono; [apply whole_rayon_join|done]; own; by apply IH.
  Qed.
  Lemma par_quick_sort_owns n : own n (par_quick_sort c n).
  Proof. unfold par_quick_sort. own. by apply par_qs_recurse_owns. Qed.
  Lemma par_partition_at_indices_owns fuel n base offset vlen inds :
    own n (par_partition_at_indices c fuel n base offset vlen inds).
  Proof.
    revert n base offset vlen inds. induction fuel as [|f IH]; intros n base offset vlen inds;
      [apply whole_nofuel|].
    cbn [par_partition_at_indices]. own.
    eapply whole_mono; [apply whole_rayon_join|done]; own.
  Qed.
  Lemma par_select_many_owns n vlen inds : own n (par_select_many c n vlen inds).
  Proof. unfold par_select_many. own. apply par_partition_at_indices_owns. Qed.

  (** ** A chunk of the stable sort. *)
  Lemma pm_insert_loop_owns n (tmp : T) i cnt : U tmp → own n (pm_insert_loop n tmp i cnt).
  Proof. intros HU. revert i. induction cnt; intros i; simpl; own. Qed.
  Hint Resolve pm_insert_loop_owns : owns.
  Lemma pm_insert_head_owns n : own n (pm_insert_head n).
  Proof. unfold pm_insert_head. own. Qed.
  Hint Resolve pm_insert_head_owns : owns.
  (** The part of the buffer below [b] has been written: it is at [n, n + b). *)
  Lemma bget_owns n cap i b : i < b → whole U (n + b) (bget n cap i) U.
  Proof.
    intros Hi. unfold bget. destruct (i <? cap); [|apply whole_undef].
    intros m Hm. Local Transparent owns. intros x Hx m' Hm'. apply Hx, Hm. lia.
  Qed.
  Lemma bput_owns n cap i x (m : cells) E :
    U x → owned m (bput n cap i x) (λ _ m', m' (n + i)) E.
  Proof.
    intros HU. unfold bput. destruct (i <? cap); [|done]. split; [done|].
    intros m' Hm'. apply Hm'. auto.
  Qed.
  Local Opaque owns.
  Lemma pm_copy_out_owns n cap base cnt (m : cells) :
    (∀ i, i < n → m i) →
    owned m (pm_copy_out n cap base cnt) (λ _ m', ∀ i, i < n + cnt → m' i) (λ _, True).
  Proof.
    intros Hm. unfold pm_copy_out.
    assert (H : ∀ cnt a (m : cells), (∀ i, i < n + a → m i) →
      owned m (for_up a cnt (λ i, bind (get n (base + i)) (λ x, bput n cap i x)))
        (λ _ m', ∀ i, i < n + (a + cnt) → m' i) (λ _, True)).
    { clear. intros cnt. induction cnt as [|cnt IH]; intros a m Hm; simpl.
      - Local Transparent owns. intros m' Hm' i Hi. apply Hm', Hm. lia. Local Opaque owns.
      - eapply (owns_bind _ _ _ _ _ _ (λ _ m', ∀ i, i < n + S a → m' i)).
        + eapply owns_bind; [apply (whole_get U n); intros i Hi; apply Hm; lia|].
          intros x m' Hm' Hx. eapply owns_mono; [by apply (bput_owns _ _ _ _ _ (λ _, True))| |done].
          intros [] m2 Hm2 Hb i Hi. destruct (decide (i = n + a)) as [->|]; [done|].
          apply Hm2, Hm', Hm. lia.
        + intros [] m' Hm' Hi. replace (a + S cnt) with (S a + cnt) by lia. by apply IH. }
    apply (H cnt 0). intros i Hi. apply Hm. lia.
  Qed.
  Lemma whole_usub_eq n a b : whole U n (usub a b) (λ x, x = a - b ∧ b ≤ a).
  Proof. unfold usub. destruct (Nat.leb_spec b a); [by apply whole_ret|apply whole_throw]. Qed.
  Lemma pm_hole_drop_owns n cap b start end_ dest :
    end_ ≤ b → own (n + b) (pm_hole_drop n cap start end_ dest).
  Proof.
    intros Hb. unfold pm_hole_drop. eapply whole_bind; [apply whole_usub_eq|]. intros len [-> Hle].
    apply whole_for_up_in. intros i Hi. eapply whole_bind; [apply bget_owns; lia|]. intros x Hx.
    by apply whole_put.
  Qed.
  Lemma pm_merge_fwd_owns fuel n cap mid l r o :
    own (n + mid) (pm_merge_fwd fuel n cap mid l r o).
  Proof.
    pose proof (pm_hole_drop_owns n cap mid) as Hd.
    revert l r o. induction fuel as [|fuel IH]; intros l r o; simpl; [apply whole_nofuel|].
    destruct (Nat.ltb_spec l mid), (Nat.ltb_spec r n); simpl; try (apply Hd; lia).
    eapply whole_bind; [apply whole_uget_le; lia|]. intros x Hx.
    eapply whole_bind; [apply bget_owns; lia|]. intros y Hy.
    eapply whole_bind; [apply whole_on_unwind; [by apply whole_is_less|apply Hd; lia]|]. intros b _.
    eapply whole_bind; [destruct b; [apply whole_nonoverlapping|by apply whole_ret]|].
    intros [] _.
    eapply whole_bind; [apply whole_on_unwind; [by apply whole_put; destruct b|apply Hd; lia]|].
    intros [] _. destruct b; apply IH.
  Qed.
  Lemma pm_merge_bwd_owns fuel n cap b l r o :
    r ≤ b → own (n + b) (pm_merge_bwd fuel n cap l r o).
  Proof.
    pose proof (pm_hole_drop_owns n cap b) as Hd.
    revert l r o. induction fuel as [|fuel IH]; intros l r o Hr; simpl; [apply whole_nofuel|].
    destruct (Nat.ltb_spec 0 l), (Nat.ltb_spec 0 r); simpl; try (apply Hd; lia).
    eapply whole_bind; [apply bget_owns; lia|]. intros x Hx.
    eapply whole_bind; [apply whole_uget_le; lia|]. intros y Hy.
    eapply whole_bind; [apply whole_on_unwind; [by apply whole_is_less|apply Hd; lia]|]. intros q _.
    eapply whole_bind; [apply whole_on_unwind; [apply whole_usub|apply Hd; destruct q; lia]|].
    intros o' _.
    eapply whole_bind; [destruct q; [apply whole_nonoverlapping|by apply whole_ret]|].
    intros [] _.
    eapply whole_bind;
      [apply whole_on_unwind; [by apply whole_put; destruct q|apply Hd; destruct q; lia]|].
    intros [] _. apply IH. destruct q; lia.
  Qed.
  Lemma pm_merge_owns n cap mid : own n (pm_merge n cap mid).
  Proof.
    unfold pm_merge. eapply whole_bind; [apply whole_usub_eq|]. intros rest [-> Hmid].
    intros m Hm. destruct (mid <=? n - mid).
    - eapply owns_bind; [by apply pm_copy_out_owns|]. intros [] m' _ Hm'. simpl in Hm'.
      by apply pm_merge_fwd_owns.
    - eapply owns_bind; [by apply pm_copy_out_owns|]. intros [] m' _ Hm'. simpl in Hm'.
      by apply (pm_merge_bwd_owns _ _ _ (n - mid)).
  Qed.
  Lemma slice_buf_owns {A} n a b (p : nat → P A) Φ :
    (∀ k, whole U k (p k) Φ) → whole U n (slice_buf n a b p) Φ.
  Proof.
    intros Hp. unfold slice_buf. destruct (Nat.leb_spec a b), (Nat.leb_spec b n); simpl;
      try apply whole_throw.
    eapply (whole_relocate _ _ (b - a)); [|apply Hp]. intros i Hi.
    rewrite (proj2 (Nat.ltb_lt i (b - a)) Hi). lia.
  Qed.
  Lemma pm_streak_owns want n s : own n (pm_streak want n s).
  Proof. induction s; simpl; own. Qed.
  Hint Resolve pm_streak_owns : owns.
  Lemma pm_find_run_owns n e : own n (pm_find_run n e).
  Proof. unfold pm_find_run. own. Qed.
  Hint Resolve pm_find_run_owns : owns.
  Lemma pm_extend_owns n e s : own n (pm_extend n e s).
  Proof. induction s; simpl; own. Qed.
  Hint Resolve pm_extend_owns : owns.
  Lemma pm_collapse_loop_owns fuel n cap runs : own n (pm_collapse_loop fuel n cap runs).
  Proof.
    revert runs. induction fuel as [|fuel IH]; intros runs; simpl; [apply whole_nofuel|].
    destruct (pm_collapse runs) as [r|]; [|by apply whole_ret].
    eapply whole_bind; [apply run_get_owns|]. intros rl _.
    eapply whole_bind; [apply run_get_owns|]. intros rr _.
    eapply whole_bind; [apply (slice_buf_owns _ _ _ _ (λ _, True)); intros k; apply pm_merge_owns|].
    intros [] _. apply IH.
  Qed.
  Hint Resolve pm_collapse_loop_owns : owns.
  Lemma pm_sort_loop_owns fuel n cap e runs : own n (pm_sort_loop c fuel n cap e runs).
  Proof. revert e runs. induction fuel; intros e runs; cbn [pm_sort_loop]; own. Qed.
  Lemma pm_merge_sort_owns n cap : own n (pm_merge_sort c n cap).
  Proof. apply pm_sort_loop_owns. Qed.
  Lemma chunk_task_owns n l m : l + m ≤ n → own n (chunk_task c n l m).
  Proof.
    intros Hm. unfold chunk_task. eapply (whole_relocate _ _ m); [|apply pm_merge_sort_owns].
    intros i Hi. rewrite (proj2 (Nat.ltb_lt i m) Hi). lia.
  Qed.
  Lemma axis_chunks_in fuel n l : Forall (λ x, x.1 + x.2 ≤ n) (axis_chunks fuel n l).
  Proof.
    revert l. induction fuel as [|f IH]; intros l; cbn [axis_chunks]; [constructor|].
    destruct (Nat.ltb_spec l n); [|constructor]. constructor; [|apply IH].
    cbn [fst snd]. pose proof (Nat.le_min_r CHUNK_LENGTH (n - l)). lia.
  Qed.
  Lemma pm_concat_owns n a b res rest e :
    a ≤ b → chain b rest.*1 e → whole U n (pm_concat n a b res rest) (λ ch, chain a ch e).
  Proof.
    revert a b res. induction rest as [|[[x y] r] rest IH]; intros a b res Hab Hch.
    - cbn [pm_concat]. simpl in Hch. subst e. eapply (whole_bind _ _ _ _ (λ _, True)); [own|].
      intros [] _. apply whole_ret. simpl. auto.
    - cbn [pm_concat]. rewrite fmap_cons in Hch. cbn [chain fst snd] in Hch.
      destruct Hch as (-> & Hby & Hch).
      eapply (whole_bind _ _ _ _ (λ _, True)); [own|]. intros [] _.
      + apply IH; [lia|done].
      + eapply (whole_bind _ _ _ _ (λ _, True)); [own|]. intros [] _.
        eapply whole_bind; [by apply IH|]. intros ch Hc. apply whole_ret. simpl. auto.
  Qed.

  (** ** The merges. *)
  Definition known (v : view) (m : cells) : Prop := ∀ i, i < v.2 → m (v.1 + i).
  Definition filled (v : view) (k : nat) (m : cells) : Prop := ∀ i, i < k → m (v.1 + i).
  Lemma known_le v m m' : cells_le m m' → known v m → known v m'.
  Proof. intros Hm H i Hi. auto. Qed.
  Lemma filled_le v k m m' : cells_le m m' → filled v k m → filled v k m'.
  Proof. intros Hm H i Hi. auto. Qed.
  Local Transparent owns.
  Lemma owns_ret {A} (a : A) (m : cells) (Ψ : A → cells → Prop) E :
    (∀ m', cells_le m m' → Ψ a m') → owned m (Ret a) Ψ E.
  Proof. done. Qed.
  Lemma owns_nofuel {A} (m : cells) (Ψ : A → cells → Prop) (E : cells → Prop) : owned m NoFuel Ψ E.
  Proof. done. Qed.
  Lemma owns_throw {A} e (m : cells) (Ψ : A → cells → Prop) (E : cells → Prop) :
    (∀ m', cells_le m m' → E m') → owned m (Throw e) Ψ E.
  Proof. done. Qed.
  Lemma vget_owns v i (m : cells) E :
    i < v.2 → m (v.1 + i) → owned m (vget v i) (λ x _, U x) E.
  Proof.
    intros Hi Hm. unfold vget. rewrite (proj2 (Nat.ltb_lt i v.2) Hi). intros x Hx m' Hm'. auto.
  Qed.
  Lemma vget_owns_any v i (m : cells) : known v m → owned m (vget v i) (λ x _, U x) (λ _, True).
  Proof.
    intros Hm. destruct (decide (i < v.2)); [apply vget_owns; auto|].
    unfold vget. destruct (Nat.ltb_spec i v.2); [lia|]. by apply owns_throw.
  Qed.
  Lemma vput_owns v i x (m : cells) E :
    i < v.2 → U x → owned m (vput v i x) (λ _ m', m' (v.1 + i)) E.
  Proof.
    intros Hi Hx. unfold vput. rewrite (proj2 (Nat.ltb_lt i v.2) Hi). split; [done|].
    intros m' Hm'. apply Hm'. auto.
  Qed.
  Lemma vcopy_owns u j v i x (m : cells) E :
    i < v.2 → U x → owned m (vcopy u j v i x) (λ _ m', m' (v.1 + i)) E.
  Proof. intros Hi Hx. unfold vcopy. destruct (_ =? _); [done|by apply vput_owns]. Qed.
  Lemma owns_less (a b : T) (m : cells) : U a → U b → owned m (is_less a b) (λ _ _, True) (λ _, True).
  Proof. intros Ha Hb. split; [done|]. intros [r|] _ m' Hm'; done. Qed.
  Lemma owns_join {B C} (p1 : P B) (p2 : P C) (m : cells) Ψ1 Ψ2 E1 E2
      (Ψ : B * C → cells → Prop) (E : cells → Prop) :
    owned m p1 Ψ1 E1 → owned m p2 Ψ2 E2 →
    (∀ x y m', cells_le m m' → ended Ψ1 E1 x m' → ended Ψ2 E2 y m' →
       match x, y with inl a, inl b => Ψ (a, b) m' | _, _ => E m' end) →
    (∀ m' m2, cells_le m' m2 → E m' → E m2) → (∀ a m' m2, cells_le m' m2 → Ψ a m' → Ψ a m2) →
    owned m (rayon_join p1 p2) Ψ E.
  Proof.
    intros H1 H2 H HE HΨ. exists Ψ1, E1, Ψ2, E2. split; [done|]. split; [done|].
    intros x y m' Hm Hx Hy. pose proof (H x y m' Hm Hx Hy) as Hxy.
    destruct x, y; intros m2 Hm2; eauto.
  Qed.
  Local Opaque owns.
  Lemma copy_owns src dest f g a cnt (m : cells) E :
    (∀ i, a ≤ i < a + cnt → f i < src.2 ∧ m (src.1 + f i) ∧ g i < dest.2) →
    owned m (for_up a cnt (λ i, bind (vget src (f i)) (λ x, vcopy src (f i) dest (g i) x)))
      (λ _ m', ∀ i, a ≤ i < a + cnt → m' (dest.1 + g i)) E.
  Proof.
    revert a m. induction cnt as [|cnt IH]; intros a m H; simpl.
    - apply owns_ret. intros m' _ i Hi. lia.
    - destruct (H a ltac:(lia)) as (H1 & H2 & H3).
      eapply (owns_bind_strong _ _ _ _ _ _ (λ _ m', m' (dest.1 + g a)) _ E E); [|done|].
      + eapply owns_bind; [by apply vget_owns|]. intros x m' Hm' Hx. by apply vcopy_owns.
      + intros [] m' Hm' Ha. eapply owns_mono; [apply IH| |done].
        * intros i Hi. destruct (H i ltac:(lia)) as (? & ? & ?). auto.
        * intros [] m2 Hm2 Hc i Hi. destruct (decide (i = a)) as [->|]; [by apply Ha|]. apply Hc. lia.
  Qed.
  Lemma owns_usub a b (m : cells) E : b ≤ a → owned m (usub a b) (λ x _, x = a - b) E.
  Proof.
    intros Hb. unfold usub. rewrite (proj2 (Nat.leb_le b a) Hb). by apply owns_ret.
  Qed.

  Lemma state_drop_owns left right dest ls rs ds (m : cells) :
    known left m → known right m → ls ≤ left.2 → rs ≤ right.2 → ds = ls + rs →
    left.2 + right.2 ≤ dest.2 → filled dest ds m →
    owned m (state_drop left right dest ls rs ds)
      (λ _, filled dest (left.2 + right.2)) (filled dest (left.2 + right.2)).
  Proof.
    intros Hl Hr Hls Hrs Hds Hd Hf. unfold state_drop.
    eapply owns_bind; [by apply owns_usub|]. intros ll m1 Hm1 ->.
    eapply owns_bind.
    { apply (copy_owns left dest (λ i, i + ls) (λ i, i + ds)). intros i Hi.
      split; [lia|]. split; [|lia]. apply Hm1, Hl. lia. }
    intros [] m2 Hm2 H2. simpl in H2.
    eapply owns_bind; [by apply owns_usub|]. intros rl m3 Hm3 ->.
    eapply owns_mono; [apply (copy_owns right dest (λ i, i + rs) (λ i, i + ds + (left.2 - ls)))| |done].
    - intros i Hi. split; [lia|]. split; [|lia]. apply Hm3, Hm2, Hm1, Hr. lia.
    - intros [] m4 Hm4 H4 i Hi.
      destruct (decide (i < ds)); [by apply Hm4, Hm3, Hm2, Hm1, Hf|].
      destruct (decide (i < ds + (left.2 - ls))).
      + replace i with ((i - ds) + ds) by lia. apply Hm4, Hm3, H2. lia.
      + replace i with ((i - ds - (left.2 - ls)) + ds + (left.2 - ls)) by lia. apply H4. lia.
  Qed.

  Lemma seq_merge_owns fuel left right dest ls rs ds (m : cells) :
    known left m → known right m → ls ≤ left.2 → rs ≤ right.2 → ds = ls + rs →
    left.2 + right.2 ≤ dest.2 → filled dest ds m →
    owned m (seq_merge fuel left right dest ls rs ds)
      (λ _, filled dest (left.2 + right.2)) (filled dest (left.2 + right.2)).
  Proof.
    revert ls rs ds m. induction fuel as [|fuel IH]; intros ls rs ds m Hl Hr Hls Hrs Hds Hd Hf;
      cbn [seq_merge]; [apply owns_nofuel|].
    assert (Hdrop : ∀ m', cells_le m m' → owned m' (state_drop left right dest ls rs ds)
      (λ _, filled dest (left.2 + right.2)) (filled dest (left.2 + right.2))).
    { intros m' Hm'. apply state_drop_owns; eauto using known_le, filled_le. }
    destruct (Nat.ltb_spec ls left.2), (Nat.ltb_spec rs right.2); simpl;
      try (apply Hdrop; by intros i).
    eapply owns_bind.
    { eapply owns_on_unwind; [by apply vget_owns_any|]. intros m' Hm' _. by apply Hdrop. }
    intros x m1 Hm1 Hx.
    eapply owns_bind.
    { eapply owns_on_unwind; [apply vget_owns_any; eauto using known_le|]. intros m' Hm' _.
      apply Hdrop. intros i Hi. auto. }
    intros y m2 Hm2 Hy.
    eapply owns_bind.
    { eapply owns_on_unwind; [by apply owns_less|]. intros m' Hm' _.
      apply Hdrop. intros i Hi. auto. }
    intros b m3 Hm3 _.
    assert (Hm : cells_le m m3) by (intros i Hi; auto).
    destruct b.
    - eapply owns_bind.
      { eapply (owns_on_unwind _ _ _ _ _ _ _ _ (λ _, True)); [apply vcopy_owns; [lia|done]|].
        intros m' Hm' _. apply Hdrop. intros i Hi. auto. }
      intros [] m4 Hm4 H4. simpl in H4.
      assert (Hm' : cells_le m m4) by (intros i Hi; auto).
      apply IH; eauto using known_le; [lia|]. intros i Hi.
      destruct (decide (i = ds)) as [->|]; [done|]. apply Hm', Hf. lia.
    - eapply owns_bind.
      { eapply (owns_on_unwind _ _ _ _ _ _ _ _ (λ _, True)); [apply vcopy_owns; [lia|done]|].
        intros m' Hm' _. apply Hdrop. intros i Hi. auto. }
      intros [] m4 Hm4 H4. simpl in H4.
      assert (Hm' : cells_le m m4) by (intros i Hi; auto).
      apply IH; eauto using known_le; [lia|]. intros i Hi.
      destruct (decide (i = ds)) as [->|]; [done|]. apply Hm', Hf. lia.
  Qed.

  Lemma split_search_right_owns fuel left right lm a b (m : cells) :
    known left m → known right m →
    owned m (split_search_right fuel left right lm a b) (λ _ _, True) (λ _, True).
  Proof.
    revert a b m. induction fuel as [|fuel IH]; intros a b m Hl Hr; cbn [split_search_right];
      [apply owns_nofuel|].
    destruct (a <? b); [|by apply owns_ret].
    eapply owns_bind; [by apply vget_owns_any|]. intros y m1 Hm1 Hy.
    eapply owns_bind; [apply vget_owns_any; eauto using known_le|]. intros x m2 Hm2 Hx.
    eapply owns_bind; [by apply owns_less|]. intros r m3 Hm3 _.
    destruct r; apply IH; eauto using known_le.
  Qed.
  Lemma split_search_left_owns fuel left right rm a b (m : cells) :
    known left m → known right m →
    owned m (split_search_left fuel left right rm a b) (λ _ _, True) (λ _, True).
  Proof.
    revert a b m. induction fuel as [|fuel IH]; intros a b m Hl Hr; cbn [split_search_left];
      [apply owns_nofuel|].
    destruct (a <? b); [|by apply owns_ret].
    eapply owns_bind; [by apply vget_owns_any|]. intros y m1 Hm1 Hy.
    eapply owns_bind; [apply vget_owns_any; eauto using known_le|]. intros x m2 Hm2 Hx.
    eapply owns_bind; [by apply owns_less|]. intros r m3 Hm3 _.
    destruct r; apply IH; eauto using known_le.
  Qed.
  Lemma split_for_merge_owns left right (m : cells) :
    known left m → known right m →
    owned m (split_for_merge left right) (λ _ _, True) (λ _, True).
  Proof.
    intros Hl Hr. unfold split_for_merge. destruct (right.2 <=? left.2).
    - eapply owns_bind; [by apply split_search_right_owns|]. intros a m' _ _. by apply owns_ret.
    - eapply owns_bind; [by apply split_search_left_owns|]. intros a m' _ _. by apply owns_ret.
  Qed.
  Lemma vsplit_owns v k (m : cells) (E : cells → Prop) :
    (¬ k ≤ v.2 → ∀ m', cells_le m m' → E m') →
    owned m (vsplit v k) (λ r _, r = ((v.1, k), (v.1 + k, v.2 - k)) ∧ k ≤ v.2) E.
  Proof.
    intros HE. unfold vsplit. destruct (Nat.leb_spec k v.2); [by apply owns_ret|].
    apply owns_throw. apply HE. lia.
  Qed.

  Lemma par_merge_owns fuel left right dest (m : cells) :
    known left m → known right m → left.2 + right.2 ≤ dest.2 →
    owned m (par_merge fuel left right dest)
      (λ _, filled dest (left.2 + right.2)) (filled dest (left.2 + right.2)).
  Proof.
    revert left right dest m. induction fuel as [|fuel IH]; intros left right dest m Hl Hr Hd;
      cbn [par_merge]; [apply owns_nofuel|].
    destruct (merge_sequential left.2 right.2).
    { apply seq_merge_owns; auto; try lia. intros i Hi. lia. }
    assert (Hdrop : ∀ m', cells_le m m' → owned m' (state_drop left right dest 0 0 0)
      (λ _, filled dest (left.2 + right.2)) (filled dest (left.2 + right.2))).
    { intros m' Hm'. apply state_drop_owns; eauto using known_le; try lia. intros i Hi. lia. }
    eapply owns_bind.
    { eapply owns_on_unwind; [by apply split_for_merge_owns|]. intros m' Hm' _. by apply Hdrop. }
    intros [lm rm] m1 Hm1 _.
    eapply owns_bind.
    { eapply (owns_on_unwind _ _ _ _ _ _ _ _ (λ _, True)); [by apply vsplit_owns|].
      intros m' Hm' _. apply Hdrop. intros i Hi. auto. }
    intros ? m2 Hm2 [-> Hlm].
    eapply owns_bind.
    { eapply (owns_on_unwind _ _ _ _ _ _ _ _ (λ _, True)); [by apply vsplit_owns|].
      intros m' Hm' _. apply Hdrop. intros i Hi. auto. }
    intros ? m3 Hm3 [-> Hrm]. cbn [fst snd].
    eapply owns_bind; [apply vsplit_owns; lia|].
    intros ? m4 Hm4 [-> _].
    assert (Hm : cells_le m m4) by (intros i Hi; auto).
    eapply (owns_bind _ _ _ _ _ _ (λ _, filled dest (left.2 + right.2))).
    2: { intros [] m5 _ Hf. apply owns_ret. intros m6 Hm6. by eapply filled_le. }
    eapply owns_join.
    - apply IH; simpl; [| |lia].
      + intros i Hi. simpl in *. apply Hm, Hl. lia.
      + intros i Hi. simpl in *. apply Hm, Hr. lia.
    - apply IH; simpl; [| |lia].
      + intros i Hi. simpl in *. rewrite <-Nat.add_assoc. apply Hm, Hl. lia.
      + intros i Hi. simpl in *. rewrite <-Nat.add_assoc. apply Hm, Hr. lia.
    - simpl. intros x y m' Hm' Hx Hy.
      assert (H1 : filled (dest.1, lm + rm) (lm + rm) m') by (by destruct x).
      assert (H2 : filled (dest.1 + (lm + rm), dest.2 - (lm + rm))
                     (left.2 - lm + (right.2 - rm)) m') by (by destruct y).
      assert (H : filled dest (left.2 + right.2) m').
      { intros i Hi. destruct (decide (i < lm + rm)); [by apply H1|].
        replace (dest.1 + i) with (dest.1 + (lm + rm) + (i - (lm + rm))) by lia. apply H2. lia. }
      by destruct x, y.
    - intros m' m6. apply filled_le.
    - intros _ m' m6. apply filled_le.
  Qed.

  Lemma owns_chunk_get ch i x (m : cells) E :
    ch !! i = Some x → owned m (chunk_get ch i) (λ y _, y = x) E.
  Proof. intros Hx. unfold chunk_get. rewrite Hx. by apply owns_ret. Qed.
  Lemma owns_vslice v a b (m : cells) E :
    a ≤ b → b ≤ v.2 → owned m (vslice v a b) (λ y _, y = (v.1 + a, b - a)) E.
  Proof.
    intros Ha Hb. unfold vslice. rewrite (proj2 (Nat.leb_le a b) Ha), (proj2 (Nat.leb_le b v.2) Hb).
    by apply owns_ret.
  Qed.
  (** The cells of [buf] from [s] to [e]. *)
  Definition wanted (into_buf : bool) (buf : view) (s e : nat) (m : cells) : Prop :=
    if into_buf then ∀ j, s ≤ j < e → m (buf.1 + j) else True.
  Lemma wanted_le into_buf buf s e m m' :
    cells_le m m' → wanted into_buf buf s e m → wanted into_buf buf s e m'.
  Proof. intros Hm. destruct into_buf; simpl; auto. Qed.

  Lemma pm_recurse_owns fuel v buf ch into_buf s e (m : cells) :
    known v m → chain s ch e → e ≤ v.2 → e ≤ buf.2 →
    owned m (pm_recurse c fuel v buf ch into_buf)
      (λ _, wanted into_buf buf s e) (wanted into_buf buf s e).
  Proof.
    revert ch into_buf s e m.
    induction fuel as [|f IH]; intros ch into_buf s e m Hv Hch Hev Heb;
      cbn [pm_recurse]; [apply owns_nofuel|].
    destruct (decide (length ch = 0)) as [H0|H0].
    { destruct ch; [|done]. simpl in Hch. subst e.
      assert (Hw : ∀ m, wanted into_buf buf s s m). { intros m'. destruct into_buf; simpl; [|done]. lia. }
      eapply (owns_bind _ _ _ _ _ _ (λ _ _, True)).
      - unfold dassert. destruct (_ && _); [by apply owns_throw|by apply owns_ret].
      - intros [] m' _ _. simpl. eapply (owns_bind _ _ _ _ _ _ (λ _ _, False)); [by apply owns_throw|done]. }
    eapply (owns_bind _ _ _ _ _ _ (λ _ _, True)).
    { unfold dassert. rewrite (proj2 (Nat.ltb_lt 0 (length ch))) by lia. rewrite andb_false_r.
      by apply owns_ret. }
    intros [] m0 Hm0 _.
    destruct (Nat.eqb_spec (length ch) 1) as [H1|H1].
    { destruct ch as [|[x y] [|]]; try done. simpl in Hch. destruct Hch as (-> & Hsy & ->).
      destruct into_buf; [|by apply owns_ret].
      eapply owns_bind; [by eapply owns_chunk_get|]. intros ? m1 Hm1 ->.
      eapply owns_mono; [apply (copy_owns v buf (λ i, i) (λ i, i))| |done].
      - intros i Hi. split; [lia|]. split; [|lia]. apply Hm1, Hm0, Hv. lia.
      - intros [] m2 Hm2 Hc j Hj. apply Hc. lia. }
    pose proof (Nat.div_mod (length ch) 2 ltac:(lia)) as Hdm.
    pose proof (Nat.mod_upper_bound (length ch) 2 ltac:(lia)) as Hmo.
    set (h := length ch / 2) in *.
    destruct (lookup_lt_is_Some_2 ch 0 ltac:(lia)) as [[start x1] Hst].
    destruct (lookup_lt_is_Some_2 ch h ltac:(lia)) as [[mid x2] Hmid].
    destruct (lookup_lt_is_Some_2 ch (length ch - 1) ltac:(lia)) as [[x3 end_] Hend].
    eapply owns_bind; [by eapply owns_chunk_get|]. intros ? m1 Hm1 ->.
    eapply owns_bind; [by eapply owns_chunk_get|]. intros ? m2 Hm2 ->.
    eapply owns_bind; [apply owns_usub; lia|]. intros ? m3 Hm3 ->.
    eapply owns_bind; [by eapply owns_chunk_get|]. intros ? m4 Hm4 ->.
    apply (chain_first _ _ _ _ Hch) in Hst. apply (chain_last _ _ _ _ Hch) in Hend.
    simpl in Hst, Hend. subst start end_.
    pose proof (chain_le _ _ _ Hch) as Hse.
    rewrite <-(take_drop h ch) in Hch. apply chain_app in Hch as (mid' & Hc1 & Hc2).
    assert (mid = mid') as <-.
    { eapply (chain_first _ _ _ (mid, x2) Hc2). rewrite lookup_drop. by rewrite Nat.add_0_r. }
    pose proof (chain_le _ _ _ Hc1). pose proof (chain_le _ _ _ Hc2).
    assert (Hv4 : known v m4).
    { eapply known_le; [|exact Hv]. intros i Hi. auto 12. }
    clear m m0 m1 m2 m3 Hv Hm0 Hm1 Hm2 Hm3 Hm4.
    assert (Hjoin : ∀ m5 (E : cells → Prop), cells_le m4 m5 →
      (∀ m', cells_le m5 m' → wanted (negb into_buf) buf s e m' → E m') →
      owned m5 (rayon_join (pm_recurse c f v buf (take h ch) (negb into_buf))
                           (pm_recurse c f v buf (drop h ch) (negb into_buf)))
        (λ _, wanted (negb into_buf) buf s e) E).
    { intros m5 E Hm5 HE. eapply known_le in Hv4; [|exact Hm5]. eapply owns_mono.
      - eapply (owns_join _ _ _ _ _ _ _ (λ _, wanted (negb into_buf) buf s e) (wanted (negb into_buf) buf s e)).
        + apply (IH _ _ s mid); auto; lia.
        + apply (IH _ _ mid e); auto.
        + intros x y m' Hm' Hx Hy.
          assert (Hx' : wanted (negb into_buf) buf s mid m') by (by destruct x).
          assert (Hy' : wanted (negb into_buf) buf mid e m') by (by destruct y).
          assert (wanted (negb into_buf) buf s e m').
          { destruct (negb into_buf); simpl in *; [|done]. intros j Hj.
            destruct (decide (j < mid)); [apply Hx'|apply Hy']; lia. }
          by destruct x, y.
        + intros m' m2. apply wanted_le.
        + intros _ m' m2. apply wanted_le.
      - done.
      - intros m' Hm' Hw. by apply HE. }
    destruct into_buf; cbn [negb] in *.
    - (* from the array to the buffer *)
      eapply owns_bind; [by apply owns_usub|]. intros ? m5 Hm5 ->.
      eapply owns_bind.
      { eapply (owns_on_unwind _ _ _ _ _ _ _ _ (λ _, True)); [by apply Hjoin|].
        intros m6 Hm6 _. eapply owns_mono; [apply (copy_owns v buf (λ i, s + i) (λ i, s + i))| |].
        - intros i Hi. split; [lia|]. split; [|lia]. apply Hm6, Hm5, Hv4. lia.
        - intros [] m7 _ Hc j Hj. replace j with (s + (j - s)) by lia. apply Hc. lia.
        - intros m7 _ Hc. exact Hc. }
      intros x m6 Hm6 _.
      eapply owns_bind; [apply owns_vslice; lia|]. intros ? m7 Hm7 ->.
      eapply owns_bind; [apply owns_vslice; lia|]. intros ? m8 Hm8 ->.
      eapply owns_bind; [apply owns_vslice; lia|]. intros ? m9 Hm9 ->.
      assert (Hv9 : known v m9). { eapply known_le; [|exact Hv4]. intros i Hi. auto 12. }
      eapply owns_mono; [apply par_merge_owns; simpl|..].
      + intros i Hi. simpl in *. rewrite <-Nat.add_assoc. apply Hv9. lia.
      + intros i Hi. simpl in *. rewrite <-Nat.add_assoc. apply Hv9. lia.
      + lia.
      + simpl. intros [] m10 _ Hf j Hj. replace (buf.1 + j) with (buf.1 + s + (j - s)) by lia. apply Hf. lia.
      + simpl. intros m10 _ Hf j Hj. replace (buf.1 + j) with (buf.1 + s + (j - s)) by lia. apply Hf. lia.
    - (* from the buffer to the array *)
      eapply owns_bind; [by apply owns_usub|]. intros ? m5 Hm5 ->.
      eapply owns_bind.
      { eapply (owns_on_unwind _ _ _ _ _ _ _ _ (wanted true buf s e)); [by apply Hjoin|].
        intros m6 Hm6 Hw. eapply owns_mono; [apply (copy_owns buf v (λ i, s + i) (λ i, s + i))| |].
        - intros i Hi. split; [lia|]. split; [|lia]. apply Hw. lia.
        - done.
        - intros m7 _ Hc. exact Hc. }
      intros x m6 Hm6 Hw.
      eapply owns_bind; [apply owns_vslice; lia|]. intros ? m7 Hm7 ->.
      eapply owns_bind; [apply owns_vslice; lia|]. intros ? m8 Hm8 ->.
      eapply owns_bind; [apply owns_vslice; lia|]. intros ? m9 Hm9 ->.
      assert (Hw9 : wanted true buf s e m9). { eapply wanted_le; [|exact Hw]. intros i Hi. auto 12. }
      eapply owns_mono; [apply par_merge_owns; simpl|done|done].
      + intros i Hi. simpl in *. rewrite <-Nat.add_assoc. apply Hw9. lia.
      + intros i Hi. simpl in *. rewrite <-Nat.add_assoc. apply Hw9. lia.
      + lia.
  Qed.

  Lemma par_merge_sort_owns take_item n : own n (par_merge_sort c take_item n).
  Proof.
    unfold par_merge_sort. destruct (zst c); [by apply whole_ret|].
    destruct (n <=? PM_MAX_INSERTION); [own|].
    destruct (n <=? CHUNK_LENGTH).
    { eapply (whole_bind _ _ _ _ (λ _, True)); [apply pm_merge_sort_owns|]. intros res _. own. }
    eapply (whole_bind _ _ _ _ (λ _, True)).
    { apply whole_par_bridge. apply Forall_fmap. eapply Forall_impl; [apply axis_chunks_in|].
      intros [l m] Hm. by apply chunk_task_owns. }
    destruct (axis_chunks_bounds n n 0 ltac:(lia)) as (_ & _ & Hchain).
    intros results _. destruct (Hchain results) as (e & He & Hch).
    destruct (zip_with _ _ _) as [|[[a b] res] rest].
    { intros m Hm. eapply owns_mono; [apply (pm_recurse_owns _ _ _ _ _ 0 0)|done|done]; simpl; try lia.
      intros i Hi. simpl in *. auto. }
    rewrite fmap_cons in Hch. cbn [chain fst snd] in Hch. destruct Hch as (-> & Hb & Hch).
    eapply whole_bind; [by apply pm_concat_owns|]. intros ch Hc m Hm.
    eapply owns_mono; [apply (pm_recurse_owns _ _ _ _ _ 0 e)|done|done]; simpl; try done.
  Qed.
End functions.
