(** * TAlikePar: the cached-key sorts and the parallel functions do the same on
    related elements. *)
From stdpp Require Import list.
From Verif Require Export TAlike MParMerge.

(** ** Sorting by cached keys. *)
Section cached.
  Context {T U K L : Type} (R : T → U → Prop) (RK : K → L → Prop) (c : cfg).
  Notation like := (alike R (ck_questions_alike R RK) (ck_answers_alike RK)).
  Notation pairs := (Forall2 (pair_alike RK (@eq nat))).

  Lemma call_key_alike a a' : R a a' → like RK (call_key a) (call_key a').
  Proof.
    intros Ha. apply alike_ask; [done|]. intros [] []; simpl; try done; intros; first [by apply alike_ret|by apply alike_throw].
  Qed.
  Lemma sort_pairs_alike v v' : pairs v v' → like pairs (sort_pairs v) (sort_pairs v').
  Proof.
    intros Hv. apply alike_ask; [done|]. intros [] []; simpl; try done; intros; first [by apply alike_ret|by apply alike_throw].
  Qed.
  Lemma collect_keys_alike w n i cnt : like pairs (collect_keys c w n i cnt) (collect_keys c w n i cnt).
  Proof.
    revert i. induction cnt as [|k IH]; intros i; simpl; [by apply alike_ret|].
    alike_bind; [alike_go|]. eapply alike_bind; [by apply call_key_alike|]. intros k1 k1' Hk.
    eapply alike_bind; [apply IH|]. intros v v' Hv. apply alike_ret. by constructor.
  Qed.
  Lemma vec_index_alike v v' i : pairs v v' → like eq (vec_index v i) (vec_index v' i).
  Proof.
    intros H. unfold vec_index. pose proof (proj1 (Forall2_lookup _ v v') H i) as Hi.
    inversion Hi as [x y Hxy|]; [apply alike_ret; by destruct Hxy|apply alike_throw].
  Qed.
  Lemma chase_alike fuel v v' i index : pairs v v' → like eq (chase fuel v i index) (chase fuel v' i index).
  Proof.
    intros H. revert index. induction fuel as [|f IH]; intros index; simpl.
    - destruct (index <? i); [apply alike_nofuel|by apply alike_ret].
    - destruct (index <? i); [|by apply alike_ret].
      eapply alike_bind; [by apply vec_index_alike|]. intros j ? <-. apply IH.
  Qed.
  Lemma permute_alike n v v' i cnt : pairs v v' → like eq (permute n v i cnt) (permute n v' i cnt).
  Proof.
    revert v v' i. induction cnt as [|k IH]; intros v v' i H; simpl; [by apply alike_ret|].
    eapply alike_bind; [by apply vec_index_alike|]. intros j ? <-.
    eapply alike_bind; [by apply chase_alike|]. intros j2 ? <-.
    eapply (alike_bind _ _ _ pairs).
    { pose proof (proj1 (Forall2_lookup _ v v') H i) as Hi.
      inversion Hi as [x y Hxy|]; [|apply alike_throw].
      apply alike_ret. apply Forall2_insert; [done|]. by destruct Hxy. }
    intros v2 v2' Hv2. alike_bind; [alike_go|]. by apply IH.
  Qed.
  Lemma sort_by_cached_key_alike sz n :
    like eq (sort_by_cached_key c sz n) (sort_by_cached_key c sz n).
  Proof.
    unfold sort_by_cached_key, sort_by_key_macro. destruct (n <? 2); [by apply alike_ret|].
    eapply alike_bind; [apply collect_keys_alike|]. intros v v' Hv.
    eapply alike_bind; [by apply sort_pairs_alike|]. intros v2 v2' Hv2. by apply permute_alike.
  Qed.
  Lemma par_collect_keys_alike w n todo acc acc' pan cnt :
    pairs acc acc' →
    like pairs (par_collect_keys c w n todo acc pan cnt) (par_collect_keys c w n todo acc' pan cnt).
  Proof.
    revert todo acc acc' pan. induction cnt as [|k IH]; intros todo acc acc' pan H; simpl.
    { destruct pan; [apply alike_throw|by apply alike_ret]. }
    apply alike_ask; [done|]. intros r r' Hr.
    assert (∃ a b s, match r with Picked a b c => (a, b, c) | _ => (0, 0, false) end = (a, b, s) ∧
      match r' with Picked a b c => (a, b, c) | _ => (0, 0, false) end = (a, b, s)) as (a & b & s & -> & ->).
    { destruct r, r'; simpl in Hr; destruct_and?; subst; try done; eauto. }
    destruct (pan && s); [apply alike_throw|].
    destruct (todo !! (a mod length todo)) as [i|]; [|apply alike_undef].
    alike_bind; [alike_go|]. apply alike_ask; [done|].
    intros [] []; simpl; try done; intros; try by apply IH.
    apply IH. rewrite (Forall2_length _ _ _ H). apply Forall2_app; [by apply Forall2_take|].
    constructor; [done|]. by apply Forall2_drop.
  Qed.
  Lemma par_sort_by_cached_key_alike sz n :
    like eq (par_sort_by_cached_key c sz n) (par_sort_by_cached_key c sz n).
  Proof.
    unfold par_sort_by_cached_key, par_sort_by_key_macro. destruct (n <? 2); [by apply alike_ret|].
    eapply alike_bind; [by apply par_collect_keys_alike|]. intros v v' Hv.
    eapply alike_bind; [by apply sort_pairs_alike|]. intros v2 v2' Hv2. by apply permute_alike.
  Qed.
End cached.

Lemma alike_par {T U Q Q' X X' B B' C C' A A'} (R : T → U → Prop) (RQ : Q → Q' → Prop) (RX : X → X' → Prop)
    (RB : B → B' → Prop) (RC : C → C' → Prop) (RA : A → A' → Prop) p1 p1' p2 p2' k k' :
  alike R RQ RX RB p1 p1' → alike R RQ RX RC p2 p2' →
  (∀ b b' d d', sum_alike RB b b' → sum_alike RC d d' → alike R RQ RX RA (k b d) (k' b' d')) →
  alike R RQ RX RA (Par p1 p2 k) (Par p1' p2' k').
Proof. intros. exists RB, RC. auto. Qed.

Section join.
  Context {T U Q Q' X X' : Type} (R : T → U → Prop) (RQ : Q → Q' → Prop) (RX : X → X' → Prop).
  Notation like := (alike R RQ RX).

  Lemma rayon_join_alike {B C} (p1 p1' : prog _ _ _ B) (p2 p2' : prog _ _ _ C) :
    like eq p1 p1' → like eq p2 p2' → like eq (rayon_join p1 p2) (rayon_join p1' p2').
  Proof.
    intros H1 H2. unfold rayon_join. eapply alike_par; [done..|].
    intros [b|e] [b'|e'] [d|f] [d'|f']; simpl; try done; intros; subst; first [by apply alike_ret|by apply alike_throw].
  Qed.
  Lemma par_each_alike {B} (ts ts' : list (prog _ _ _ B)) :
    Forall2 (like eq) ts ts' → like eq (par_each ts) (par_each ts').
  Proof.
    induction 1 as [|t t' ts ts' Ht Hts IH]; simpl; [by apply alike_ret|].
    eapply alike_par; [done..|].
    intros [b|e] [b'|e'] [d|f] [d'|f']; simpl; try done; intros; subst; first [by apply alike_ret|by apply alike_throw].
  Qed.
  Lemma all_done_alike {B} (rs : list (B + exn)) : like eq (all_done rs) (all_done rs).
  Proof. induction rs as [|[b|e] rs IH]; simpl; alike_go. Qed.
  Lemma bridge_first_alike {B} tk i (ts ts' : list (prog _ _ _ B)) :
    Forall2 (like eq) ts ts' → Forall2 (like eq) (bridge_first tk i ts) (bridge_first tk i ts').
  Proof.
    intros H. revert i. induction H as [|t t' ts ts' Ht Hts IH]; intros i; simpl; constructor; [|done].
    alike_go.
  Qed.
  Lemma bridge_rest_alike {B} rs (ts ts' : list (prog _ _ _ B)) :
    Forall2 (like eq) ts ts' → Forall2 (like eq) (bridge_rest rs ts) (bridge_rest rs ts').
  Proof.
    intros H. revert rs. induction H as [|t t' ts ts' Ht Hts IH]; intros [|[b|] rs]; simpl; constructor; try done.
  Qed.
  Lemma par_bridge_alike {B} tk (ts ts' : list (prog _ _ _ B)) :
    Forall2 (like eq) ts ts' → like eq (par_bridge tk ts) (par_bridge tk ts').
  Proof.
    intros H. unfold par_bridge. alike_bind; [by apply par_each_alike, bridge_first_alike|].
    alike_bind; [apply all_done_alike|]. alike_bind; [by apply par_each_alike, bridge_rest_alike|].
    apply all_done_alike.
  Qed.
End join.
Global Hint Resolve rayon_join_alike : alike.
Ltac alike_loop ::= first [ apply slice_alike | apply for_up_alike | apply for_down_alike | apply rayon_join_alike ].

Section par.
  Context {T U : Type} (R : T → U → Prop) (c : cfg).
  Notation like := (alike R (pair_alike R R) (@eq (option bool))).

  Lemma par_qs_recurse_alike fuel n pred pred' limit wb wp :
    option_Forall2 R pred pred' →
    like eq (par_qs_recurse c fuel n pred limit wb wp) (par_qs_recurse c fuel n pred' limit wb wp).
  Proof.
    revert n pred pred' limit wb wp.
    induction fuel as [|f IHf]; intros n pred pred' limit wb wp Hp; simpl; alike_go.
  Qed.
  Hint Resolve par_qs_recurse_alike : alike.
  Lemma par_quick_sort_alike n : like eq (par_quick_sort c n) (par_quick_sort c n).
  Proof.
    unfold par_quick_sort. destruct (zst c); [by apply alike_ret|]. apply par_qs_recurse_alike. constructor.
  Qed.
  Lemma par_partition_at_indices_alike fuel n base off vlen inds :
    like eq (par_partition_at_indices c fuel n base off vlen inds) (par_partition_at_indices c fuel n base off vlen inds).
  Proof.
    revert n base off vlen inds. induction fuel as [|f IHf]; intros n base off vlen inds; simpl; alike_go.
  Qed.
  Hint Resolve par_partition_at_indices_alike : alike.
  Lemma par_select_many_alike n vlen inds : like eq (par_select_many c n vlen inds) (par_select_many c n vlen inds).
  Proof. unfold par_select_many. alike_go. Qed.

  Hint Extern 2 (R (if _ then _ else _) _) => apply if_alike : alike.
  Lemma pm_insert_loop_alike n x x' i cnt :
    R x x' → like eq (pm_insert_loop n x i cnt) (pm_insert_loop n x' i cnt).
  Proof. intros Hx. revert i. induction cnt; intros; simpl; alike_go. Qed.
  Hint Resolve pm_insert_loop_alike : alike.
  Lemma pm_insert_head_alike n : like eq (pm_insert_head n) (pm_insert_head n).
  Proof. unfold pm_insert_head. alike_go. Qed.
  Lemma bget_alike n cap i : like R (bget n cap i) (bget n cap i).
  Proof. unfold bget. destruct (i <? cap); [|apply alike_undef]. split; done. Qed.
  Lemma bput_alike n cap i x x' : R x x' → like eq (bput n cap i x) (bput n cap i x').
  Proof. unfold bput. destruct (i <? cap); intros; [|apply alike_undef]. split; done. Qed.
  Hint Resolve pm_insert_head_alike bget_alike bput_alike : alike.
  Lemma pm_copy_out_alike n cap b cnt : like eq (pm_copy_out n cap b cnt) (pm_copy_out n cap b cnt).
  Proof. unfold pm_copy_out. alike_go. Qed.
  Lemma pm_hole_drop_alike n cap s e d : like eq (pm_hole_drop n cap s e d) (pm_hole_drop n cap s e d).
  Proof. unfold pm_hole_drop. alike_go. Qed.
  Hint Resolve pm_copy_out_alike pm_hole_drop_alike : alike.
  Lemma pm_merge_fwd_alike fuel n cap mid l r o :
    like eq (pm_merge_fwd fuel n cap mid l r o) (pm_merge_fwd fuel n cap mid l r o).
  Proof. revert l r o. induction fuel; intros; simpl; alike_go. Qed.
  Lemma pm_merge_bwd_alike fuel n cap l r o :
    like eq (pm_merge_bwd fuel n cap l r o) (pm_merge_bwd fuel n cap l r o).
  Proof. revert l r o. induction fuel; intros; simpl; alike_go. Qed.
  Hint Resolve pm_merge_fwd_alike pm_merge_bwd_alike : alike.
  Lemma pm_merge_alike n cap mid : like eq (pm_merge n cap mid) (pm_merge n cap mid).
  Proof. unfold pm_merge. alike_go. Qed.
  Lemma slice_buf_alike {A A'} (RA : A → A' → Prop) n a b p p' :
    (∀ m, like RA (p m) (p' m)) → like RA (slice_buf n a b p) (slice_buf n a b p').
  Proof. intros H. unfold slice_buf. alike_go. Qed.
  Hint Resolve pm_merge_alike slice_buf_alike : alike.
  Lemma pm_streak_alike want n s : like eq (pm_streak want n s) (pm_streak want n s).
  Proof. induction s; simpl; alike_go. Qed.
  Hint Resolve pm_streak_alike : alike.
  Lemma pm_find_run_alike n e : like eq (pm_find_run n e) (pm_find_run n e).
  Proof. unfold pm_find_run. alike_go. Qed.
  Lemma pm_extend_alike n e s : like eq (pm_extend n e s) (pm_extend n e s).
  Proof. induction s; simpl; alike_go. Qed.
  Lemma pm_collapse_loop_alike fuel n cap runs :
    like eq (pm_collapse_loop fuel n cap runs) (pm_collapse_loop fuel n cap runs).
  Proof. revert runs. induction fuel; intros; simpl; alike_go. Qed.
  Hint Resolve pm_find_run_alike pm_extend_alike pm_collapse_loop_alike : alike.
  Lemma pm_sort_loop_alike fuel n cap e runs :
    like eq (pm_sort_loop c fuel n cap e runs) (pm_sort_loop c fuel n cap e runs).
  Proof. revert e runs. induction fuel; intros; simpl; alike_go. Qed.
  Hint Resolve pm_sort_loop_alike : alike.
  Lemma pm_merge_sort_alike n cap : like eq (pm_merge_sort c n cap) (pm_merge_sort c n cap).
  Proof. unfold pm_merge_sort. alike_go. Qed.

  Lemma vget_alike v i : like R (vget v i) (vget v i).
  Proof. unfold vget. destruct (i <? v.2); [|apply alike_throw]. split; done. Qed.
  Lemma vput_alike v i x x' : R x x' → like eq (vput v i x) (vput v i x').
  Proof. unfold vput. destruct (i <? v.2); intros; [|apply alike_throw]. split; done. Qed.
  Lemma vcopy_alike u j v i x x' : R x x' → like eq (vcopy u j v i x) (vcopy u j v i x').
  Proof. unfold vcopy. destruct (_ =? _); intros; [done|by apply vput_alike]. Qed.
  Lemma vsplit_alike v i : like eq (vsplit v i) (vsplit v i).
  Proof. unfold vsplit. alike_go. Qed.
  Lemma vslice_alike v a b : like eq (vslice v a b) (vslice v a b).
  Proof. unfold vslice. alike_go. Qed.
  Hint Resolve pm_merge_sort_alike vget_alike vcopy_alike vsplit_alike vslice_alike : alike.
  Lemma split_search_right_alike fuel l r m a b :
    like eq (split_search_right fuel l r m a b) (split_search_right fuel l r m a b).
  Proof. revert a b. induction fuel; intros; simpl; alike_go. Qed.
  Lemma split_search_left_alike fuel l r m a b :
    like eq (split_search_left fuel l r m a b) (split_search_left fuel l r m a b).
  Proof. revert a b. induction fuel; intros; simpl; alike_go. Qed.
  Hint Resolve split_search_right_alike split_search_left_alike : alike.
  Lemma split_for_merge_alike l r : like eq (split_for_merge l r) (split_for_merge l r).
  Proof. unfold split_for_merge. alike_go. Qed.
  Lemma state_drop_alike l r d a b e : like eq (state_drop l r d a b e) (state_drop l r d a b e).
  Proof. unfold state_drop. alike_go. Qed.
  Hint Resolve split_for_merge_alike state_drop_alike : alike.
  Lemma seq_merge_alike fuel l r d a b e : like eq (seq_merge fuel l r d a b e) (seq_merge fuel l r d a b e).
  Proof. revert a b e. induction fuel; intros; simpl; alike_go. Qed.
  Hint Resolve seq_merge_alike : alike.
  Lemma par_merge_alike fuel l r d : like eq (par_merge fuel l r d) (par_merge fuel l r d).
  Proof. revert l r d. induction fuel; intros; simpl; alike_go. Qed.
  Lemma copy_on_drop_alike s d st len : like eq (copy_on_drop s d st len) (copy_on_drop s d st len).
  Proof. unfold copy_on_drop. alike_go. Qed.
  Lemma chunk_get_alike ch i : like eq (chunk_get ch i) (chunk_get ch i).
  Proof. unfold chunk_get. alike_go. Qed.
  Hint Resolve par_merge_alike copy_on_drop_alike chunk_get_alike : alike.
  Lemma pm_recurse_alike fuel v buf ch ib : like eq (pm_recurse c fuel v buf ch ib) (pm_recurse c fuel v buf ch ib).
  Proof. revert ch ib. induction fuel; intros; simpl; alike_go. Qed.
  Lemma chunk_task_alike n l m : like eq (chunk_task c n l m) (chunk_task c n l m).
  Proof. unfold chunk_task. alike_go. Qed.
  Lemma pm_concat_alike n a b res rest : like eq (pm_concat n a b res rest) (pm_concat n a b res rest).
  Proof. revert a b res. induction rest as [|[[x y] r] rest IH]; intros; simpl; alike_go. Qed.
  Hint Resolve pm_recurse_alike chunk_task_alike pm_concat_alike : alike.
  Lemma par_merge_sort_alike tk n : like eq (par_merge_sort c tk n) (par_merge_sort c tk n).
  Proof.
    unfold par_merge_sort. destruct (zst c); [alike_go|]. destruct (n <=? PM_MAX_INSERTION); [alike_go|].
    destruct (n <=? CHUNK_LENGTH); [alike_go|]. cbv zeta. alike_bind; [|alike_go].
    apply par_bridge_alike. induction (axis_chunks n n 0) as [|[l m] ch IH]; simpl; constructor; [|done].
    apply chunk_task_alike.
  Qed.
End par.
