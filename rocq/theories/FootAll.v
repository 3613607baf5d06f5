(** * FootAll: every operation of the crate touches only the elements of its view. *)
From Verif Require Export FootMerge MApi MDedup MSearch MCached PQuick PIndices.
From stdpp Require Import list.

Global Hint Resolve within_shift_left within_heap_sort within_break_patterns within_choose_pivot
  within_partial_insertion_sort within_partition_equal within_partition within_reverse
  within_partition_at_index within_rel_index within_run_get : fp.

Lemma within_reverse_any {T Q R} n : within n (MPartition.reverse (T:=T) (Q:=Q) (R:=R) n).
Proof. unfold MPartition.reverse. fp_go. Qed.

Section funs.
  Context {T : Type} (c : cfg).
  Notation P A := (cmp_prog T A).

  (** src/quick_sort.rs *)
  Lemma within_qs_recurse depth fuel n (pred : option T) limit wb wp :
    within n (qs_recurse c depth fuel n pred limit wb wp).
  Proof.
    revert fuel n pred limit wb wp. induction depth as [|d IHd]; intros fuel; [intros; apply within_nofuel|].
    induction fuel as [|f IHf]; intros n pred limit wb wp; [apply within_nofuel|].
    rewrite qs_recurse_unfold. fp_go.
  Qed.
  Lemma within_quick_sort n : within n (quick_sort c n : P unit).
  Proof. unfold quick_sort. destruct (zst c); [apply within_ret|]. apply within_qs_recurse. Qed.

  (** src/partition.rs *)
  Lemma within_partition_at_indices depth fuel n base offset inds :
    within n (partition_at_indices c depth fuel n base offset inds : P _).
  Proof.
    revert fuel n base offset inds. induction depth as [|d IHd]; intros fuel; [intros; apply within_nofuel|].
    induction fuel as [|f IHf]; intros n base offset inds; [apply within_nofuel|].
    destruct inds as [|i0 inds]; [apply within_ret|].
    rewrite partition_at_indices_unfold. fp_go.
  Qed.
  Lemma within_select_many n inds : within n (select_many c n inds : P _).
  Proof. apply within_partition_at_indices. Qed.

  (** src/merge_sort.rs *)
  Lemma within_buf_get n (buf : list T) i : within n (buf_get buf i).
  Proof. unfold buf_get. fp_go. Qed.
  Hint Resolve within_buf_get : fp.
  Lemma within_copy_out cap n base i cnt (buf : list T) : within n (copy_out cap n base i cnt buf).
  Proof. revert i buf. induction cnt; intros; cbn [copy_out]; fp_go. Qed.
  Lemma within_merge_hole_drop n (buf : list T) s e d : within n (merge_hole_drop n buf s e d).
  Proof. unfold merge_hole_drop. fp_go. Qed.
  Hint Resolve within_copy_out within_merge_hole_drop : fp.
  Lemma within_merge_fwd fuel n mid (buf : list T) l r o : within n (merge_fwd fuel n mid buf l r o).
  Proof. revert l r o. induction fuel; intros; cbn [merge_fwd]; fp_go. Qed.
  Lemma within_merge_bwd fuel n (buf : list T) l r o : within n (merge_bwd fuel n buf l r o).
  Proof. revert l r o. induction fuel; intros; cbn [merge_bwd]; fp_go. Qed.
  Hint Resolve within_merge_fwd within_merge_bwd : fp.
  Lemma within_merge cap n mid : within n (MMerge.merge cap n mid : P unit).
  Proof. unfold MMerge.merge. fp_go. Qed.
  Lemma within_streak_loop w fuel n e : within n (streak_loop w fuel n e : P nat).
  Proof. revert e. induction fuel; intros; cbn [streak_loop]; fp_go. Qed.
  Hint Resolve within_merge within_streak_loop : fp.
  Lemma within_find_streak n : within n (find_streak n : P (nat * bool)).
  Proof. unfold find_streak. fp_go. Qed.
  Lemma within_provide_sorted_batch n s e : within n (provide_sorted_batch c n s e : P nat).
  Proof. unfold provide_sorted_batch. fp_go. Qed.
  Hint Resolve within_find_streak within_provide_sorted_batch : fp.
  Lemma within_collapse_loop fuel cap n runs : within n (collapse_loop fuel cap n runs : P _).
  Proof. revert runs. induction fuel; intros; cbn [collapse_loop]; fp_go. Qed.
  Hint Resolve within_collapse_loop : fp.
  Lemma within_merge_sort_loop fuel cap n s e runs : within n (merge_sort_loop c fuel cap n s e runs : P _).
  Proof. revert s e runs. induction fuel; intros; cbn [merge_sort_loop]; fp_go. Qed.
  Hint Resolve within_merge_sort_loop : fp.
  Lemma within_merge_sort n : within n (merge_sort c n : P unit).
  Proof. unfold merge_sort. fp_go. Qed.
  Lemma within_stable_sort n : within n (stable_sort c n : P unit).
  Proof. unfold stable_sort. destruct (zst c); [apply within_ret|]. apply within_merge_sort. Qed.

  (** src/partition_dedup.rs *)
  Lemma within_same_bucket n i j : within n (same_bucket n i j : prog T _ _ _).
  Proof.
    unfold same_bucket. fp_go. apply fp_Ask. intros [b x' y'|x' y'];
    match goal with |- fp _ ?p => change (within n p) end; fp_go.
  Qed.
  Hint Resolve within_same_bucket : fp.
  Lemma within_dedup_loop n cnt r w : within n (dedup_loop n cnt r w : prog T _ _ _).
  Proof. revert r w. induction cnt; intros; cbn [dedup_loop]; fp_go. Qed.
  Hint Resolve within_dedup_loop : fp.
  Lemma within_partition_dedup_by n : within n (partition_dedup_by n : prog T _ _ _).
  Proof. unfold partition_dedup_by, split_views. fp_go. Qed.
  Lemma within_partition_dedup n : within n (partition_dedup n : P _).
  Proof.
    apply fp_with_asks; [|apply within_partition_dedup_by]. intros [a b]. apply fp_Ask. intros r.
    apply fp_ret.
  Qed.
  Lemma within_partition_dedup_by_key {K} n :
    within n (partition_dedup_by_key (T:=T) (K:=K) n).
  Proof.
    apply fp_with_asks; [|apply within_partition_dedup_by]. intros [a b]. apply fp_Ask.
    intros [ka a'|?|a'|]; try apply fp_ret. apply fp_Ask.
    intros [kb b'|?|b'|]; try apply fp_ret. apply fp_Ask. intros r. apply fp_ret.
  Qed.

  (** src/lib.rs: searching *)
  Lemma within_binary_search_loop fuel n s l r : within n (binary_search_loop (T:=T) c fuel n s l r).
  Proof.
    revert s l r. induction fuel as [|f IH]; intros; cbn [binary_search_loop]; fp_go.
    apply fp_Ask. intros [cm|]; [|apply fp_throw]. cbv zeta.
    match goal with |- fp _ ?p => change (within n p) end. destruct cm; fp_go.
  Qed.
  Lemma within_binary_search_by n : within n (binary_search_by (T:=T) c n).
  Proof. apply within_binary_search_loop. Qed.
  Lemma within_binary_search n x : within n (binary_search (T:=T) c n x).
  Proof.
    apply fp_with_asks; [|apply within_binary_search_by]. intros p. apply fp_Ask. intros. apply fp_ret.
  Qed.
  Lemma within_binary_search_by_key {K} n (b : K) : within n (binary_search_by_key (T:=T) c n b).
  Proof.
    apply fp_with_asks; [|apply within_binary_search_by]. intros p. apply fp_Ask.
    intros [k|?|]; try apply fp_ret. apply fp_Ask. intros [?|?|]; apply fp_ret.
  Qed.
  Lemma within_partition_point n : within n (partition_point (T:=T) c n).
  Proof.
    apply within_bind; [|intros; apply within_ret].
    apply fp_with_asks; [|apply within_binary_search_by]. intros p. apply fp_Ask. intros. apply fp_ret.
  Qed.
  Lemma within_contains n (x : T) : within n (contains n x).
  Proof.
    assert (H : ∀ cnt i, within n (contains_loop n x i cnt)); [|apply H].
    intros cnt. induction cnt; intros; cbn [contains_loop]; fp_go.
  Qed.
  Lemma within_is_sorted n : within n (is_sorted n : P bool).
  Proof.
    assert (H : ∀ cnt i, within n (is_sorted_loop (T:=T) n i cnt)); [|apply H].
    intros cnt. induction cnt; intros; cbn [is_sorted_loop]; fp_go.
  Qed.

  (** src/lib.rs: the sorts by cached key *)
  Lemma within_ask {Q R A} n (q : Q) (k : R → prog T Q R A) :
    (∀ r, within n (k r)) → within n (Ask q k).
  Proof. apply fp_Ask. Qed.
  Section cached.
    Context {K : Type} (sz : sizes).
    Lemma within_collect_keys w n i cnt : within n (collect_keys (T:=T) (K:=K) c w n i cnt).
    Proof.
      revert i. induction cnt; intros; cbn [collect_keys]; fp_go.
      apply within_ask. intros r. fp_go.
    Qed.
    Lemma within_par_collect_keys w n todo acc pk cnt :
      within n (par_collect_keys (T:=T) (K:=K) c w n todo acc pk cnt).
    Proof.
      revert todo acc pk. induction cnt as [|k IH]; intros; cbn [par_collect_keys]; fp_go.
      apply within_ask. intros r. fp_go;
      apply within_ask; intros r'; fp_go.
    Qed.
    Lemma within_sort_pairs n v : within n (sort_pairs (T:=T) (K:=K) v).
    Proof. apply within_ask. intros r. fp_go. Qed.
    Lemma within_vec_index n v i : within n (vec_index (T:=T) (K:=K) v i).
    Proof. unfold vec_index. fp_go. Qed.
    Hint Resolve within_collect_keys within_par_collect_keys within_sort_pairs within_vec_index : fp.
    Lemma within_chase n fuel v i index : within n (chase (T:=T) (K:=K) fuel v i index).
    Proof. revert v index. induction fuel; intros; cbn [chase]; fp_go. Qed.
    Hint Resolve within_chase : fp.
    Lemma within_permute n v i cnt : within n (permute (T:=T) (K:=K) n v i cnt).
    Proof. revert v i. induction cnt; intros; cbn [permute]; fp_go. Qed.
    Hint Resolve within_permute : fp.
    Lemma within_sort_by_cached_key n : within n (sort_by_cached_key (T:=T) (K:=K) c sz n).
    Proof. unfold sort_by_cached_key, sort_by_key_macro. fp_go. Qed.
    Lemma within_par_sort_by_cached_key n : within n (par_sort_by_cached_key (T:=T) (K:=K) c sz n).
    Proof. unfold par_sort_by_cached_key, par_sort_by_key_macro. fp_go. Qed.
  End cached.
End funs.
