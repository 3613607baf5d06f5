(** * A panic of the closure in one of the tasks is the one that leaves the call. *)
From Verif Require Export Loud CParSort TPanic TPar TParMerge.
From stdpp Require Import list relations.

(** ** Sequential parts of the parallel stable sort. *)
Section polite.
  Context {T : Type} (c : cfg).
  Notation pol := (polite (T:=T) (Q:=T * T) (R:=option bool) none_bad).
  Hint Resolve bget_silent bput_silent vget_silent vcopy_silent pm_hole_drop_silent
    pm_copy_out_silent state_drop_silent copy_on_drop_silent reverse_silent : polite.

  Lemma polite_slice_buf {A} n a b (p : nat → cmp_prog T A) :
    (∀ m, pol (p m)) → pol (slice_buf n a b p).
  Proof. intros Hp. unfold slice_buf. destruct (_ && _); [by apply polite_relocate|by apply polite_throw]. Qed.

  Lemma pm_insert_loop_polite n (tmp : T) i cnt : pol (pm_insert_loop n tmp i cnt).
  Proof. revert i. induction cnt; intros i; simpl; polite. Qed.
  Hint Resolve pm_insert_loop_polite : polite.
  Lemma pm_insert_head_polite n : pol (pm_insert_head n).
  Proof. unfold pm_insert_head. polite. Qed.
  Hint Resolve pm_insert_head_polite : polite.
  Lemma pm_merge_fwd_polite fuel n cap mid l r o : pol (pm_merge_fwd fuel n cap mid l r o).
  Proof. revert l r o. induction fuel; intros l r o; simpl; polite. Qed.
  Hint Resolve pm_merge_fwd_polite : polite.
  Lemma pm_merge_bwd_polite fuel n cap l r o : pol (pm_merge_bwd fuel n cap l r o).
  Proof. revert l r o. induction fuel; intros l r o; simpl; polite. Qed.
  Hint Resolve pm_merge_bwd_polite : polite.
  Lemma pm_merge_polite n cap mid : pol (pm_merge n cap mid).
  Proof. unfold pm_merge. polite. Qed.
  Hint Resolve pm_merge_polite : polite.
  Lemma pm_streak_polite want n s : pol (pm_streak want n s).
  Proof. induction s; simpl; polite. Qed.
  Hint Resolve pm_streak_polite : polite.
  Lemma pm_find_run_polite n e : pol (pm_find_run n e).
  Proof. unfold pm_find_run. polite. Qed.
  Hint Resolve pm_find_run_polite : polite.
  Lemma pm_extend_polite n e s : pol (pm_extend n e s).
  Proof. induction s; simpl; polite. Qed.
  Hint Resolve pm_extend_polite run_get_polite : polite.
  Lemma pm_collapse_loop_polite fuel n cap runs : pol (pm_collapse_loop fuel n cap runs).
  Proof.
    revert runs. induction fuel; intros runs; simpl; polite.
    apply polite_slice_buf. intros m. polite.
  Qed.
  Hint Resolve pm_collapse_loop_polite : polite.
  Lemma pm_sort_loop_polite fuel n cap e runs : pol (pm_sort_loop c fuel n cap e runs).
  Proof. revert e runs. induction fuel; intros e runs; cbn [pm_sort_loop]; polite. Qed.
  Lemma pm_merge_sort_polite n cap : pol (pm_merge_sort c n cap).
  Proof. apply pm_sort_loop_polite. Qed.
  Lemma split_search_right_polite fuel (l r : view) lm a b : pol (split_search_right fuel l r lm a b).
  Proof. revert a b. induction fuel; intros a b; cbn [split_search_right]; polite. Qed.
  Lemma split_search_left_polite fuel (l r : view) rm a b : pol (split_search_left fuel l r rm a b).
  Proof. revert a b. induction fuel; intros a b; cbn [split_search_left]; polite. Qed.
  Hint Resolve split_search_right_polite split_search_left_polite : polite.
  Lemma split_for_merge_polite (l r : view) : pol (split_for_merge l r).
  Proof. unfold split_for_merge. polite. Qed.
  Lemma seq_merge_polite fuel (l r d : view) a b e : pol (seq_merge fuel l r d a b e).
  Proof. revert a b e. induction fuel; intros a b e; cbn [seq_merge]; polite. Qed.
  Lemma pm_concat_polite n a b res rest : pol (pm_concat n a b res rest).
  Proof. revert a b res. induction rest as [|[[x y] r] rest IH]; intros a b res; simpl; polite. Qed.
  Lemma vsplit_polite (v : view) i : pol (vsplit v i).
  Proof. unfold vsplit. polite. Qed.
  Lemma vslice_polite (v : view) i j : pol (vslice v i j).
  Proof. unfold vslice. polite. Qed.
  Lemma chunk_get_polite chunks i : pol (chunk_get chunks i).
  Proof. unfold chunk_get. polite. Qed.
End polite.

(** ** Loudness of the parallel functions. *)
Lemma loud_ret {T Q R A} bad (a : A) (D : A → Prop) : loud (T:=T) (Q:=Q) (R:=R) bad (Ret a) D.
Proof. Local Transparent loud. done. Qed.
Lemma loud_throw {T Q R A} bad e (D : A → Prop) : loud (T:=T) (Q:=Q) (R:=R) bad (Throw e) D.
Proof. done. Qed.
Lemma loud_nofuel {T Q R A} bad (D : A → Prop) : loud (T:=T) (Q:=Q) (R:=R) bad NoFuel D.
Proof. done. Qed.
Global Opaque loud.
Ltac loud_step :=
  match goal with
  | |- loud _ (bind _ _) _ => apply loud_seq; [|intros ?]
  | |- loud _ (Ret _) _ => apply loud_ret
  | |- loud _ (Throw _) _ => apply loud_throw
  | |- loud _ NoFuel _ => apply loud_nofuel
  | |- loud _ (rayon_join _ _) _ => apply loud_join
  | |- loud _ (slice _ _ _ _) _ => apply loud_slice; intros ?
  | |- loud _ (match ?x with _ => _ end) _ => destruct x
  | |- loud _ (let '(_, _) := ?x in _) _ => destruct x
  | |- loud _ (on_unwind _ _) _ => apply loud_on_unwind; [solve [auto with polite]|]
  | |- loud _ _ _ => solve [apply polite_loud; polite]
  | |- loud _ _ _ => solve [auto]
  end.
Ltac loud := repeat loud_step.

Section loud.
  Context {T : Type} (c : cfg).
  Notation lou p := (∀ D, loud (T:=T) (Q:=T * T) (R:=option bool) none_bad p D).
  Hint Resolve bget_silent bput_silent vget_silent vcopy_silent pm_hole_drop_silent
    pm_copy_out_silent state_drop_silent copy_on_drop_silent reverse_silent break_patterns_silent : polite.
  Hint Resolve insertion_sort_shift_left_polite heap_sort_polite choose_pivot_polite
    partial_insertion_sort_polite partition_equal_polite partition_polite partition_at_index_polite
    rel_index_polite pm_insert_head_polite pm_merge_sort_polite split_for_merge_polite
    seq_merge_polite pm_concat_polite vsplit_polite vslice_polite chunk_get_polite : polite.

  Lemma par_qs_recurse_loud fuel n pred limit wb wp : lou (par_qs_recurse c fuel n pred limit wb wp).
  Proof.
    revert n pred limit wb wp. induction fuel as [|f IH]; intros n pred limit wb wp D; [apply loud_nofuel|].
    cbn [par_qs_recurse]. loud.
  Qed.
  Lemma par_quick_sort_loud n : lou (par_quick_sort c n).
  Proof. intros D. unfold par_quick_sort. destruct (zst c); [apply loud_ret|apply par_qs_recurse_loud]. Qed.
  Lemma par_partition_at_indices_loud fuel n base offset vlen inds :
    lou (par_partition_at_indices c fuel n base offset vlen inds).
  Proof.
    revert n base offset vlen inds. induction fuel as [|f IH]; intros n base offset vlen inds D;
      [apply loud_nofuel|].
    cbn [par_partition_at_indices]. loud.
  Qed.
  Lemma par_select_many_loud n vlen inds : lou (par_select_many c n vlen inds).
  Proof.
    intros D. unfold par_select_many. apply loud_seq; [apply par_partition_at_indices_loud|].
    intros ?. apply loud_ret.
  Qed.
  Lemma par_merge_loud fuel (l r d : view) : lou (par_merge fuel l r d).
  Proof.
    revert l r d. induction fuel as [|f IH]; intros l r d D; [apply loud_nofuel|].
    cbn [par_merge]. loud.
  Qed.
  Lemma pm_recurse_loud fuel (v buf : view) chunks into : lou (pm_recurse c fuel v buf chunks into).
  Proof.
    revert chunks into. induction fuel as [|f IH]; intros chunks into D; [apply loud_nofuel|].
    pose proof par_merge_loud.
    cbn [pm_recurse]. loud.
  Qed.
  Lemma par_merge_sort_loud take_item n : lou (par_merge_sort c take_item n).
  Proof.
    intros D. pose proof pm_recurse_loud. unfold par_merge_sort.
    destruct (zst c); [loud|]. destruct (n <=? PM_MAX_INSERTION); [loud|].
    destruct (n <=? CHUNK_LENGTH); [loud|].
    apply loud_seq; [|intros rs; loud].
    apply loud_bridge. apply Forall_forall. intros t Ht. apply elem_of_list_fmap in Ht as ([l m] & -> & _).
    unfold chunk_task. apply loud_relocate. loud.
  Qed.
End loud.

(** ** What leaves the call, for every schedule. *)
(** Some recorded call panicked. *)
Definition some_panic {Q R} (tr : list (Q * option R)) : Prop := Exists (λ e, e.2 = None) tr.
Definition some_key_panic {T K} (tr : list (key_question (T:=T) K * key_answer K)) : Prop :=
  Exists (λ e, key_bad e.1 e.2) tr.

Section generic.
  Context {T Q R : Type} (bad : Q → R → Prop) (dec : ∀ q r, Decision (bad q r)).

  Lemma log_outcome {A} (ans : Q → R → Prop) n (p p' : prog T Q R A) tr l l' r Φ Ψ :
    loud bad p nothing → within n p →
    (∀ ans', wp ans' p Φ (λ e m, e = UserPanic ∧ (∃ q r, ans' q r ∧ bad q r) ∧ Ψ m) l) →
    schedule_log ans tr (p, l) (p', l') → result p' = Some r →
    (∃ a, r = inl a ∧ Forall (λ e, ¬ bad e.1 e.2) tr ∧ Φ a l') ∨
    (r = inr UserPanic ∧ Exists (λ e, bad e.1 e.2) tr ∧ Ψ l').
  Proof.
    intros Hl Hw Hwp Hs Hr.
    pose proof (schedule_log_steps ans (λ q r, (q, r) ∈ tr) tr _ _ Hs (λ _ _ H, H)) as Hrtc.
    destruct (wp_steps _ _ _ _ _ _ _ _ Hrtc Hw (Hwp _)) as [_ Hp'].
    destruct p' as [a|e| | | | | |]; try done; injection Hr as <-.
    - left. exists a. split; [done|]. split; [|exact Hp'].
      destruct (decide (Exists (λ e, bad e.1 e.2) tr)) as [Hb|Hb].
      + destruct (loud_log bad ans dec tr _ _ nothing Hs Hl Hb).
      + by apply Forall_Exists_neg.
    - right. destruct Hp' as (-> & (q & r & Hin & Hb) & HΨ). split; [done|]. split; [|done].
      apply Exists_exists. by exists (q, r).
  Qed.
End generic.

Section outcome.
  Context {T A : Type} (n : nat) (p : cmp_prog T A) (l : list T)
    (Φ : A → list T → Prop) (Ψ : list T → Prop).
  Hypothesis p_loud : loud none_bad p nothing.
  Hypothesis p_within : within n p.
  Hypothesis p_wp : ∀ ans', wp ans' p Φ (λ e m, e = UserPanic ∧ (∃ q, ans' q None) ∧ Ψ m) l.

  Lemma log_outcome_less ans p' tr l' r :
    schedule_log ans tr (p, l) (p', l') → result p' = Some r →
    (∃ a, r = inl a ∧ calm tr ∧ Φ a l') ∨ (r = inr UserPanic ∧ some_panic tr ∧ Ψ l').
  Proof.
    intros Hs Hr. eapply (log_outcome none_bad _ ans n p p' tr l l' r Φ Ψ) in Hs; try done.
    intros ans'. eapply wp_mono; [apply p_wp|done|].
    intros e m _ (-> & (q & Hq) & Hm). split; [done|]. split; [|done]. exists q, None. done.
  Qed.
  Lemma log_outcome_compare ans p' tr l' r :
    schedule_log ans tr (by_compare p, l) (p', l') → result p' = Some r →
    (∃ a, r = inl a ∧ calm tr ∧ Φ a l') ∨ (r = inr UserPanic ∧ some_panic tr ∧ Ψ l').
  Proof.
    intros Hs Hr. eapply (log_outcome none_bad _ ans n (by_compare p) p' tr l l' r Φ Ψ) in Hs; try done.
    - by apply loud_by_compare.
    - by apply within_by_compare.
    - intros ans'. apply wp_by_compare. eapply wp_mono; [apply p_wp|done|].
      intros e m _ (-> & Hq & Hm). split; [done|]. split; [|done].
      apply less_ans_none in Hq as [q Hq]. exists q, None. done.
  Qed.
  Lemma log_outcome_key {K} (ans : key_question (T:=T) K → key_answer K → Prop) p' tr l' r :
    schedule_log ans tr (by_key p, l) (p', l') → result p' = Some r →
    (∃ a, r = inl a ∧ key_calm tr ∧ Φ a l') ∨ (r = inr UserPanic ∧ some_key_panic tr ∧ Ψ l').
  Proof.
    intros Hs Hr. eapply (log_outcome key_bad _ ans n (by_key p) p' tr l l' r Φ Ψ) in Hs; try done.
    - by apply loud_by_key.
    - by apply within_by_key.
    - intros ans'. apply wp_by_key. eapply wp_mono; [apply p_wp|done|].
      intros e m _ (-> & (q & Hq) & Hm). split; [done|]. split; [|done].
      destruct Hq as [(?&?&?&?&?&?&?)|(_ & kq & kr & H1 & H2)]; [done|].
      exists kq, kr. split; [done|]. by destruct kq, kr.
  Qed.
End outcome.

Section theorems.
  Context {T : Type} (c : cfg).
  Implicit Types (l : list T).

  Lemma par_sort_unstable_wp_any l ans :
    wp ans (par_quick_sort c (length l)) (λ _ l', Permutation l l')
      (λ e m, e = UserPanic ∧ (∃ q, ans q None) ∧ Permutation l m) l.
  Proof. apply par_quick_sort_any. Qed.
  Lemma par_sort_wp_any take_item l junk ans :
    length junk = length l →
    wp ans (par_merge_sort c take_item (length l)) (λ _ m, Permutation l (take (length l) m))
      (λ e m, e = UserPanic ∧ (∃ q, ans q None) ∧ Permutation l (take (length l) m)) (l ++ junk).
  Proof.
    intros HJ. eapply wp_mono; [by apply par_merge_sort_any|auto|].
    intros e m _ (-> & (a & b & _ & _ & H) & Hp). eauto.
  Qed.
  Lemma par_select_many_wp_any vlen inds l ans :
    dbg c = false → fits c (length l) → valid_indices 0 (length l) inds → length inds ≤ vlen →
    wp ans (par_select_many c (length l) vlen inds)
      (λ r m, r = map Some inds ∧ Permutation l m)
      (λ e m, e = UserPanic ∧ (∃ q, ans q None) ∧ Permutation l m) l.
  Proof.
    intros Hd Hf Hv Hl. eapply wp_mono; [by apply par_select_many_all| |].
    - intros r l' _ (_ & -> & Hp). done.
    - intros e l' _ [Hp [[-> Hq]|[[_ H]|[? _]]]]; [done|congruence|done].
  Qed.
  Lemma par_sort_unstable_log ans l tr p' m r :
    schedule_log ans tr (par_sort_unstable c (length l), l) (p', m) → result p' = Some r →
    Permutation l m ∧ (r = inl tt ∧ calm tr ∨ r = inr UserPanic ∧ some_panic tr).
  Proof. 
    intros Hs Hr.
    eapply (log_outcome_less _ _ _ _ _ (par_quick_sort_loud _ _ _) (within_par_quick_sort _ _) (par_sort_unstable_wp_any l)) in Hs; [|exact Hr].
    destruct Hs as [([] & -> & Hc & Hp)|(-> & Hc & Hp)]; auto.
  Qed.
  Lemma par_sort_unstable_by_log ans l tr p' m r :
    schedule_log ans tr (par_sort_unstable_by c (length l), l) (p', m) → result p' = Some r →
    Permutation l m ∧ (r = inl tt ∧ calm tr ∨ r = inr UserPanic ∧ some_panic tr).
  Proof. 
    intros Hs Hr.
    eapply (log_outcome_compare _ _ _ _ _ (par_quick_sort_loud _ _ _) (within_par_quick_sort _ _) (par_sort_unstable_wp_any l)) in Hs; [|exact Hr].
    destruct Hs as [([] & -> & Hc & Hp)|(-> & Hc & Hp)]; auto.
  Qed.
  Lemma par_sort_unstable_by_key_log {K} (ans : key_question (T:=T) K → key_answer K → Prop) l tr p' m r :
    schedule_log ans tr (par_sort_unstable_by_key c (length l), l) (p', m) → result p' = Some r →
    Permutation l m ∧ (r = inl tt ∧ key_calm tr ∨ r = inr UserPanic ∧ some_key_panic tr).
  Proof. 
    intros Hs Hr.
    eapply (log_outcome_key _ _ _ _ _ (par_quick_sort_loud _ _ _) (within_par_quick_sort _ _) (par_sort_unstable_wp_any l)) in Hs; [|exact Hr].
    destruct Hs as [([] & -> & Hc & Hp)|(-> & Hc & Hp)]; auto.
  Qed.
  Lemma par_sort_log ans take_item l junk tr p' m r :
    length junk = length l → schedule_log ans tr (par_sort c take_item (length l), l ++ junk) (p', m) → result p' = Some r →
    Permutation l (take (length l) m) ∧ (r = inl tt ∧ calm tr ∨ r = inr UserPanic ∧ some_panic tr).
  Proof. 
    intros HJ Hs Hr.
    eapply (log_outcome_less _ _ _ _ _ (par_merge_sort_loud _ _ _ _) (within_par_merge_sort _ _ _) (λ ans0, par_sort_wp_any take_item l junk ans0 HJ)) in Hs; [|exact Hr].
    destruct Hs as [([] & -> & Hc & Hp)|(-> & Hc & Hp)]; auto.
  Qed.
  Lemma par_sort_by_log ans take_item l junk tr p' m r :
    length junk = length l → schedule_log ans tr (par_sort_by c take_item (length l), l ++ junk) (p', m) → result p' = Some r →
    Permutation l (take (length l) m) ∧ (r = inl tt ∧ calm tr ∨ r = inr UserPanic ∧ some_panic tr).
  Proof. 
    intros HJ Hs Hr.
    eapply (log_outcome_compare _ _ _ _ _ (par_merge_sort_loud _ _ _ _) (within_par_merge_sort _ _ _) (λ ans0, par_sort_wp_any take_item l junk ans0 HJ)) in Hs; [|exact Hr].
    destruct Hs as [([] & -> & Hc & Hp)|(-> & Hc & Hp)]; auto.
  Qed.
  Lemma par_sort_by_key_log {K} (ans : key_question (T:=T) K → key_answer K → Prop) take_item l junk tr p' m r :
    length junk = length l → schedule_log ans tr (par_sort_by_key c take_item (length l), l ++ junk) (p', m) → result p' = Some r →
    Permutation l (take (length l) m) ∧ (r = inl tt ∧ key_calm tr ∨ r = inr UserPanic ∧ some_key_panic tr).
  Proof. 
    intros HJ Hs Hr.
    eapply (log_outcome_key _ _ _ _ _ (par_merge_sort_loud _ _ _ _) (within_par_merge_sort _ _ _) (λ ans0, par_sort_wp_any take_item l junk ans0 HJ)) in Hs; [|exact Hr].
    destruct Hs as [([] & -> & Hc & Hp)|(-> & Hc & Hp)]; auto.
  Qed.
  Lemma par_select_many_log ans vlen inds l tr p' m r :
    dbg c = false → fits c (length l) → valid_indices 0 (length l) inds → length inds ≤ vlen →
    schedule_log ans tr (par_select_many_nth_unstable c (length l) vlen inds, l) (p', m) → result p' = Some r →
    Permutation l m ∧ (r = inl (map Some inds) ∧ calm tr ∨ r = inr UserPanic ∧ some_panic tr).
  Proof. 
    intros Hd Hf Hv Hl Hs Hr.
    eapply (log_outcome_less _ _ _ _ _ (par_select_many_loud _ _ _ _ _) (within_par_select_many _ _ _ _) (λ ans0, par_select_many_wp_any vlen inds l ans0 Hd Hf Hv Hl)) in Hs; [|exact Hr].
    destruct Hs as [(a & -> & Hc & -> & Hp)|(-> & Hc & Hp)]; auto.
  Qed.
  Lemma par_select_many_by_log ans vlen inds l tr p' m r :
    dbg c = false → fits c (length l) → valid_indices 0 (length l) inds → length inds ≤ vlen →
    schedule_log ans tr (par_select_many_nth_unstable_by c (length l) vlen inds, l) (p', m) → result p' = Some r →
    Permutation l m ∧ (r = inl (map Some inds) ∧ calm tr ∨ r = inr UserPanic ∧ some_panic tr).
  Proof. 
    intros Hd Hf Hv Hl Hs Hr.
    eapply (log_outcome_compare _ _ _ _ _ (par_select_many_loud _ _ _ _ _) (within_par_select_many _ _ _ _) (λ ans0, par_select_many_wp_any vlen inds l ans0 Hd Hf Hv Hl)) in Hs; [|exact Hr].
    destruct Hs as [(a & -> & Hc & -> & Hp)|(-> & Hc & Hp)]; auto.
  Qed.
  Lemma par_select_many_by_key_log {K} (ans : key_question (T:=T) K → key_answer K → Prop) vlen inds l tr p' m r :
    dbg c = false → fits c (length l) → valid_indices 0 (length l) inds → length inds ≤ vlen →
    schedule_log ans tr (par_select_many_nth_unstable_by_key c (length l) vlen inds, l) (p', m) → result p' = Some r →
    Permutation l m ∧ (r = inl (map Some inds) ∧ key_calm tr ∨ r = inr UserPanic ∧ some_key_panic tr).
  Proof. 
    intros Hd Hf Hv Hl Hs Hr.
    eapply (log_outcome_key _ _ _ _ _ (par_select_many_loud _ _ _ _ _) (within_par_select_many _ _ _ _) (λ ans0, par_select_many_wp_any vlen inds l ans0 Hd Hf Hv Hl)) in Hs; [|exact Hr].
    destruct Hs as [(a & -> & Hc & -> & Hp)|(-> & Hc & Hp)]; auto.
  Qed.
End theorems.
