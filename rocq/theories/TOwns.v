(** * TOwns: the functions that work in the array only move its elements and only
    compare its elements. *)
From Verif Require Export Owns TParPanic.
From stdpp Require Import list.

Section whole.
  Context {T : Type} (U : T → Prop).
  Notation P A := (cmp_prog T A).
  Notation own := (owns (Q:=T * T) (R:=option bool) U (both U) any).

  (** [p] works on a view of length [n]; what it returns satisfies [Φ]. *)
  Definition whole {A} (n : nat) (p : P A) (Φ : A → Prop) : Prop :=
    ∀ m : cells, (∀ i, i < n → m i) → own m p (λ a _, Φ a) (λ _, True).

  Lemma whole_owns {A} n (p : P A) Φ (m : cells) :
    whole n p Φ → (∀ i, i < n → m i) → own m p (λ a _, Φ a) (λ _, True).
  Proof. intros H Hm. by apply H. Qed.
  Lemma whole_bind {A B} n (p : P A) (f : A → P B) (Φ : A → Prop) Φ' :
    whole n p Φ → (∀ a, Φ a → whole n (f a) Φ') → whole n (bind p f) Φ'.
  Proof.
    intros Hp Hf m Hm. eapply owns_bind; [by apply Hp|]. intros a m' Hm' Ha. apply Hf; [done|]. auto.
  Qed.
  Lemma whole_mono {A} n (p : P A) (Φ Φ' : A → Prop) :
    whole n p Φ → (∀ a, Φ a → Φ' a) → whole n p Φ'.
  Proof. intros Hp HΦ m Hm. eapply owns_mono; [by apply Hp|auto|auto]. Qed.
  Lemma whole_on_unwind {A} n c (p : P A) Φ :
    whole n p Φ → whole n c (λ _, True) → whole n (on_unwind c p) Φ.
  Proof.
    intros Hp Hc m Hm. eapply owns_on_unwind; [by apply Hp|]. intros m' Hm' _.
    eapply owns_mono; [apply Hc; auto|auto|auto].
  Qed.
  Lemma whole_ret {A} n (a : A) (Φ : A → Prop) : Φ a → whole n (Ret a) Φ.
  Proof. intros Ha m Hm m' Hm'. done. Qed.
  Lemma whole_throw {A} n e (Φ : A → Prop) : whole n (Throw e) Φ.
  Proof. intros m Hm m' Hm'. done. Qed.
  Lemma whole_undef {A} n (Φ : A → Prop) : whole n Undef Φ.
  Proof. done. Qed.
  Lemma whole_nofuel {A} n (Φ : A → Prop) : whole n NoFuel Φ.
  Proof. done. Qed.
  Lemma whole_uget n i : whole n (uget n i) U.
  Proof.
    unfold uget. destruct (Nat.ltb_spec i n); [|done]. intros m Hm x Hx m' Hm'. auto.
  Qed.
  Lemma whole_get n i : whole n (get n i) U.
  Proof.
    unfold get. destruct (Nat.ltb_spec i n); [|apply whole_throw]. intros m Hm x Hx m' Hm'. auto.
  Qed.
  Lemma whole_uput n k i (x : T) : U x → whole n (uput k i x) (λ _, True).
  Proof. unfold uput. destruct (i <? k); [|done]. intros Hx m Hm. by split. Qed.
  Lemma whole_put n k i (x : T) : U x → whole n (put k i x) (λ _, True).
  Proof. unfold put. destruct (i <? k); [|intros _; apply whole_throw]. intros Hx m Hm. by split. Qed.
  Lemma whole_is_less n (a b : T) : U a → U b → whole n (is_less a b) (λ _, True).
  Proof. intros Ha Hb m Hm. split; [done|]. intros [r|] _ m' Hm'; done. Qed.
  Lemma whole_uswap n i j : whole n (uswap n i j) (λ _, True).
  Proof.
    unfold uswap. eapply whole_bind; [apply whole_uget|intros x Hx].
    eapply whole_bind; [apply whole_uget|intros y Hy].
    eapply whole_bind; [by apply whole_uput|intros [] _]. by apply whole_uput.
  Qed.
  Lemma whole_swap n i j : whole n (swap n i j) (λ _, True).
  Proof. unfold swap. destruct (_ && _); [apply whole_uswap|apply whole_throw]. Qed.
  Lemma whole_usub n a b : whole n (usub a b) (λ _, True).
  Proof. unfold usub. destruct (b <=? a); [by apply whole_ret|apply whole_throw]. Qed.
  Lemma whole_nonoverlapping n i j : whole n (nonoverlapping i j) (λ _, True).
  Proof. unfold nonoverlapping. destruct (_ =? _); [apply whole_undef|by apply whole_ret]. Qed.
  Lemma whole_dassert n c b : whole n (dassert c b) (λ _, True).
  Proof. unfold dassert. destruct (_ && _); [apply whole_throw|by apply whole_ret]. Qed.
  Lemma whole_assert n b : whole n (assert b) (λ _, True).
  Proof. unfold assert. destruct b; [by apply whole_ret|apply whole_throw]. Qed.
  Lemma whole_for_up n a cnt (body : nat → P unit) :
    (∀ i, whole n (body i) (λ _, True)) → whole n (for_up a cnt body) (λ _, True).
  Proof.
    intros Hb. revert a. induction cnt as [|cnt IH]; intros a; simpl; [by apply whole_ret|].
    eapply whole_bind; [apply Hb|auto].
  Qed.
  Lemma whole_for_down n a cnt (body : nat → P unit) :
    (∀ i, whole n (body i) (λ _, True)) → whole n (for_down a cnt body) (λ _, True).
  Proof.
    intros Hb. induction cnt as [|cnt IH]; simpl; [by apply whole_ret|].
    eapply whole_bind; [apply Hb|auto].
  Qed.
  Lemma whole_slice {A} n a b (p : nat → P A) Φ :
    (∀ k, whole k (p k) Φ) → whole n (slice n a b p) Φ.
  Proof.
    intros Hp. unfold slice. destruct (Nat.leb_spec a b), (Nat.leb_spec b n); simpl;
      try apply whole_throw.
    intros m Hm. eapply owns_focus; [apply Hp|auto|auto]. intros i Hi. apply Hm. lia.
  Qed.
  Lemma whole_relocate {A} n k f (p : P A) Φ :
    (∀ i, i < k → f i < n) → whole k p Φ → whole n (relocate f p) Φ.
  Proof.
    intros Hf Hp m Hm. eapply owns_relocate; [apply Hp|auto|auto]. intros i Hi. apply Hm. auto.
  Qed.
  Lemma whole_par {A B C} n (p1 : P B) (p2 : P C) (k : B + exn → C + exn → P A) Φ1 Φ2 Φ :
    whole n p1 Φ1 → whole n p2 Φ2 →
    (∀ x y, arm Φ1 x → arm Φ2 y → whole n (k x y) Φ) → whole n (Par p1 p2 k) Φ.
  Proof.
    intros H1 H2 Hk m Hm. simpl. exists (λ a _, Φ1 a), (λ _, True), (λ a _, Φ2 a), (λ _, True).
    split; [by apply H1|]. split; [by apply H2|]. intros x y m' Hm' Hx Hy.
    apply Hk; [by destruct x|by destruct y|auto].
  Qed.
  Lemma whole_rayon_join {B C} n (p1 : P B) (p2 : P C) Φ1 Φ2 :
    whole n p1 Φ1 → whole n p2 Φ2 →
    whole n (rayon_join p1 p2) (λ r, Φ1 r.1 ∧ Φ2 r.2).
  Proof.
    intros H1 H2. eapply whole_par; [exact H1|exact H2|].
    intros [x|e] [y|e'] Hx Hy; try apply whole_throw. by apply whole_ret.
  Qed.
End whole.

Global Opaque owns.

Create HintDb owns.
Global Hint Resolve whole_uget whole_get whole_uput whole_put whole_uswap whole_swap whole_is_less
  whole_usub whole_nonoverlapping whole_dassert whole_assert whole_undef whole_nofuel whole_throw : owns.

Ltac own_step :=
  lazymatch goal with
  | |- @whole ?T ?U ?B ?n (@bind _ _ _ ?A _ ?p ?f) ?Φ =>
      first
        [ constr_eq A T; apply (@whole_bind T U A B n p f U)
        | constr_eq A (list T); apply (@whole_bind T U A B n p f (Forall U))
        | apply (@whole_bind T U A B n p f (λ _, True)) ];
      [|let Ha := fresh in intros ? Ha; cbn beta in Ha;
         try (lazymatch type of Ha with True => clear Ha end)]
  | |- whole _ _ (on_unwind _ _) _ => apply whole_on_unwind
  | |- whole _ _ (Ret _) _ => apply whole_ret; auto
  | |- whole _ _ (slice _ _ _ _) _ => apply whole_slice; intros ?
  | |- whole _ _ (for_up _ _ _) _ => apply whole_for_up; intros ?
  | |- whole _ _ (for_down _ _ _) _ => apply whole_for_down; intros ?
  | |- whole _ _ (put _ _ (if ?b then _ else _)) _ => destruct b
  | |- whole _ _ (match ?x with _ => _ end) _ => destruct x
  | |- whole _ _ (let '(_, _) := ?x in _) _ => destruct x
  | |- whole _ _ _ _ => solve [eauto with owns]
  end.
Ltac own := repeat own_step.

Section functions.
  Context {T : Type} (c : cfg) (U : T → Prop).
  Notation own n p := (whole U n p (λ _, True)).

  Lemma insert_tail_loop_owns n (tmp : T) h : U tmp → own n (insert_tail_loop n tmp h).
  Proof. intros HU. induction h; simpl; own. Qed.
  Hint Resolve insert_tail_loop_owns : owns.
  Lemma insert_tail_owns n : own n (insert_tail c n).
  Proof. unfold insert_tail. own. Qed.
  Hint Resolve insert_tail_owns : owns.
  Lemma insert_head_loop_owns n (tmp : T) i cnt : U tmp → own n (insert_head_loop n tmp i cnt).
  Proof. intros HU. revert i. induction cnt; intros i; simpl; own. Qed.
  Hint Resolve insert_head_loop_owns : owns.
  Lemma insert_head_owns n : own n (insert_head c n).
  Proof. unfold insert_head. own. Qed.
  Hint Resolve insert_head_owns : owns.
  Lemma insertion_sort_shift_left_owns n off : own n (insertion_sort_shift_left c n off).
  Proof. unfold insertion_sort_shift_left. own. Qed.
  Hint Resolve insertion_sort_shift_left_owns : owns.
  Lemma insertion_sort_shift_right_owns n off : own n (insertion_sort_shift_right c n off).
  Proof. unfold insertion_sort_shift_right. own. Qed.
  Hint Resolve insertion_sort_shift_right_owns : owns.
  Lemma find_unsorted_owns fuel n i : own n (find_unsorted fuel n i).
  Proof. revert i. induction fuel; intros i; simpl; own. Qed.
  Hint Resolve find_unsorted_owns : owns.
  Lemma partial_insertion_steps_owns steps n i : own n (partial_insertion_steps c steps n i).
  Proof. revert i. induction steps; intros i; simpl; own. Qed.
  Hint Resolve partial_insertion_steps_owns : owns.
  Lemma partial_insertion_sort_owns n : own n (partial_insertion_sort c n).
  Proof. unfold partial_insertion_sort. own. Qed.
  Hint Resolve partial_insertion_sort_owns : owns.

  Lemma sift_down_owns fuel n node : own n (sift_down fuel n node).
  Proof. revert node. induction fuel; intros node; cbn [sift_down]; own. Qed.
  Hint Resolve sift_down_owns : owns.
  Lemma heap_sort_owns n : own n (heap_sort n).
  Proof. unfold heap_sort. own. Qed.
  Hint Resolve heap_sort_owns : owns.

  Lemma pe_scan_l_owns fuel n (pivot : T) l r : U pivot → own n (pe_scan_l fuel n pivot l r).
  Proof. intros HU. revert l. induction fuel; intros l; simpl; own. Qed.
  Hint Resolve pe_scan_l_owns : owns.
  Lemma pe_scan_r_owns fuel n (pivot : T) l r : U pivot → own n (pe_scan_r fuel n pivot l r).
  Proof. intros HU. revert r. induction fuel; intros r; simpl; own. Qed.
  Hint Resolve pe_scan_r_owns : owns.
  Lemma pe_loop_owns fuel n (pivot : T) l r : U pivot → own n (pe_loop fuel n pivot l r).
  Proof. intros HU. revert l r. induction fuel; intros l r; cbn [pe_loop]; own. Qed.
  Hint Resolve pe_loop_owns : owns.
  Lemma partition_equal_owns n pivot : own n (partition_equal n pivot).
  Proof. unfold partition_equal. own. Qed.
  Hint Resolve partition_equal_owns : owns.
  Lemma trace_l_owns n (pivot : T) elem i cnt acc : U pivot → own n (trace_l n pivot elem i cnt acc).
  Proof. intros HU. revert elem i acc. induction cnt; intros elem i acc; simpl; own. Qed.
  Hint Resolve trace_l_owns : owns.
  Lemma trace_r_owns n (pivot : T) elem i cnt acc : U pivot → own n (trace_r n pivot elem i cnt acc).
  Proof. intros HU. revert elem i acc. induction cnt; intros elem i acc; simpl; own. Qed.
  Hint Resolve trace_r_owns : owns.
  Lemma cycle_owns n l r cnt (tmp : T) ol ls orr rs : U tmp → own n (cycle n l r cnt tmp ol ls orr rs).
  Proof. intros HU. revert ol ls orr rs. induction cnt; intros ol ls orr rs; simpl; own. Qed.
  Hint Resolve cycle_owns : owns.
  Lemma exchange_owns n l r offl offr : own n (exchange n l r offl offr).
  Proof. unfold exchange. own. Qed.
  Hint Resolve exchange_owns : owns.
  Lemma finish_l_owns n l r offs : own n (finish_l n l r offs).
  Proof. revert r. induction offs; intros r; simpl; own. Qed.
  Hint Resolve finish_l_owns : owns.
  Lemma finish_r_owns n l r offs : own n (finish_r n l r offs).
  Proof. revert l. induction offs; intros l; simpl; own. Qed.
  Hint Resolve finish_r_owns : owns.
  Lemma width_owns n l r : own n (width l r).
  Proof. unfold width. own. Qed.
  Hint Resolve width_owns : owns.
  Lemma pib_loop_owns fuel n (pivot : T) l r bl br offl offr :
    U pivot → own n (pib_loop c fuel n pivot l r bl br offl offr).
  Proof.
    intros HU.
    revert l r bl br offl offr. induction fuel; intros l r bl br offl offr; cbn [pib_loop]; own.
  Qed.
  Hint Resolve pib_loop_owns : owns.
  Lemma partition_in_blocks_owns n (pivot : T) : U pivot → own n (partition_in_blocks c n pivot).
  Proof. intros HU. unfold partition_in_blocks. own. Qed.
  Hint Resolve partition_in_blocks_owns : owns.
  Lemma pt_scan_l_owns fuel n (pivot : T) l r : U pivot → own n (pt_scan_l fuel n pivot l r).
  Proof. intros HU. revert l. induction fuel; intros l; simpl; own. Qed.
  Hint Resolve pt_scan_l_owns : owns.
  Lemma pt_scan_r_owns fuel n (pivot : T) l r : U pivot → own n (pt_scan_r fuel n pivot l r).
  Proof. intros HU. revert r. induction fuel; intros r; simpl; own. Qed.
  Hint Resolve pt_scan_r_owns : owns.
  Lemma partition_owns n pivot : own n (MPartition.partition c n pivot).
  Proof. unfold MPartition.partition. own. Qed.
  Hint Resolve partition_owns : owns.
  Lemma reverse_owns n : own n (MPartition.reverse n).
  Proof. unfold MPartition.reverse. own. Qed.
  Hint Resolve reverse_owns : owns.
  Lemma break_loop_owns n pos i cnt seed :
    own n (break_loop c n pos i cnt seed).
  Proof. revert i seed. induction cnt; intros i seed; cbn [break_loop]; own. Qed.
  Hint Resolve break_loop_owns : owns.
  Lemma break_patterns_owns n :
    own n (break_patterns c n).
  Proof. unfold break_patterns. own. Qed.
  Hint Resolve break_patterns_owns : owns.
  Lemma sort2_owns n a b s : own n (sort2 n a b s).
  Proof. unfold sort2. own. Qed.
  Hint Resolve sort2_owns : owns.
  Lemma sort3_owns n a b d s : own n (sort3 n a b d s).
  Proof. unfold sort3. own. Qed.
  Hint Resolve sort3_owns : owns.
  Lemma sort_adjacent_owns n a s : own n (sort_adjacent n a s).
  Proof. unfold sort_adjacent. own. Qed.
  Hint Resolve sort_adjacent_owns : owns.
  Lemma choose_pivot_owns n : own n (choose_pivot n).
  Proof. unfold choose_pivot. own. Qed.
  Hint Resolve choose_pivot_owns : owns.

  Lemma qs_recurse_owns depth fuel n pred limit wb wp :
    from_option U True pred → own n (qs_recurse c depth fuel n pred limit wb wp).
  Proof.
    revert fuel n pred limit wb wp. induction depth as [|depth IHd]; intros fuel n pred limit wb wp HU;
      [apply whole_nofuel|].
    revert n pred limit wb wp HU. induction fuel as [|fuel IHf]; intros n pred limit wb wp HU;
      [apply whole_nofuel|].
    rewrite qs_recurse_unfold. own; first [by apply IHf | by apply IHd].
  Qed.
  Hint Resolve qs_recurse_owns : owns.
  Lemma quick_sort_owns n : own n (quick_sort c n).
  Proof. unfold quick_sort. own. by apply qs_recurse_owns. Qed.
  Hint Resolve quick_sort_owns : owns.

  Lemma max_by_loop_owns n acc i cnt : own n (max_by_loop n acc i cnt).
  Proof. revert acc i. induction cnt; intros acc i; simpl; own. Qed.
  Hint Resolve max_by_loop_owns : owns.
  Lemma min_by_loop_owns n acc i cnt : own n (min_by_loop n acc i cnt).
  Proof. revert acc i. induction cnt; intros acc i; simpl; own. Qed.
  Hint Resolve min_by_loop_owns : owns.
  Lemma max_index_owns n : own n (max_index n).
  Proof. unfold max_index. own. Qed.
  Hint Resolve max_index_owns : owns.
  Lemma min_index_owns n : own n (min_index n).
  Proof. unfold min_index. own. Qed.
  Hint Resolve min_index_owns : owns.
  Lemma median_idx_owns n a b d : own n (median_idx n a b d).
  Proof. unfold median_idx. own. Qed.
  Hint Resolve median_idx_owns : owns.
  Lemma less_at_owns n i j : own n (less_at n i j).
  Proof. unfold less_at. own. Qed.
  Hint Resolve less_at_owns : owns.
  Lemma ninther_owns n a b d0 d e f g h i : own n (ninther n a b d0 d e f g h i).
  Proof. unfold ninther. own. Qed.
  Hint Resolve ninther_owns : owns.
  Lemma ninthers_loop_owns n frac i cnt a b : own n (ninthers_loop n frac i cnt a b).
  Proof. revert i a b. induction cnt; intros i a b; cbn [ninthers_loop]; own. Qed.
  Hint Resolve ninthers_loop_owns : owns.
  Lemma mom_loop_owns rec fuel n k :
    (∀ n k, own n (rec n k)) → own n (mom_loop c rec fuel n k).
  Proof.
    intros Hrec. revert n k. induction fuel as [|fuel IHf]; intros n k; [simpl; own|].
    cbn [mom_loop]. fold (mom_loop c rec). own.
    unfold median_of_ninthers. own.
  Qed.
  Lemma median_of_medians_owns depth n k : own n (median_of_medians c depth n k).
  Proof.
    revert n k. induction depth as [|depth IHd]; intros n k; [simpl; own|].
    rewrite median_of_medians_unfold. own. by apply mom_loop_owns.
  Qed.
  Hint Resolve median_of_medians_owns : owns.
  Lemma pai_loop_owns fuel n index pred limit wb :
    from_option U True pred → own n (pai_loop c fuel n index pred limit wb).
  Proof.
    revert n index pred limit wb. induction fuel as [|fuel IHf]; intros n index pred limit wb HU;
      cbn [pai_loop]; own; by apply IHf.
  Qed.
  Hint Resolve pai_loop_owns : owns.
  Lemma split_at_owns n v i : own n (split_at v i).
  Proof. unfold split_at. own. Qed.
  Hint Resolve split_at_owns : owns.
  Lemma index0_owns n v : own n (index0 v).
  Proof. unfold index0. own. Qed.
  Hint Resolve index0_owns : owns.
  Lemma partition_at_index_owns n index : own n (partition_at_index c n index).
  Proof.
    unfold partition_at_index, partition_at_index_loop. own; by apply pai_loop_owns.
  Qed.
  Hint Resolve partition_at_index_owns : owns.
  Lemma rel_index_owns n p o : own n (rel_index c n p o).
  Proof. unfold rel_index. own. Qed.
  Hint Resolve rel_index_owns : owns.
  Lemma partition_at_indices_owns depth fuel n base offset inds :
    own n (partition_at_indices c depth fuel n base offset inds).
  Proof.
    revert fuel n base offset inds. induction depth as [|depth IHd];
      intros fuel n base offset inds; [apply whole_nofuel|].
    revert n base offset inds. induction fuel as [|fuel IHf]; intros n base offset inds;
      [apply whole_nofuel|].
    destruct inds as [|i0 inds]; [by apply whole_ret|].
    rewrite partition_at_indices_unfold. cbv zeta. own; first [apply IHf | apply IHd].
  Qed.
  Hint Resolve partition_at_indices_owns : owns.
  Lemma select_many_owns n inds : own n (select_many c n inds).
  Proof. unfold select_many. own. Qed.

  Lemma buf_get_owns n buf i : Forall U buf → whole U n (buf_get buf i) U.
  Proof.
    intros HU. unfold buf_get. destruct (buf !! i) eqn:Hi; own. by eapply Forall_lookup_1.
  Qed.
  Hint Resolve buf_get_owns : owns.
  Lemma copy_out_owns cap n base i cnt buf :
    Forall U buf → whole U n (copy_out cap n base i cnt buf) (Forall U).
  Proof.
    revert i buf. induction cnt as [|cnt IH]; intros i buf HU; simpl; own.
    apply IH. apply Forall_app. auto.
  Qed.
  Hint Resolve copy_out_owns : owns.
  Lemma merge_hole_drop_owns n buf s e d : Forall U buf → own n (merge_hole_drop n buf s e d).
  Proof. intros HU. unfold merge_hole_drop. own. Qed.
  Hint Resolve merge_hole_drop_owns : owns.
  Lemma merge_fwd_owns fuel n mid buf l r o : Forall U buf → own n (merge_fwd fuel n mid buf l r o).
  Proof. intros HU. revert l r o. induction fuel; intros l r o; simpl; own. Qed.
  Hint Resolve merge_fwd_owns : owns.
  Lemma merge_bwd_owns fuel n buf l r o : Forall U buf → own n (merge_bwd fuel n buf l r o).
  Proof. intros HU. revert l r o. induction fuel; intros l r o; simpl; own. Qed.
  Hint Resolve merge_bwd_owns : owns.
  Lemma merge_owns cap n mid : own n (MMerge.merge cap n mid).
  Proof. unfold MMerge.merge. own. Qed.
  Hint Resolve merge_owns : owns.
  Lemma streak_loop_owns want fuel n e : own n (streak_loop want fuel n e).
  Proof. revert e. induction fuel; intros e; simpl; own. Qed.
  Hint Resolve streak_loop_owns : owns.
  Lemma find_streak_owns n : own n (find_streak n).
  Proof. unfold find_streak. own. Qed.
  Hint Resolve find_streak_owns : owns.
  Lemma provide_sorted_batch_owns n s e : own n (provide_sorted_batch c n s e).
  Proof. unfold provide_sorted_batch. own. Qed.
  Hint Resolve provide_sorted_batch_owns : owns.
  Lemma run_get_owns n runs r : own n (run_get runs r).
  Proof. unfold run_get. own. Qed.
  Hint Resolve run_get_owns : owns.
  Lemma collapse_loop_owns fuel cap n runs : own n (collapse_loop fuel cap n runs).
  Proof. revert runs. induction fuel; intros runs; cbn [collapse_loop]; own. Qed.
  Hint Resolve collapse_loop_owns : owns.
  Lemma merge_sort_loop_owns fuel cap n s e runs : own n (merge_sort_loop c fuel cap n s e runs).
  Proof. revert s e runs. induction fuel; intros s e runs; cbn [merge_sort_loop]; own. Qed.
  Hint Resolve merge_sort_loop_owns : owns.
  Lemma stable_sort_owns n : own n (stable_sort c n).
  Proof. unfold stable_sort, merge_sort. own. Qed.
End functions.
