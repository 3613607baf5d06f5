(** * TAlike: the sequential functions do the same on related elements. *)
From stdpp Require Import list.
From Verif Require Export Alike MApi MSearch MDedup MCached.

Create HintDb alike.

Lemma alike_ret {T U Q Q' X X' A A'} (R : T → U → Prop) (RQ : Q → Q' → Prop) (RX : X → X' → Prop)
    (RA : A → A' → Prop) a a' : RA a a' → alike R RQ RX RA (Ret a) (Ret a').
Proof. done. Qed.
Lemma alike_throw {T U Q Q' X X' A A'} (R : T → U → Prop) (RQ : Q → Q' → Prop) (RX : X → X' → Prop)
    (RA : A → A' → Prop) e : alike R RQ RX RA (Throw e) (Throw e).
Proof. done. Qed.
Lemma alike_undef {T U Q Q' X X' A A'} (R : T → U → Prop) (RQ : Q → Q' → Prop) (RX : X → X' → Prop)
    (RA : A → A' → Prop) : alike R RQ RX RA Undef Undef.
Proof. done. Qed.
Lemma alike_nofuel {T U Q Q' X X' A A'} (R : T → U → Prop) (RQ : Q → Q' → Prop) (RX : X → X' → Prop)
    (RA : A → A' → Prop) : alike R RQ RX RA NoFuel NoFuel.
Proof. done. Qed.
Lemma alike_ask {T U Q Q' X X' A A'} (R : T → U → Prop) (RQ : Q → Q' → Prop) (RX : X → X' → Prop)
    (RA : A → A' → Prop) q q' k k' :
  RQ q q' → (∀ r r', RX r r' → alike R RQ RX RA (k r) (k' r')) → alike R RQ RX RA (Ask q k) (Ask q' k').
Proof. done. Qed.

(** Decompose both programs in parallel. *)
Ltac alike_bind :=
  lazymatch goal with
  | |- alike ?R _ _ _ (@bind _ _ _ ?A _ _ _) (@bind _ _ _ ?A' _ _ _) =>
      first [ unify A A'; eapply (alike_bind _ _ _ (@eq A)); [|intros ? ? <-]
            | eapply (alike_bind _ _ _ R); [|intros]
            | eapply (alike_bind _ _ _ (Forall2 R)); [|intros]]
  end.
Ltac alike_loop := fail.
Ltac alike_go :=
  repeat first
    [ progress intros
    | progress cbn beta iota zeta
    | done
    | apply alike_throw | apply alike_undef | apply alike_nofuel
    | solve [eauto 3 with alike]
    | (apply alike_ret; solve [done | eauto with alike])
    | alike_bind
    | (eapply alike_on_unwind)
    | lazymatch goal with
      | |- alike _ _ _ _ (if ?b then _ else _) (if ?b then _ else _) => destruct b
      | |- alike _ _ _ _ (match ?x with _ => _ end) (match ?x with _ => _ end) => destruct x
      end
    | apply alike_focus | apply alike_relocate
    | alike_loop ].

Section ops.
  Context {T U Q Q' X X' : Type} (R : T → U → Prop) (RQ : Q → Q' → Prop) (RX : X → X' → Prop).
  Notation like := (alike R RQ RX).

  Lemma uget_alike n i : like R (uget n i) (uget n i).
  Proof. unfold uget. destruct (i <? n); [|done]. split; done. Qed.
  Lemma get_alike n i : like R (get n i) (get n i).
  Proof. unfold get. destruct (i <? n); [|done]. split; done. Qed.
  Lemma uput_alike n i x x' : R x x' → like eq (uput n i x) (uput n i x').
  Proof. unfold uput. destruct (i <? n); [|done]. intros Hx. split; done. Qed.
  Lemma put_alike n i x x' : R x x' → like eq (put n i x) (put n i x').
  Proof. unfold put. destruct (i <? n); [|done]. intros Hx. split; done. Qed.
  Hint Resolve uget_alike get_alike uput_alike put_alike : alike.
  Lemma uswap_alike n i j : like eq (uswap n i j) (uswap n i j).
  Proof. unfold uswap. alike_go. Qed.
  Hint Resolve uswap_alike : alike.
  Lemma swap_alike n i j : like eq (swap n i j) (swap n i j).
  Proof. unfold swap. alike_go. Qed.
  Lemma usub_alike a b : like eq (usub a b) (usub a b).
  Proof. unfold usub. alike_go. Qed.
  Lemma nonoverlapping_alike i j : like eq (nonoverlapping i j) (nonoverlapping i j).
  Proof. unfold nonoverlapping. alike_go. Qed.
  Lemma dassert_alike c b : like eq (dassert c b) (dassert c b).
  Proof. unfold dassert. alike_go. Qed.
  Lemma assert_alike b : like eq (assert b) (assert b).
  Proof. unfold assert. alike_go. Qed.
  Lemma slice_alike {A A'} (RA : A → A' → Prop) n a b p p' :
    (∀ m, like RA (p m) (p' m)) → like RA (slice n a b p) (slice n a b p').
  Proof. intros H. unfold slice. alike_go. Qed.
  Lemma for_up_alike a cnt p p' : (∀ i, like eq (p i) (p' i)) → like eq (for_up a cnt p) (for_up a cnt p').
  Proof. intros H. revert a. induction cnt; intros; simpl; alike_go. Qed.
  Lemma for_down_alike a cnt p p' : (∀ i, like eq (p i) (p' i)) → like eq (for_down a cnt p) (for_down a cnt p').
  Proof. intros H. induction cnt; intros; simpl; alike_go. Qed.
  Hint Resolve swap_alike usub_alike nonoverlapping_alike dassert_alike assert_alike : alike.
  Lemma reverse_alike n : like eq (MPartition.reverse n) (MPartition.reverse n).
  Proof. unfold MPartition.reverse. apply for_up_alike. alike_go. Qed.
  Lemma break_loop_alike c n pos i cnt seed : like eq (break_loop c n pos i cnt seed) (break_loop c n pos i cnt seed).
  Proof. revert i seed. induction cnt; intros; simpl; alike_go. Qed.
  Hint Resolve break_loop_alike : alike.
  Lemma break_patterns_alike c n : like eq (break_patterns c n) (break_patterns c n).
  Proof. unfold break_patterns. alike_go. Qed.
End ops.
Global Hint Resolve uget_alike get_alike uput_alike put_alike uswap_alike swap_alike usub_alike nonoverlapping_alike dassert_alike
  assert_alike slice_alike for_up_alike for_down_alike reverse_alike break_patterns_alike : alike.

Ltac alike_loop ::= first [ apply slice_alike | apply for_up_alike | apply for_down_alike ].

(** The loop of [median_of_medians]. *)
Definition medians_loop {T} (c : cfg) (rec : nat → nat → cmp_prog T unit) : nat → nat → nat → cmp_prog T unit :=
  fix loop (fuel n k : nat) : cmp_prog T unit :=
    match fuel with
    | 0 => NoFuel
    | S f =>
        if n <=? SEL_MAX_INSERTION then
          if 1 <? n then insertion_sort_shift_left c n 1 else Ret tt
        else if k =? n - 1 then
          bind (max_index n) (λ m, swap n m k)
        else if k =? 0 then
          bind (min_index n) (λ m, swap n m k)
        else
          bind (median_of_ninthers c rec n) (λ p,
          match Nat.compare p k with
          | Eq => Ret tt
          | Gt => slice n 0 p (λ m, loop f m k)
          | Lt =>
              bind (usub k (p + 1)) (λ k',
              slice n (p + 1) n (λ m, loop f m k'))
          end)
    end.
Lemma medians_unfold {T} c d n k :
  median_of_medians (T:=T) c (S d) n k =
    bind (dassert c (k <? n)) (λ _, bind (dassert c (negb (zst c))) (λ _,
      medians_loop c (median_of_medians c d) (S n) n k)).
Proof. reflexivity. Qed.

Section seq.
  Context {T U : Type} (R : T → U → Prop) (c : cfg).
  Notation like := (alike R (pair_alike R R) (@eq (option bool))).

  Lemma is_less_alike a b a' b' : R a a' → R b b' → like eq (is_less a b) (is_less a' b').
  Proof. intros. unfold is_less. apply alike_ask; [done|]. intros [] ? <-; alike_go. Qed.
  Hint Resolve is_less_alike : alike.

  Lemma insert_tail_loop_alike n x x' h :
    R x x' → like eq (insert_tail_loop n x h) (insert_tail_loop n x' h).
  Proof. intros Hx. induction h; simpl; alike_go. Qed.
  Hint Resolve insert_tail_loop_alike : alike.
  Lemma insert_tail_alike n : like eq (insert_tail c n) (insert_tail c n).
  Proof. unfold insert_tail. alike_go. Qed.
  Lemma insert_head_loop_alike n x x' i cnt :
    R x x' → like eq (insert_head_loop n x i cnt) (insert_head_loop n x' i cnt).
  Proof. intros Hx. revert i. induction cnt; intros; simpl; alike_go. Qed.
  Hint Resolve insert_tail_alike insert_head_loop_alike : alike.
  Lemma insert_head_alike n : like eq (insert_head c n) (insert_head c n).
  Proof. unfold insert_head. alike_go. Qed.
  Hint Resolve insert_head_alike : alike.
  Lemma insertion_sort_shift_left_alike n off :
    like eq (insertion_sort_shift_left c n off) (insertion_sort_shift_left c n off).
  Proof. unfold insertion_sort_shift_left. alike_go. Qed.
  Lemma insertion_sort_shift_right_alike n off :
    like eq (insertion_sort_shift_right c n off) (insertion_sort_shift_right c n off).
  Proof. unfold insertion_sort_shift_right. alike_go. Qed.
  Lemma find_unsorted_alike fuel n i : like eq (find_unsorted fuel n i) (find_unsorted fuel n i).
  Proof. revert i. induction fuel; intros; simpl; alike_go. Qed.
  Hint Resolve insertion_sort_shift_left_alike insertion_sort_shift_right_alike find_unsorted_alike : alike.
  Lemma partial_insertion_steps_alike st n i :
    like eq (partial_insertion_steps c st n i) (partial_insertion_steps c st n i).
  Proof. revert i. induction st; intros; simpl; alike_go. Qed.
  Hint Resolve partial_insertion_steps_alike : alike.
  Lemma partial_insertion_sort_alike n : like eq (partial_insertion_sort c n) (partial_insertion_sort c n).
  Proof. unfold partial_insertion_sort. alike_go. Qed.

  Lemma sift_down_alike fuel n i : like eq (sift_down fuel n i) (sift_down fuel n i).
  Proof. revert n i. induction fuel; intros; simpl; alike_go. Qed.
  Hint Resolve partial_insertion_sort_alike sift_down_alike : alike.
  Lemma heap_sort_alike n : like eq (heap_sort n) (heap_sort n).
  Proof. unfold heap_sort. alike_go. Qed.

  Lemma pe_scan_l_alike fuel n x x' l r :
    R x x' → like eq (pe_scan_l fuel n x l r) (pe_scan_l fuel n x' l r).
  Proof. intros Hx. revert l r. induction fuel; intros; simpl; alike_go. Qed.
  Lemma pe_scan_r_alike fuel n x x' l r :
    R x x' → like eq (pe_scan_r fuel n x l r) (pe_scan_r fuel n x' l r).
  Proof. intros Hx. revert l r. induction fuel; intros; simpl; alike_go. Qed.
  Hint Resolve pe_scan_l_alike pe_scan_r_alike : alike.
  Lemma pe_loop_alike fuel n x x' l r :
    R x x' → like eq (pe_loop fuel n x l r) (pe_loop fuel n x' l r).
  Proof. intros Hx. revert l r. induction fuel; intros; simpl; alike_go. Qed.
  Hint Resolve pe_loop_alike : alike.
  Lemma partition_equal_alike n p : like eq (partition_equal n p) (partition_equal n p).
  Proof. unfold partition_equal. alike_go. Qed.
  Lemma trace_l_alike n x x' e i cnt acc :
    R x x' → like eq (trace_l n x e i cnt acc) (trace_l n x' e i cnt acc).
  Proof. intros Hx. revert e i acc. induction cnt; intros; simpl; alike_go. Qed.
  Lemma trace_r_alike n x x' e i cnt acc :
    R x x' → like eq (trace_r n x e i cnt acc) (trace_r n x' e i cnt acc).
  Proof. intros Hx. revert e i acc. induction cnt; intros; simpl; alike_go. Qed.
  Lemma cycle_alike n l r cnt x x' ol ls orr rs :
    R x x' → like eq (cycle n l r cnt x ol ls orr rs) (cycle n l r cnt x' ol ls orr rs).
  Proof. intros Hx. revert ol ls orr rs. induction cnt; intros; simpl; alike_go. Qed.
  Hint Resolve trace_l_alike trace_r_alike cycle_alike : alike.
  Lemma exchange_alike n l r offl offr : like eq (exchange n l r offl offr) (exchange n l r offl offr).
  Proof. unfold exchange. alike_go. Qed.
  Lemma finish_l_alike n l r offs : like eq (finish_l n l r offs) (finish_l n l r offs).
  Proof. revert r. induction offs; intros; simpl; alike_go. Qed.
  Lemma finish_r_alike n l r offs : like eq (finish_r n l r offs) (finish_r n l r offs).
  Proof. revert l. induction offs; intros; simpl; alike_go. Qed.
  Lemma width_alike l r : like eq (width l r) (width l r).
  Proof. unfold width. alike_go. Qed.
  Hint Resolve exchange_alike finish_l_alike finish_r_alike width_alike : alike.
  Lemma pib_loop_alike fuel n x x' l r bl br offl offr :
    R x x' → like eq (pib_loop c fuel n x l r bl br offl offr) (pib_loop c fuel n x' l r bl br offl offr).
  Proof. intros Hx. revert l r bl br offl offr. induction fuel; intros; simpl; alike_go. Qed.
  Hint Resolve pib_loop_alike : alike.
  Lemma partition_in_blocks_alike n x x' :
    R x x' → like eq (partition_in_blocks c n x) (partition_in_blocks c n x').
  Proof. unfold partition_in_blocks. alike_go. Qed.
  Lemma pt_scan_l_alike fuel n x x' l r :
    R x x' → like eq (pt_scan_l fuel n x l r) (pt_scan_l fuel n x' l r).
  Proof. intros Hx. revert l r. induction fuel; intros; simpl; alike_go. Qed.
  Lemma pt_scan_r_alike fuel n x x' l r :
    R x x' → like eq (pt_scan_r fuel n x l r) (pt_scan_r fuel n x' l r).
  Proof. intros Hx. revert l r. induction fuel; intros; simpl; alike_go. Qed.
  Hint Resolve partition_in_blocks_alike pt_scan_l_alike pt_scan_r_alike : alike.
  Lemma partition_alike n p : like eq (MPartition.partition c n p) (MPartition.partition c n p).
  Proof. unfold MPartition.partition. alike_go. Qed.
  Lemma sort2_alike n a b s : like eq (sort2 n a b s) (sort2 n a b s).
  Proof. unfold sort2. alike_go. Qed.
  Hint Resolve sort2_alike : alike.
  Lemma sort3_alike n a b d s : like eq (sort3 n a b d s) (sort3 n a b d s).
  Proof. unfold sort3. alike_go. Qed.
  Hint Resolve sort3_alike : alike.
  Lemma sort_adjacent_alike n a s : like eq (sort_adjacent n a s) (sort_adjacent n a s).
  Proof. unfold sort_adjacent. alike_go. Qed.
  Hint Resolve sort_adjacent_alike : alike.
  Lemma choose_pivot_alike n : like eq (choose_pivot n) (choose_pivot n).
  Proof. unfold choose_pivot. alike_go. Qed.
  Hint Resolve heap_sort_alike partition_equal_alike partition_alike choose_pivot_alike : alike.

  (** The value of the predecessor, if any. *)
  Lemma pred_alike n pivot (pred : option T) pred' :
    option_Forall2 R pred pred' →
    like eq (match pred with
             | Some p => x ← get n pivot; r ← is_less p x; Ret (negb r)
             | None => Ret false
             end)
            (match pred' with
             | Some p => x ← get n pivot; r ← is_less p x; Ret (negb r)
             | None => Ret false
             end).
  Proof. intros []; alike_go. Qed.
  Hint Resolve pred_alike : alike.
  Hint Constructors option_Forall2 : alike.

  Lemma qs_recurse_alike depth fuel n pred pred' limit wb wp :
    option_Forall2 R pred pred' →
    like eq (qs_recurse c depth fuel n pred limit wb wp) (qs_recurse c depth fuel n pred' limit wb wp).
  Proof.
    revert fuel n pred pred' limit wb wp. induction depth as [|d IHd]; [done|].
    induction fuel as [|f IHf]; intros n pred pred' limit wb wp Hp; simpl; alike_go.
  Qed.
  Hint Resolve qs_recurse_alike : alike.
  Lemma quick_sort_alike n : like eq (quick_sort c n) (quick_sort c n).
  Proof. unfold quick_sort. alike_go. Qed.

  Lemma max_by_loop_alike n acc i cnt : like eq (max_by_loop n acc i cnt) (max_by_loop n acc i cnt).
  Proof. revert acc i. induction cnt; intros; simpl; alike_go. Qed.
  Lemma min_by_loop_alike n acc i cnt : like eq (min_by_loop n acc i cnt) (min_by_loop n acc i cnt).
  Proof. revert acc i. induction cnt; intros; simpl; alike_go. Qed.
  Hint Resolve max_by_loop_alike min_by_loop_alike : alike.
  Lemma max_index_alike n : like eq (max_index n) (max_index n).
  Proof. unfold max_index. alike_go. Qed.
  Lemma min_index_alike n : like eq (min_index n) (min_index n).
  Proof. unfold min_index. alike_go. Qed.
  Lemma median_idx_alike n a b d : like eq (median_idx n a b d) (median_idx n a b d).
  Proof. unfold median_idx. alike_go. Qed.
  Lemma less_at_alike n i j : like eq (less_at n i j) (less_at n i j).
  Proof. unfold less_at. alike_go. Qed.
  Hint Resolve max_index_alike min_index_alike median_idx_alike less_at_alike : alike.
  Lemma ninther_alike n a b d0 d e f g h i : like eq (ninther n a b d0 d e f g h i) (ninther n a b d0 d e f g h i).
  Proof. unfold ninther. alike_go. Qed.
  Hint Resolve ninther_alike : alike.
  Lemma ninthers_loop_alike n frac i cnt a b :
    like eq (ninthers_loop n frac i cnt a b) (ninthers_loop n frac i cnt a b).
  Proof. revert i a b. induction cnt; intros; simpl; alike_go. Qed.
  Hint Resolve ninthers_loop_alike : alike.
  Lemma median_of_ninthers_alike rec rec' n :
    (∀ m k, like eq (rec m k) (rec' m k)) →
    like eq (median_of_ninthers c rec n) (median_of_ninthers c rec' n).
  Proof. intros H. unfold median_of_ninthers. alike_go. Qed.
  Hint Resolve median_of_ninthers_alike : alike.
  Lemma medians_loop_alike rec rec' fuel n k :
    (∀ m k, like eq (rec m k) (rec' m k)) → like eq (medians_loop c rec fuel n k) (medians_loop c rec' fuel n k).
  Proof. intros H. revert n k. induction fuel; intros; simpl; alike_go. Qed.
  Hint Resolve medians_loop_alike : alike.
  Lemma median_of_medians_alike depth n k :
    like eq (median_of_medians c depth n k) (median_of_medians c depth n k).
  Proof.
    revert n k. induction depth as [|d IHd]; intros n k; [simpl; alike_go|].
    rewrite !medians_unfold. alike_go.
  Qed.
  Hint Resolve median_of_medians_alike : alike.
  Lemma pai_loop_alike fuel n index pred pred' limit wb :
    option_Forall2 R pred pred' →
    like eq (pai_loop c fuel n index pred limit wb) (pai_loop c fuel n index pred' limit wb).
  Proof.
    revert n index pred pred' limit wb.
    induction fuel as [|f IHf]; intros n index pred pred' limit wb Hp; simpl; alike_go.
  Qed.
  Hint Resolve pai_loop_alike : alike.
  Lemma partition_at_index_loop_alike n index pred pred' :
    option_Forall2 R pred pred' →
    like eq (partition_at_index_loop c n index pred) (partition_at_index_loop c n index pred').
  Proof. unfold partition_at_index_loop. alike_go. Qed.
  Lemma split_at_alike v i : like eq (split_at v i) (split_at v i).
  Proof. unfold split_at. alike_go. Qed.
  Lemma index0_alike v : like eq (index0 v) (index0 v).
  Proof. unfold index0. alike_go. Qed.
  Hint Resolve partition_at_index_loop_alike split_at_alike index0_alike : alike.
  Lemma partition_at_index_alike n i : like eq (partition_at_index c n i) (partition_at_index c n i).
  Proof. unfold partition_at_index. alike_go. Qed.
  Lemma rel_index_alike n p off : like eq (rel_index c n p off) (rel_index c n p off).
  Proof. unfold rel_index. alike_go. Qed.
  Hint Resolve partition_at_index_alike rel_index_alike : alike.
  Lemma partition_at_indices_alike depth fuel n base off inds :
    like eq (partition_at_indices c depth fuel n base off inds) (partition_at_indices c depth fuel n base off inds).
  Proof.
    revert fuel n base off inds. induction depth as [|d IHd]; [done|].
    induction fuel as [|f IHf]; intros n base off inds; simpl; alike_go.
  Qed.
  Hint Resolve partition_at_indices_alike : alike.
  Lemma select_many_alike n inds : like eq (select_many c n inds) (select_many c n inds).
  Proof. unfold select_many. alike_go. Qed.

  Lemma buf_get_alike buf buf' i : Forall2 R buf buf' → like R (buf_get buf i) (buf_get buf' i).
  Proof.
    intros H. unfold buf_get. pose proof (proj1 (Forall2_lookup R buf buf') H i) as Hi.
    inversion Hi; alike_go.
  Qed.
  Hint Resolve buf_get_alike : alike.
  Lemma snoc_alike l l' x x' : Forall2 R l l' → R x x' → Forall2 R (l ++ [x]) (l' ++ [x']).
  Proof. intros. apply Forall2_app; [done|]. auto. Qed.
  Lemma if_alike (b : bool) x x' y y' : R x x' → R y y' → R (if b then x else y) (if b then x' else y').
  Proof. by destruct b. Qed.
  Hint Resolve snoc_alike if_alike : alike.
  Lemma copy_out_alike cap n base i cnt buf buf' :
    Forall2 R buf buf' → like (Forall2 R) (copy_out cap n base i cnt buf) (copy_out cap n base i cnt buf').
  Proof. revert i buf buf'. induction cnt; intros; simpl; alike_go. Qed.
  Lemma merge_hole_drop_alike n buf buf' s e d :
    Forall2 R buf buf' → like eq (merge_hole_drop n buf s e d) (merge_hole_drop n buf' s e d).
  Proof. intros H. unfold merge_hole_drop. alike_go. Qed.
  Hint Resolve copy_out_alike merge_hole_drop_alike : alike.
  Lemma merge_fwd_alike fuel n mid buf buf' l r o :
    Forall2 R buf buf' → like eq (merge_fwd fuel n mid buf l r o) (merge_fwd fuel n mid buf' l r o).
  Proof. intros H. revert l r o. induction fuel; intros; simpl; alike_go. Qed.
  Lemma merge_bwd_alike fuel n buf buf' l r o :
    Forall2 R buf buf' → like eq (merge_bwd fuel n buf l r o) (merge_bwd fuel n buf' l r o).
  Proof. intros H. revert l r o. induction fuel; intros; simpl; alike_go. Qed.
  Hint Resolve merge_fwd_alike merge_bwd_alike : alike.
  Lemma merge_alike cap n mid : like eq (MMerge.merge cap n mid) (MMerge.merge cap n mid).
  Proof. unfold MMerge.merge. alike_go. Qed.
  Lemma streak_loop_alike want fuel n e : like eq (streak_loop want fuel n e) (streak_loop want fuel n e).
  Proof. revert e. induction fuel; intros; simpl; alike_go. Qed.
  Hint Resolve merge_alike streak_loop_alike : alike.
  Lemma find_streak_alike n : like eq (find_streak n) (find_streak n).
  Proof. unfold find_streak. alike_go. Qed.
  Lemma provide_sorted_batch_alike n s e : like eq (provide_sorted_batch c n s e) (provide_sorted_batch c n s e).
  Proof. unfold provide_sorted_batch. alike_go. Qed.
  Lemma run_get_alike runs r : like eq (run_get runs r) (run_get runs r).
  Proof. unfold run_get. alike_go. Qed.
  Hint Resolve find_streak_alike provide_sorted_batch_alike run_get_alike : alike.
  Lemma collapse_loop_alike fuel cap n runs : like eq (collapse_loop fuel cap n runs) (collapse_loop fuel cap n runs).
  Proof. revert runs. induction fuel; intros; simpl; alike_go. Qed.
  Hint Resolve collapse_loop_alike : alike.
  Lemma merge_sort_loop_alike fuel cap n s e runs :
    like eq (merge_sort_loop c fuel cap n s e runs) (merge_sort_loop c fuel cap n s e runs).
  Proof. revert s e runs. induction fuel; intros; simpl; alike_go. Qed.
  Hint Resolve merge_sort_loop_alike : alike.
  Lemma merge_sort_alike n : like eq (merge_sort c n) (merge_sort c n).
  Proof. unfold merge_sort. alike_go. Qed.
  Hint Resolve merge_sort_alike : alike.
  Lemma stable_sort_alike n : like eq (stable_sort c n) (stable_sort c n).
  Proof. unfold stable_sort. alike_go. Qed.
End seq.
Global Hint Resolve is_less_alike insertion_sort_shift_left_alike heap_sort_alike partial_insertion_sort_alike
  partition_equal_alike partition_alike choose_pivot_alike pred_alike partition_at_index_alike rel_index_alike
  run_get_alike quick_sort_alike stable_sort_alike select_many_alike : alike.
Global Hint Constructors option_Forall2 : alike.

(** ** The wrappers. *)
Section wrappers.
  Context {T U : Type} (R : T → U → Prop).

  Lemma by_compare_alike {A A'} (RA : A → A' → Prop) (p : cmp_prog T A) (p' : cmp_prog U A') :
    alike R (pair_alike R R) eq RA p p' →
    alike R (pair_alike R R) eq RA (by_compare p) (by_compare p').
  Proof.
    apply alike_with_asks. intros q q' Hq. apply alike_ask; [done|]. intros r ? <-. by apply alike_ret.
  Qed.
  Lemma by_key_alike {K L} (RK : K → L → Prop) {A A'} (RA : A → A' → Prop) (p : cmp_prog T A) (p' : cmp_prog U A') :
    alike R (pair_alike R R) eq RA p p' →
    alike R (key_questions_alike R RK) (key_answers_alike RK) RA (by_key p) (by_key p').
  Proof.
    apply alike_with_asks. intros [a b] [a' b'] [Ha Hb]. simpl in *.
    apply alike_ask; [done|]. intros [ka| |] [ka'| |] Hka; simpl in Hka; try done; try by apply alike_ret.
    apply alike_ask; [done|]. intros [kb| |] [kb'| |] Hkb; simpl in Hkb; try done; try by apply alike_ret.
    apply alike_ask; [done|]. intros [v|v|] [v'|v'|] Hv; simpl in Hv; try done; try by apply alike_ret.
    subst. by apply alike_ret.
  Qed.
End wrappers.

(** ** The read-only methods. *)
Section search.
  Context {T U : Type} (R : T → U → Prop) (c : cfg).

  Lemma binary_search_loop_alike fuel n size l r :
    alike R R (@eq (option comparison)) eq (binary_search_loop c fuel n size l r) (binary_search_loop c fuel n size l r).
  Proof.
    revert size l r. induction fuel as [|f IH]; intros size l r; simpl; [by apply alike_nofuel|].
    destruct (l <? r); [|alike_go]. alike_bind; [alike_go|]. apply alike_ask; [done|].
    intros [[]|] ? <-; alike_go.
  Qed.
  Lemma binary_search_by_alike n : alike R R (@eq (option comparison)) eq (binary_search_by c n) (binary_search_by c n).
  Proof. apply binary_search_loop_alike. Qed.
  Lemma binary_search_alike n x x' :
    R x x' → alike R (pair_alike R R) (@eq (option comparison)) eq (binary_search c n x) (binary_search c n x').
  Proof.
    intros Hx. eapply alike_with_asks, binary_search_by_alike. intros q q' Hq.
    apply alike_ask; [done|]. intros r ? <-. by apply alike_ret.
  Qed.
  Lemma binary_search_by_key_alike {K L} (RK : K → L → Prop) n b b' :
    RK b b' →
    alike R (keyc_questions_alike R RK) (keyc_answers_alike RK) eq
      (binary_search_by_key c n b) (binary_search_by_key c n b').
  Proof.
    intros Hb. eapply alike_with_asks, binary_search_by_alike. intros q q' Hq.
    apply alike_ask; [done|]. intros [k| |] [k'| |] Hk; simpl in Hk; try done; try by apply alike_ret.
    apply alike_ask; [done|]. intros [v|v|] [v'|v'|] Hv; simpl in Hv; try done; try by apply alike_ret.
    subst. by apply alike_ret.
  Qed.
  Lemma partition_point_alike n : alike R R (@eq (option bool)) eq (partition_point c n) (partition_point c n).
  Proof.
    unfold partition_point. alike_bind; [|alike_go].
    eapply alike_with_asks, binary_search_by_alike. intros q q' Hq.
    apply alike_ask; [done|]. intros r ? <-. by apply alike_ret.
  Qed.
  Lemma contains_alike n x x' :
    R x x' → alike R (pair_alike R R) (@eq (option bool)) eq (contains n x) (contains n x').
  Proof.
    intros Hx. unfold contains. generalize n at 2 4 as cnt. intros cnt. generalize 0 as i.
    induction cnt; intros; simpl; alike_go.
  Qed.
  Lemma is_sorted_alike n : alike R (pair_alike R R) (@eq (option bool)) eq (MSearch.is_sorted n) (MSearch.is_sorted n).
  Proof.
    unfold MSearch.is_sorted. generalize (n - 1) as cnt. intros cnt. generalize 1 as i.
    induction cnt; intros; simpl; alike_go.
  Qed.
End search.

(** ** Deduplication. *)
Section dedup.
  Context {T U : Type} (R : T → U → Prop).
  Notation like := (alike R (pair_alike R R) (dedup_answers_alike R)).

  Lemma same_bucket_alike n i j : like eq (same_bucket n i j) (same_bucket n i j).
  Proof.
    unfold same_bucket. destruct (i =? j); [apply alike_undef|].
    alike_bind; [alike_go|]. alike_bind; [alike_go|]. apply alike_ask; [done|].
    intros [] []; simpl; try done; intros; destruct_and?; subst; alike_go.
  Qed.
  Hint Resolve same_bucket_alike : alike.
  Lemma dedup_loop_alike n cnt r w : like eq (dedup_loop n cnt r w) (dedup_loop n cnt r w).
  Proof. revert r w. induction cnt; intros; simpl; alike_go. Qed.
  Hint Resolve dedup_loop_alike : alike.
  Lemma split_views_alike n i : like eq (split_views n i) (split_views n i).
  Proof. unfold split_views. alike_go. Qed.
  Hint Resolve split_views_alike : alike.
  Lemma partition_dedup_by_alike n : like eq (partition_dedup_by n) (partition_dedup_by n).
  Proof. unfold partition_dedup_by. alike_go. Qed.
End dedup.
Section dedup_wrappers.
  Context {T U : Type} (R : T → U → Prop).
  Lemma partition_dedup_alike n :
    alike R (pair_alike R R) (@eq (option bool)) eq (partition_dedup n) (partition_dedup n).
  Proof.
    unfold partition_dedup. eapply alike_with_asks, partition_dedup_by_alike.
    intros [a b] [a' b'] [Ha Hb]. apply alike_ask; [done|]. intros [v|] ? <-; by apply alike_ret.
  Qed.
  Lemma partition_dedup_by_key_alike {K L} (RK : K → L → Prop) n :
    alike R (dkey_questions_alike R RK) (dkey_answers_alike R RK) eq
      (partition_dedup_by_key n) (partition_dedup_by_key n).
  Proof.
    unfold partition_dedup_by_key. eapply alike_with_asks, partition_dedup_by_alike.
    intros [a b] [a' b'] [Ha Hb]. simpl in Ha, Hb.
    apply alike_ask; [done|].
    intros [ka a2| | |] [ka' a2'| | |] Hka; simpl in Hka; destruct_and?; try done; try (apply alike_ret; simpl; done).
    apply alike_ask; [done|].
    intros [kb b2| | |] [kb' b2'| | |] Hkb; simpl in Hkb; destruct_and?; try done; try (apply alike_ret; simpl; done).
    apply alike_ask; [done|].
    intros [? ?|v| |] [? ?|v'| |] Hv; simpl in Hv; destruct_and?; subst; try done; apply alike_ret; simpl; done.
  Qed.
End dedup_wrappers.
