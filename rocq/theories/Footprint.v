(** * Footprint: every program of the model touches only its own view, and tasks
    running in parallel touch disjoint parts of it. *)
From Verif Require Export Interleave Ops Subst MPar PSelect.
From stdpp Require Import list.

(** All accesses are to positions below [n]. *)
Definition within {T Q R A} (n : nat) (p : prog T Q R A) : Prop := fp (λ i, i < n) p.

Section prims.
  Context {T Q R : Type}.
  Notation P A := (prog T Q R A).

  Lemma within_bind {A B} n (p : P A) (f : A → P B) :
    within n p → (∀ a, within n (f a)) → within n (bind p f).
  Proof. apply fp_bind. Qed.
  Lemma within_on_unwind {A} n (h : P unit) (p : P A) :
    within n h → within n p → within n (on_unwind h p).
  Proof. apply fp_on_unwind. Qed.
  Lemma within_ret {A} n (a : A) : within n (Ret a : P A).
  Proof. apply fp_ret. Qed.
  Lemma within_throw {A} n e : within n (Throw e : P A).
  Proof. apply fp_throw. Qed.
  Lemma within_undef {A} n : within n (Undef : P A).
  Proof. apply fp_undef. Qed.
  Lemma within_nofuel {A} n : within n (NoFuel : P A).
  Proof. apply fp_nofuel. Qed.
  Lemma within_uget n i : within n (uget n i : P T).
  Proof.
    unfold uget, within. destruct (Nat.ltb_spec i n); [|apply fp_undef].
    apply fp_Read; [done|]. intros. apply fp_ret.
  Qed.
  Lemma within_get n i : within n (get n i : P T).
  Proof.
    unfold get, within. destruct (Nat.ltb_spec i n); [|apply fp_throw].
    apply fp_Read; [done|]. intros. apply fp_ret.
  Qed.
  Lemma within_uput n i x : within n (uput n i x : P unit).
  Proof.
    unfold uput, within. destruct (Nat.ltb_spec i n); [|apply fp_undef].
    apply fp_Write; [done|]. apply fp_ret.
  Qed.
  Lemma within_put n i x : within n (put n i x : P unit).
  Proof.
    unfold put, within. destruct (Nat.ltb_spec i n); [|apply fp_throw].
    apply fp_Write; [done|]. apply fp_ret.
  Qed.
  Lemma within_uswap n i j : within n (uswap n i j : P unit).
  Proof.
    apply within_bind; [apply within_uget|intros x].
    apply within_bind; [apply within_uget|intros y].
    apply within_bind; [apply within_uput|intros _]. apply within_uput.
  Qed.
  Lemma within_swap n i j : within n (swap n i j : P unit).
  Proof. unfold swap. destruct (_ && _); [apply within_uswap|apply within_throw]. Qed.
  Lemma within_slice {A} n a b (p : nat → P A) :
    (∀ m, within m (p m)) → within n (slice n a b p).
  Proof.
    intros Hp. unfold slice.
    destruct (Nat.leb_spec a b), (Nat.leb_spec b n); simpl; try apply within_throw.
    eapply fp_focus; [apply Hp|]. intros i Hi. simpl in *. lia.
  Qed.
  (** The exact part of the array a slice touches. *)
  Lemma fp_slice {A} n a b (p : nat → P A) :
    (∀ m, within m (p m)) → fp (λ i, a ≤ i < b ∧ b ≤ n) (slice n a b p).
  Proof.
    intros Hp. unfold slice.
    destruct (Nat.leb_spec a b), (Nat.leb_spec b n); simpl; try apply fp_throw.
    eapply fp_focus; [apply Hp|]. intros i Hi. simpl in *. lia.
  Qed.
  Lemma within_usub n a b : within n (usub a b : P nat).
  Proof. unfold usub. destruct (_ <=? _); [apply within_ret|apply within_throw]. Qed.
  Lemma within_nonoverlapping n i j : within n (nonoverlapping i j : P unit).
  Proof. unfold nonoverlapping. destruct (_ =? _); [apply within_undef|apply within_ret]. Qed.
  Lemma within_dassert n c b : within n (dassert c b : P unit).
  Proof. unfold dassert. destruct (_ && _); [apply within_throw|apply within_ret]. Qed.
  Lemma within_assert n b : within n (assert b : P unit).
  Proof. unfold assert. destruct b; [apply within_ret|apply within_throw]. Qed.
  Lemma within_for_up n a cnt (body : nat → P unit) :
    (∀ i, within n (body i)) → within n (for_up a cnt body).
  Proof.
    intros Hb. revert a. induction cnt as [|k IH]; intros a; simpl; [apply within_ret|].
    apply within_bind; auto.
  Qed.
  Lemma within_for_down n a cnt (body : nat → P unit) :
    (∀ i, within n (body i)) → within n (for_down a cnt body).
  Proof.
    intros Hb. induction cnt as [|k IH]; simpl; [apply within_ret|].
    apply within_bind; auto.
  Qed.
  Lemma within_rayon_join {B C} n (F1 F2 : nat → Prop) (p1 : P B) (p2 : P C) :
    (∀ i, F1 i → i < n) → (∀ i, F2 i → i < n) → (∀ i, F1 i → F2 i → False) →
    fp F1 p1 → fp F2 p2 → within n (rayon_join p1 p2).
  Proof.
    intros H1 H2 Hd Hp1 Hp2. eapply fp_Par; [exact H1|exact H2|exact Hd|done|done|].
    intros [b|e1] [d|e2]; first [apply fp_ret|apply fp_throw].
  Qed.
  Lemma within_join_slices {B C} n a b c d (p1 : nat → P B) (p2 : nat → P C) :
    b ≤ c → (∀ m, within m (p1 m)) → (∀ m, within m (p2 m)) →
    within n (rayon_join (slice n a b p1) (slice n c d p2)).
  Proof.
    intros Hbc H1 H2.
    eapply within_rayon_join; [| | |apply fp_slice, H1|apply fp_slice, H2]; simpl; intros; lia.
  Qed.
End prims.

(** All values a program can return satisfy [Ψ]. *)
Section rets.
  Context {T Q R : Type}.
  Notation P A := (prog T Q R A).
  Local Transparent fp bind.
  Local Arguments fp {T Q R A} F !p.
  Local Arguments bind {T Q R A B} !p f.
  Fixpoint rets {A} (Ψ : A → Prop) (p : P A) : Prop :=
    match p with
    | Ret a => Ψ a
    | Throw _ | Undef | NoFuel => True
    | Read _ k => ∀ x, rets Ψ (k x)
    | Write _ _ k => rets Ψ k
    | Ask _ k => ∀ r, rets Ψ (k r)
    | Par _ _ k => ∀ b c, rets Ψ (k b c)
    end.
  Lemma rets_bind {A B} (Ψ : B → Prop) (p : P A) (f : A → P B) :
    (∀ a, rets Ψ (f a)) → rets Ψ (bind p f).
  Proof.
    revert B Ψ f.
    induction p as [A a|A e|A i k IH|A i x k IH|A q k IH|A B' C p1 IH1 p2 IH2 k IH| |];
      intros B Ψ f Hf; simpl in *; auto.
  Qed.
  Lemma fp_bind_rets {A B} F (Ψ : A → Prop) (p : P A) (f : A → P B) :
    fp F p → rets Ψ p → (∀ a, Ψ a → fp F (f a)) → fp F (bind p f).
  Proof.
    revert B f.
    induction p as [A a|A e|A i k IH|A i x k IH|A q k IH|A B' C p1 IH1 p2 IH2 k IH| |];
      intros B f Hp Hr Hf; simpl in *; eauto.
    - destruct Hp. split; eauto.
    - destruct Hp. split; eauto.
    - destruct Hp. split; eauto.
  Qed.
End rets.

Lemma within_is_less {T} n (a b : T) : within n (is_less a b).
Proof. apply fp_Ask. intros [|]; [apply fp_ret|apply fp_throw]. Qed.

Section asks.
  Local Transparent fp.
  Local Arguments fp {T Q R A} F !p.
  (** Wrapping the closure does not change the footprint. *)
  Lemma fp_with_asks {T Q R Q' R' A} F (h : Q → prog T Q' R' R) (p : prog T Q R A) :
    (∀ q, fp (λ _, False) (h q)) → fp F p → fp F (with_asks h p).
  Proof.
    intros Hh. revert F.
    induction p as [A a|A e|A i k IH|A i x k IH|A q k IH|A B C p1 IH1 p2 IH2 k IH| |];
      intros F Hp; unfold with_asks; fold (@with_asks T Q R Q' R' h); cbn [fp] in *; auto.
    - destruct Hp. split; auto.
    - destruct Hp. split; auto.
    - apply fp_bind; [|auto]. eapply fp_mono; [|apply Hh]. done.
    - destruct Hp as [(F1 & F2 & H1 & H2 & Hd & Hp1 & Hp2) Hk]. split; [|auto].
      exists F1, F2. auto 10.
  Qed.
End asks.

Lemma within_by_compare {T A} n (p : cmp_prog T A) : within n p → within n (by_compare p).
Proof.
  apply fp_with_asks. intros q. apply fp_Ask. intros r. apply fp_ret.
Qed.
Lemma within_by_key {T K A} n (p : cmp_prog T A) : within n p → within n (by_key (K:=K) p).
Proof.
  apply fp_with_asks. intros [a b]. apply fp_Ask. intros [ka| |]; try apply fp_ret.
  apply fp_Ask. intros [kb| |]; try apply fp_ret.
  apply fp_Ask. intros [| |]; apply fp_ret.
Qed.

Create HintDb fp discriminated.
Global Hint Opaque within : fp.
Global Hint Resolve within_ret within_throw within_undef within_nofuel within_uget within_get
  within_uput within_put within_uswap within_swap within_usub within_dassert within_assert
  within_nonoverlapping within_is_less : fp.

Ltac fp_go :=
  repeat (cbv zeta;
    match goal with
    | |- within _ (bind _ _) => apply within_bind; [|intros ?]
    | |- within _ (on_unwind _ _) => apply within_on_unwind
    | |- within _ (slice _ _ _ _) => apply within_slice; intros ?
    | |- within _ (for_up _ _ _) => apply within_for_up; intros ?
    | |- within _ (for_down _ _ _) => apply within_for_down; intros ?
    | |- within _ (match ?x with _ => _ end) => destruct x
    | |- _ => solve [auto with fp]
    end).

Section funs.
  Context {T : Type} (c : cfg).
  Notation P A := (cmp_prog T A).

  (** src/insertion_sort.rs *)
  Lemma within_insert_tail_loop n (tmp : T) h : within n (insert_tail_loop n tmp h).
  Proof. induction h; cbn [insert_tail_loop]; fp_go. Qed.
  Hint Resolve within_insert_tail_loop : fp.
  Lemma within_insert_tail n : within n (insert_tail c n : P unit).
  Proof. unfold insert_tail. fp_go. Qed.
  Hint Resolve within_insert_tail : fp.
  Lemma within_insert_head_loop n (tmp : T) i cnt : within n (insert_head_loop n tmp i cnt).
  Proof. revert i. induction cnt; intros i; cbn [insert_head_loop]; fp_go. Qed.
  Hint Resolve within_insert_head_loop : fp.
  Lemma within_insert_head n : within n (insert_head c n : P unit).
  Proof. unfold insert_head. fp_go. Qed.
  Hint Resolve within_insert_head : fp.
  Lemma within_shift_left n o : within n (insertion_sort_shift_left c n o : P unit).
  Proof. unfold insertion_sort_shift_left. fp_go. Qed.
  Lemma within_shift_right n o : within n (insertion_sort_shift_right c n o : P unit).
  Proof. unfold insertion_sort_shift_right. fp_go. Qed.
  Hint Resolve within_shift_left within_shift_right : fp.
  Lemma within_find_unsorted fuel n i : within n (find_unsorted fuel n i : P nat).
  Proof. revert i. induction fuel; intros i; cbn [find_unsorted]; fp_go. Qed.
  Hint Resolve within_find_unsorted : fp.
  Lemma within_partial_insertion_steps st n i : within n (partial_insertion_steps c st n i : P bool).
  Proof. revert i. induction st; intros i; cbn [partial_insertion_steps]; fp_go. Qed.
  Hint Resolve within_partial_insertion_steps : fp.
  Lemma within_partial_insertion_sort n : within n (partial_insertion_sort c n : P bool).
  Proof. unfold partial_insertion_sort. fp_go. Qed.

  (** src/heap_sort.rs *)
  Lemma within_sift_down fuel n node : within n (sift_down fuel n node : P unit).
  Proof. revert node. induction fuel; intros node; cbn [sift_down]; fp_go. Qed.
  Hint Resolve within_sift_down : fp.
  Lemma within_heap_sort n : within n (heap_sort n : P unit).
  Proof. unfold heap_sort. fp_go. Qed.

  (** src/partition.rs *)
  Lemma within_pe_scan_l fuel n (p : T) l r : within n (pe_scan_l fuel n p l r).
  Proof. revert l. induction fuel; intros l; cbn [pe_scan_l]; fp_go. Qed.
  Lemma within_pe_scan_r fuel n (p : T) l r : within n (pe_scan_r fuel n p l r).
  Proof. revert r. induction fuel; intros r; cbn [pe_scan_r]; fp_go. Qed.
  Hint Resolve within_pe_scan_l within_pe_scan_r : fp.
  Lemma within_pe_loop fuel n (p : T) l r : within n (pe_loop fuel n p l r).
  Proof. revert l r. induction fuel; intros l r; cbn [pe_loop]; fp_go. Qed.
  Hint Resolve within_pe_loop : fp.
  Lemma within_partition_equal n pivot : within n (partition_equal n pivot : P nat).
  Proof. unfold partition_equal. fp_go. Qed.
  Lemma within_trace_l n (p : T) e i cnt acc : within n (trace_l n p e i cnt acc).
  Proof. revert e i acc. induction cnt; intros; cbn [trace_l]; fp_go. Qed.
  Lemma within_trace_r n (p : T) e i cnt acc : within n (trace_r n p e i cnt acc).
  Proof. revert e i acc. induction cnt; intros; cbn [trace_r]; fp_go. Qed.
  Lemma within_cycle n l r cnt (tmp : T) ol ls orr rs : within n (cycle n l r cnt tmp ol ls orr rs).
  Proof. revert ol ls orr rs. induction cnt; intros; cbn [cycle]; fp_go. Qed.
  Hint Resolve within_trace_l within_trace_r within_cycle : fp.
  Lemma within_exchange n l r ol or_ : within n (exchange n l r ol or_ : P (list nat * list nat)).
  Proof. unfold exchange. fp_go. Qed.
  Lemma within_finish_l n l r os : within n (finish_l n l r os : P nat).
  Proof. revert r. induction os; intros; cbn [finish_l]; fp_go. Qed.
  Lemma within_finish_r n l r os : within n (finish_r n l r os : P nat).
  Proof. revert l. induction os; intros; cbn [finish_r]; fp_go. Qed.
  Lemma within_width n l r : within n (width l r : P nat).
  Proof. unfold width. fp_go. Qed.
  Hint Resolve within_exchange within_finish_l within_finish_r within_width : fp.
  Lemma within_pib_loop fuel n (p : T) l r bl br ol or_ : within n (pib_loop c fuel n p l r bl br ol or_).
  Proof. revert l r bl br ol or_. induction fuel; intros; cbn [pib_loop]; fp_go. Qed.
  Hint Resolve within_pib_loop : fp.
  Lemma within_partition_in_blocks n (p : T) : within n (partition_in_blocks c n p).
  Proof. unfold partition_in_blocks. fp_go. Qed.
  Lemma within_pt_scan_l fuel n (p : T) l r : within n (pt_scan_l fuel n p l r).
  Proof. revert l. induction fuel; intros; cbn [pt_scan_l]; fp_go. Qed.
  Lemma within_pt_scan_r fuel n (p : T) l r : within n (pt_scan_r fuel n p l r).
  Proof. revert r. induction fuel; intros; cbn [pt_scan_r]; fp_go. Qed.
  Hint Resolve within_partition_in_blocks within_pt_scan_l within_pt_scan_r : fp.
  Lemma within_partition n pivot : within n (MPartition.partition c n pivot : P (nat * bool)).
  Proof. unfold MPartition.partition. fp_go. Qed.
  Lemma within_reverse n : within n (MPartition.reverse n : P unit).
  Proof. unfold MPartition.reverse. fp_go. Qed.
  Lemma within_break_loop n pos i cnt seed : within n (break_loop c n pos i cnt seed : P unit).
  Proof. revert i seed. induction cnt; intros; cbn [break_loop]; fp_go. Qed.
  Hint Resolve within_break_loop within_reverse : fp.
  Lemma within_break_patterns n : within n (break_patterns c n : P unit).
  Proof. unfold break_patterns. fp_go. Qed.
  Lemma within_sort2 n a b s : within n (sort2 n a b s : P (nat * nat * nat)).
  Proof. unfold sort2. fp_go. Qed.
  Hint Resolve within_sort2 : fp.
  Lemma within_sort3 n a b d s : within n (sort3 n a b d s : P (nat * nat * nat * nat)).
  Proof. unfold sort3. fp_go. Qed.
  Hint Resolve within_sort3 : fp.
  Lemma within_sort_adjacent n a s : within n (sort_adjacent n a s : P (nat * nat)).
  Proof. unfold sort_adjacent. fp_go. Qed.
  Hint Resolve within_sort_adjacent : fp.
  Lemma within_choose_pivot n : within n (choose_pivot n : P (nat * bool)).
  Proof. unfold choose_pivot. fp_go. Qed.
  Hint Resolve within_partial_insertion_sort within_heap_sort within_partition_equal
    within_partition within_break_patterns within_choose_pivot : fp.

  (** selection *)
  Lemma within_max_by_loop n acc i cnt : within n (max_by_loop n acc i cnt : P nat).
  Proof. revert acc i. induction cnt; intros; cbn [max_by_loop]; fp_go. Qed.
  Lemma within_min_by_loop n acc i cnt : within n (min_by_loop n acc i cnt : P nat).
  Proof. revert acc i. induction cnt; intros; cbn [min_by_loop]; fp_go. Qed.
  Hint Resolve within_max_by_loop within_min_by_loop : fp.
  Lemma within_max_index n : within n (max_index n : P nat).
  Proof. unfold max_index. fp_go. Qed.
  Lemma within_min_index n : within n (min_index n : P nat).
  Proof. unfold min_index. fp_go. Qed.
  Lemma within_median_idx n a b d : within n (median_idx n a b d : P nat).
  Proof. unfold median_idx. fp_go. Qed.
  Lemma within_less_at n i j : within n (less_at n i j : P bool).
  Proof. unfold less_at. fp_go. Qed.
  Hint Resolve within_max_index within_min_index within_median_idx within_less_at : fp.
  Lemma within_ninther n a b d0 d e f g h i : within n (ninther n a b d0 d e f g h i : P unit).
  Proof. unfold ninther. fp_go. Qed.
  Hint Resolve within_ninther : fp.
  Lemma within_ninthers_loop n frac i cnt a b : within n (ninthers_loop n frac i cnt a b : P unit).
  Proof. revert i a b. induction cnt; intros; cbn [ninthers_loop]; fp_go. Qed.
  Hint Resolve within_ninthers_loop : fp.
  Lemma within_median_of_ninthers (rec : nat → nat → P unit) n :
    (∀ m k, within m (rec m k)) → within n (median_of_ninthers c rec n).
  Proof. intros Hrec. unfold median_of_ninthers. fp_go. Qed.
  Lemma within_median_of_medians depth n k : within n (median_of_medians c depth n k : P unit).
  Proof.
    revert n k. induction depth as [|d IHd]; intros n k; [apply within_nofuel|].
    rewrite median_of_medians_unfold.
    apply within_bind; [fp_go|intros _]. apply within_bind; [fp_go|intros _].
    generalize (S n) as fuel. intros fuel. revert n k.
    induction fuel as [|f IHf]; intros n k; cbn [mom_loop]; [fp_go|]; fold (mom_loop (T:=T) c (median_of_medians c d)).
    pose proof (within_median_of_ninthers (median_of_medians c d) n IHd). fp_go.
  Qed.
  Hint Resolve within_median_of_medians : fp.
  Lemma within_pai_loop fuel n index (pred : option T) limit wb :
    within n (pai_loop c fuel n index pred limit wb).
  Proof. revert n index pred limit wb. induction fuel; intros; cbn [pai_loop]; fp_go. Qed.
  Hint Resolve within_pai_loop : fp.
  Lemma within_split_at n v at_ : within n (split_at v at_ : P ((nat * nat) * (nat * nat))).
  Proof. unfold split_at. fp_go. Qed.
  Lemma within_index0 n v : within n (index0 v : P nat).
  Proof. unfold index0. fp_go. Qed.
  Hint Resolve within_split_at within_index0 : fp.
  Lemma within_partition_at_index n i :
    within n (partition_at_index c n i : P ((nat * nat) * nat * (nat * nat))).
  Proof. unfold partition_at_index, partition_at_index_loop. fp_go. Qed.
  Lemma within_rel_index m n p o : within m (rel_index c n p o : P nat).
  Proof. unfold rel_index. fp_go. Qed.
  Hint Resolve within_partition_at_index within_rel_index : fp.

  (** src/par/quick_sort.rs *)
  Lemma within_par_qs_recurse fuel n (pred : option T) limit wb wp :
    within n (par_qs_recurse c fuel n pred limit wb wp).
  Proof.
    revert n pred limit wb wp. induction fuel as [|f IH]; intros; cbn [par_qs_recurse]; fp_go.
    apply within_join_slices; [lia|auto|auto].
  Qed.
  Lemma within_par_quick_sort n : within n (par_quick_sort c n : P unit).
  Proof. unfold par_quick_sort. destruct (zst c); [fp_go|]. apply within_par_qs_recurse. Qed.

  (** src/par/partition.rs *)
  Local Transparent bind.
  Local Arguments bind {T Q R A B} !p f.
  Lemma rets_partition_at_index n i :
    rets (λ '(lv, _, rv), lv.1 + lv.2 ≤ rv.1) (partition_at_index c n i : P _).
  Proof.
    unfold partition_at_index. destruct (n <=? i); [done|]. apply rets_bind. intros _.
    unfold split_at. simpl. destruct (i <=? n); [|done]. simpl.
    destruct (1 <=? n - i); [|done]. simpl. lia.
  Qed.
  Local Opaque bind.
  Lemma within_par_partition_at_indices fuel n base offset vlen inds :
    within n (par_partition_at_indices c fuel n base offset vlen inds : P _).
  Proof.
    revert n base offset vlen inds. induction fuel as [|f IH]; intros; cbn [par_partition_at_indices].
    { fp_go. }
    destruct inds as [|i0 inds]; [fp_go|]. cbv zeta.
    destruct (drop _ _) as [|pivot rinds]; [fp_go|].
    apply within_bind; [fp_go|intros i].
    eapply fp_bind_rets; [apply within_partition_at_index|apply rets_partition_at_index|].
    intros [[lv value] rv] Hle. 
    match goal with |- fp _ ?p => change (within n p) end. fp_go.
    apply within_join_slices; [lia|auto|auto].
  Qed.
  Lemma within_par_select_many n vlen inds : within n (par_select_many c n vlen inds : P _).
  Proof. apply within_bind; [apply within_par_partition_at_indices|]. intros. apply within_ret. Qed.
End funs.
