(** * TWord: the algorithms with [usize] arithmetic do what the model does. *)
From Verif Require Export MWord TPanic.
From Coq Require Import NArith.

Ltac fprim := first
  [ apply tracks_wsub | apply tracks_uget | apply tracks_get | apply tracks_uput | apply tracks_put
  | apply tracks_swap | apply tracks_uswap | apply tracks_assert | apply (tracks_refl (λ _, True)); done ].
Ltac fbind := eapply tracks_bind; [fprim|]; cbv beta.

Section word.
  Context {T : Type} (c : cfg).
  Notation P A := (cmp_prog T A).
  Implicit Types (n : nat).

  Lemma tracks_insert_tail n : tracks (λ _, True) (insert_tail_w (T:=T) c n) (insert_tail c n).
  Proof.
    unfold insert_tail_w, insert_tail. fbind. intros _ _. fbind. intros ? [-> ?].
    fbind. intros ? [-> ?]. do 2 (fbind; intros ? ?). fbind. intros [] _; [|by constructor].
    by apply tracks_refl.
  Qed.
  Lemma tracks_insert_head_loop n tmp i cnt :
    1 ≤ i → tracks (λ _, True) (insert_head_loop_w (T:=T) c n tmp (i - 1) i cnt) (insert_head_loop n tmp i cnt).
  Proof.
    revert i. induction cnt as [|k IH]; intros i Hi; cbn [insert_head_loop_w insert_head_loop]; [by apply tracks_refl|].
    fbind. intros y Hy. eapply tracks_bind; [by apply (tracks_refl (λ _, True))|].
    intros [] _; [|by apply tracks_refl]. rewrite wsub_ok by done. fbind. intros _ _.
    replace i with (S i - 1) at 1 by lia. apply IH. lia.
  Qed.
  Lemma tracks_insert_head n : tracks (λ _, True) (insert_head_w (T:=T) c n) (insert_head c n).
  Proof.
    unfold insert_head_w, insert_head. fbind. intros _ _. do 2 (fbind; intros ? ?).
    fbind. intros [] _; [|by constructor]. do 3 (fbind; intros ? ?).
    apply (tracks_insert_head_loop n _ 2). lia.
  Qed.
  Lemma tracks_shift_left n offset : allowed c n →
    tracks (λ _, True) (insertion_sort_shift_left_w (T:=T) c n offset) (insertion_sort_shift_left c n offset).
  Proof.
    intros Hn. unfold allowed in Hn. unfold insertion_sort_shift_left_w, insertion_sort_shift_left.
    fbind. intros _ [_ ?%Nat.leb_le]%andb_prop. apply tracks_for_up. intros i ? ?.
    rewrite uadd_ok by lia. rewrite Nat.add_1_r. apply tracks_slice. intros. apply tracks_insert_tail.
  Qed.
  Lemma tracks_shift_right n offset :
    tracks (λ _, True) (insertion_sort_shift_right_w (T:=T) c n offset) (insertion_sort_shift_right c n offset).
  Proof.
    unfold insertion_sort_shift_right_w, insertion_sort_shift_right.
    fbind. intros _ _. apply tracks_for_down. intros i ? ?. apply tracks_slice. intros. apply tracks_insert_head.
  Qed.
  Lemma tracks_find_unsorted fuel n i : allowed c n →
    tracks (λ _, True) (find_unsorted_w (T:=T) c fuel n i) (find_unsorted fuel n i).
  Proof.
    intros Hn. revert i. induction fuel as [|f IH]; intros i; cbn [find_unsorted_w find_unsorted]; [by apply tracks_refl|].
    destruct (Nat.ltb_spec i n); [|by constructor].
    fbind. intros ? [-> ?]. do 2 (fbind; intros ? ?). fbind. intros [] _; [by constructor|].
    unfold allowed in *. rewrite uadd_ok by lia. rewrite Nat.add_1_r. apply IH.
  Qed.
  Lemma tracks_partial_steps st n i : allowed c n →
    tracks (λ _, True) (partial_insertion_steps_w (T:=T) c st n i) (partial_insertion_steps c st n i).
  Proof.
    intros Hn. revert i. induction st as [|st IH]; intros i; cbn [partial_insertion_steps_w partial_insertion_steps]; [by apply tracks_refl|].
    eapply tracks_bind; [by apply tracks_find_unsorted|]. intros j _.
    destruct (_ =? _); [by constructor|]. destruct (_ <? _); [by constructor|].
    fbind. intros ? [-> ?]. fbind. intros _ _.
    eapply (tracks_bind (λ _, True)); [|intros _ _; apply IH].
    destruct (Nat.leb_spec 2 j); [|by constructor]. rewrite wsub_ok by done.
    eapply (tracks_bind (λ _, True)).
    - apply tracks_slice. intros. apply tracks_shift_left. eapply allowed_le; [done|lia].
    - intros _ _. apply tracks_slice. intros. apply tracks_shift_right.
  Qed.
  Lemma tracks_partial_insertion_sort n : allowed c n →
    tracks (λ _, True) (partial_insertion_sort_w (T:=T) c n) (partial_insertion_sort c n).
  Proof. intros. by apply tracks_partial_steps. Qed.

  (** ** Heap sort *)
  Lemma tracks_sift_down fuel n node : allowed c n → node < n →
    tracks (λ _, True) (sift_down_w (T:=T) c fuel n node) (sift_down fuel n node).
  Proof.
    intros Hn. revert node. induction fuel as [|f IH]; intros node Hnode; [by apply tracks_refl|].
    cbn [sift_down_w sift_down]. unfold allowed in *. rewrite umul_ok by lia. rewrite uadd_ok by lia.
    cbv zeta. destruct (Nat.leb_spec n (2 * node + 1)); [by constructor|].
    rewrite uadd_ok by lia.
    eapply (tracks_bind (λ ch, ch < n)).
    - destruct (Nat.ltb_spec (2 * node + 1 + 1) n); [|by constructor].
      fbind. intros a _. rewrite uadd_ok by lia. fbind. intros b _. fbind. intros [] _.
      + unfold uadd. rewrite (proj2 (N.ltb_lt _ _)) by lia. by constructor.
      + unfold uadd. rewrite (proj2 (N.ltb_lt _ _)) by lia. rewrite Nat.add_0_r. by constructor.
    - intros ch Hch. do 2 (fbind; intros ? ?). fbind. intros [] _; [|by constructor].
      fbind. intros _ _. by apply IH.
  Qed.
  Lemma tracks_heap_sort n : allowed c n → tracks (λ _, True) (heap_sort_w (T:=T) c n) (heap_sort n).
  Proof.
    intros Hn. unfold heap_sort_w, heap_sort. eapply (tracks_bind (λ _, True)).
    - apply tracks_for_down. intros i _ Hi. apply tracks_sift_down; [done|].
      pose proof (Nat.div_le_upper_bound n 2 n). lia.
    - intros _ _. apply tracks_for_down. intros i Hi ?. fbind. intros _ _. apply tracks_slice.
      intros. apply tracks_sift_down; [eapply allowed_le; [done|lia]|lia].
  Qed.

  (** ** Partitioning *)
  Lemma tracks_pe_scan_l fuel n p l r : allowed c n → r ≤ n → l ≤ r →
    tracks (λ l', l' ≤ r) (pe_scan_l_w (T:=T) c fuel n p l r) (pe_scan_l fuel n p l r).
  Proof.
    intros Hn Hr. revert l. induction fuel as [|f IH]; intros l Hl; cbn [pe_scan_l_w pe_scan_l]; [apply tracks_doomed; constructor|].
    destruct (Nat.ltb_spec l r); [|by constructor].
    fbind. intros x _. fbind. intros [] _; [by constructor|].
    unfold allowed in *. rewrite uadd_ok by lia. rewrite Nat.add_1_r. apply IH. lia.
  Qed.
  Lemma tracks_pe_scan_r fuel n p l r :
    tracks (λ r', r' < r) (pe_scan_r_w (T:=T) c fuel n p l r) (pe_scan_r fuel n p l r).
  Proof.
    revert r. induction fuel as [|f IH]; intros r; cbn [pe_scan_r_w pe_scan_r]; [apply tracks_doomed; constructor|].
    fbind. intros ? [-> ?]. destruct (_ <=? l); [constructor; lia|].
    fbind. intros x _. fbind. intros [] _; [|constructor; lia].
    eapply tracks_mono; [apply IH|]. simpl. lia.
  Qed.
  Lemma tracks_pe_loop fuel n p l r : allowed c n → r ≤ n → l ≤ r →
    tracks (λ l', l' ≤ n) (pe_loop_w (T:=T) c fuel n p l r) (pe_loop fuel n p l r).
  Proof.
    intros Hn. revert l r. induction fuel as [|f IH]; intros l r Hr Hl; cbn [pe_loop_w pe_loop]; [apply tracks_doomed; constructor|].
    eapply tracks_bind; [by apply tracks_pe_scan_l|]. intros l' Hl'.
    eapply tracks_bind; [by apply tracks_pe_scan_r|]. intros r' Hr'. simpl in *.
    destruct (Nat.leb_spec r' l'); [constructor; lia|].
    fbind. intros _ _. unfold allowed in *. rewrite uadd_ok by lia. rewrite Nat.add_1_r.
    apply IH; lia.
  Qed.
  Lemma tracks_partition_equal n pivot : allowed c n →
    tracks (λ m, m ≤ n) (partition_equal_w (T:=T) c n pivot) (partition_equal n pivot).
  Proof.
    intros Hn. unfold partition_equal_w, partition_equal. fbind. intros _ _. fbind. intros _ _.
    fbind. intros tmp _. eapply (tracks_bind (λ m, m ≤ n)).
    - apply tracks_on_unwind; [apply mild_uput|by apply (tracks_refl (λ _, True))|].
      cbv zeta. destruct (_ =? _) eqn:E; [constructor; lia|]. apply Nat.eqb_neq in E.
      eapply (tracks_bind (λ l, l ≤ n - 1)).
      + apply tracks_slice. intros. apply tracks_pe_loop; [|lia..]. eapply allowed_le; [done|lia].
      + intros l Hl. unfold uadd, allowed in *. rewrite (proj2 (N.ltb_lt _ _)) by lia. constructor. lia.
    - intros m Hm. fbind. intros _ _. by constructor.
  Qed.

  Lemma tracks_trace_l n p elem i cnt acc : allowed c n →
    tracks (λ _, True) (trace_l_w (T:=T) c n p elem i cnt acc) (trace_l n p elem i cnt acc).
  Proof.
    intros Hn. revert elem i acc. induction cnt as [|k IH]; intros elem i acc; cbn [trace_l_w trace_l]; [by constructor|].
    fbind. intros _ _. fbind. intros x ?. fbind. intros b _.
    unfold allowed in *. rewrite uadd_ok by lia. rewrite Nat.add_1_r. apply IH.
  Qed.
  Lemma tracks_trace_r n p elem i cnt acc :
    tracks (λ _, True) (trace_r_w (T:=T) c n p elem i cnt acc) (trace_r n p elem i cnt acc).
  Proof.
    revert elem i acc. induction cnt as [|k IH]; intros elem i acc; cbn [trace_r_w trace_r]; [by constructor|].
    fbind. intros ? [-> ?]. fbind. intros _ _. fbind. intros x ?. fbind. intros b _. apply IH.
  Qed.

  (** [left!] and [right!] *)
  Lemma tracks_left {A} (φ : A → Prop) n l o (f : nat → T → P A) g : allowed c n →
    (l + o < n → ∀ x, tracks φ (f (l + o) x) (g x)) →
    tracks φ (bind (left_w c l o) (λ i, bind (get n i) (f i))) (bind (get n (l + o)) g).
  Proof.
    intros Hn H. unfold left_w. apply tracks_uadd; intros Ho.
    - eapply tracks_bind; [apply tracks_get|]. intros x Hx. by apply H.
    - apply doomed_get. unfold allowed in *. lia.
  Qed.
  Lemma tracks_right {A} (φ : A → Prop) n r o (f g : nat → P A) : allowed c n → r ≤ n →
    (∀ i, i = r - (o + 1) → tracks φ (f i) (g i)) →
    tracks φ (bind (right_w c r o) f) (bind (usub r (o + 1)) g).
  Proof.
    intros Hn Hr H. destruct (decide (o + 1 ≤ r)).
    - unfold right_w. rewrite (uadd_ok c o 1) by (unfold allowed in *; lia).
      eapply tracks_bind; [apply tracks_wsub|]. intros i [-> ?]. by apply H.
    - apply tracks_doomed, doomed_usub. lia.
  Qed.
  Lemma tracks_cycle n l r cnt tmp ol ls orr rs : allowed c n → r ≤ n →
    tracks (λ _, True) (cycle_w (T:=T) c n l r cnt tmp ol ls orr rs) (cycle n l r cnt tmp ol ls orr rs).
  Proof.
    intros Hn Hr. revert ol ls orr rs.
    induction cnt as [|k IH]; intros ol ls orr rs; cbn [cycle_w cycle].
    { apply (tracks_right _ n); [done..|]. intros ? _. fbind. intros _ _. by constructor. }
    destruct ls as [|ol' ls]; [by apply tracks_refl|]. destruct rs as [|or' rs]; [by apply tracks_refl|].
    apply tracks_left; [done|]. intros Hlo x. apply (tracks_right _ n); [done..|]. intros ? _. do 2 (fbind; intros _ _).
    apply (tracks_right _ n); [done..|]. intros ? _. fbind. intros y _.
    unfold left_w. rewrite uadd_ok by (unfold allowed in *; lia). do 2 (fbind; intros _ _). apply IH.
  Qed.
  Lemma tracks_exchange n l r offl offr : allowed c n → r ≤ n →
    tracks (λ _, True) (exchange_w (T:=T) c n l r offl offr) (exchange n l r offl offr).
  Proof.
    intros Hn Hr. unfold exchange_w, exchange. cbv zeta. destruct (_ <? _); [|by constructor].
    destruct offl as [|ol ls]; [by apply tracks_refl|]. destruct offr as [|orr rs]; [by apply tracks_refl|].
    apply tracks_left; [done|]. intros Hlo x. apply (tracks_right _ n); [done..|]. intros ? _. fbind. intros y _.
    unfold left_w. rewrite uadd_ok by (unfold allowed in *; lia). do 2 (fbind; intros _ _). by apply tracks_cycle.
  Qed.
  Lemma tracks_finish_l n l r offs : allowed c n → r ≤ n →
    tracks (λ r', r' ≤ n) (finish_l_w (T:=T) c n l r offs) (finish_l n l r offs).
  Proof.
    intros Hn. revert r. induction offs as [|o os IH]; intros r Hr; cbn [finish_l_w finish_l]; [by constructor|].
    apply tracks_uadd; intros Ho.
    - fbind. intros ? [-> ?]. fbind. intros _ _. rewrite wsub_ok by done. apply IH. lia.
    - apply doomed_usub_then. intros r'. apply doomed_bind, doomed_uswap. unfold allowed in *. lia.
  Qed.
  Lemma tracks_finish_r n l r offs : allowed c n → r ≤ n → l ≤ n →
    tracks (λ l', l' ≤ n) (finish_r_w (T:=T) c n l r offs) (finish_r n l r offs).
  Proof.
    intros Hn Hr. revert l. induction offs as [|o os IH]; intros l Hl; cbn [finish_r_w finish_r]; [by constructor|].
    destruct (decide (o + 1 ≤ r)).
    - rewrite (uadd_ok c o 1) by (unfold allowed in *; lia). fbind. intros ? [-> ?].
      fbind. intros _ [? ?]. rewrite uadd_ok by (unfold allowed in *; lia). rewrite Nat.add_1_r.
      apply IH. lia.
    - apply tracks_doomed, doomed_usub. lia.
  Qed.
  Lemma tracks_width_dassert a b (w : nat → bool) {A} (φ : A → Prop) (f g : P A) :
    (b ≤ a → tracks φ f g) →
    tracks φ (bind (if dbg c then bind (wsub c a b) (λ x, dassert c (w x)) else Ret tt) (λ _, f))
           (bind (width b a) (λ x, bind (dassert c (w x)) (λ _, g))).
  Proof.
    intros H. unfold width. destruct (decide (b ≤ a)) as [Hba|]; [|apply tracks_doomed, doomed_usub; lia].
    rewrite usub_ok by done. destruct (dbg c) eqn:E.
    - rewrite wsub_ok by done. eapply (tracks_bind (λ _, True)); [by apply tracks_refl|]. auto.
    - unfold dassert. rewrite E. cbn [andb]. rewrite !bind_of_ret. by apply H.
  Qed.
  Lemma tracks_wsub_0 n a : a ≤ n → tracks (λ r, r ≤ n) (wsub (T:=T) (Q:=T*T) (R:=option bool) c a 0) (width 0 a).
  Proof. intros H. eapply tracks_mono; [apply tracks_wsub|]. simpl. lia. Qed.
  Lemma tracks_pib_loop fuel n p l r bl br offl offr : allowed c n → r ≤ n → bl ≤ BLOCK → br ≤ BLOCK →
    tracks (λ k, k ≤ n) (pib_loop_w (T:=T) c fuel n p l r bl br offl offr) (pib_loop c fuel n p l r bl br offl offr).
  Proof.
    intros Hn. revert l r bl br offl offr.
    induction fuel as [|f IH]; intros l r bl br offl offr Hr Hbl Hbr; cbn [pib_loop_w pib_loop];
      [apply tracks_doomed; constructor|].
    eapply tracks_bind; [apply tracks_wsub|]. intros w [Hw Hlr]. cbv zeta.
    eapply (tracks_bind (λ '(bl', br'), if w <=? 2 * BLOCK then l + bl' ≤ r else bl' ≤ BLOCK ∧ br' ≤ BLOCK)).
    - destruct (Nat.leb_spec w (2 * BLOCK)); [|by constructor].
      set (pl := 0 <? length offl). set (pr := 0 <? length offr). clearbody pl pr.
      assert (Hfin : ∀ b1 b2, l + b1 ≤ r → b2 ≤ r ∨ b2 ≤ BLOCK →
        tracks (λ '(bl', _), l + bl' ≤ r)
          (bind (dassert (T:=T) (Q:=T*T) (R:=option bool) c ((b1 <=? BLOCK) && (b2 <=? BLOCK))) (λ _,
             bind (if dbg c then bind (uadd c b1 b2) (λ both, dassert c (w =? both)) else Ret tt)
               (λ _, Ret (b1, b2))))
          (bind (dassert c ((b1 <=? BLOCK) && (b2 <=? BLOCK))) (λ _,
             bind (dassert c (w =? b1 + b2)) (λ _, Ret (b1, b2))))).
      { intros b1 b2 H1 H2. eapply (tracks_bind (λ _, True)); [by apply tracks_refl|]. intros _ _.
        destruct (dbg c) eqn:E.
        - pose proof (words_ge c). rewrite uadd_ok by (unfold allowed, BLOCK in *; lia).
          eapply (tracks_bind (λ _, True)); [by apply tracks_refl|]. intros _ _. by constructor.
        - unfold dassert. rewrite E. cbn [andb]. rewrite !bind_of_ret. by constructor. }
      eapply (tracks_bind (λ rem, rem ≤ w ∧ (pl || pr = true → BLOCK ≤ w ∧ rem = w - BLOCK))).
      { destruct (pl || pr); [|constructor; split; [done|discriminate]].
        eapply tracks_mono; [apply tracks_wsub|]. simpl. intros rem [-> ?]. split; [lia|done]. }
      intros rem [Hrem Hp]. destruct pl; simpl in Hp.
      { destruct (Hp eq_refl). apply (Hfin bl rem); lia. }
      destruct pr; simpl in Hp.
      { apply (Hfin rem br); [lia|]. by right. }
      clear Hp. pose proof (Nat.div_le_upper_bound rem 2 rem ltac:(lia) ltac:(lia)).
      rewrite wsub_ok by lia. apply (Hfin (rem / 2) (rem - rem / 2)); lia.
    - intros [bl' br'] Hb.
      eapply (tracks_bind (λ _, True)).
      { destruct (_ =? _); [by apply tracks_trace_l|by constructor]. }
      intros offl' _. eapply (tracks_bind (λ _, True)).
      { destruct (_ =? _); [by apply tracks_trace_r|by constructor]. }
      intros offr' _. eapply tracks_bind; [by apply tracks_exchange|]. intros [offl2 offr2] _.
      match goal with |- tracks _ (bind _ ?f) _ =>
        assert (HL : bind (if length offl2 =? 0 then uadd c l bl' else Ret l) f =
          f (if length offl2 =? 0 then l + bl' else l)) end.
      { pose proof (words_ge c). destruct (length offl2 =? 0); [|done]. apply uadd_ok.
        unfold allowed, BLOCK in *. destruct (w <=? _); lia. }
      rewrite HL. clear HL. cbv beta.
      set (L := if length offl2 =? 0 then l + bl' else l).
      assert (HL : w <=? 2 * BLOCK = true → L ≤ n).
      { intros E. rewrite E in Hb. unfold L. destruct (length offl2 =? 0); lia. }
      clearbody L. eapply (tracks_bind (λ r', r' ≤ r)).
      { destruct (_ =? _); [|by constructor]. eapply tracks_mono; [apply tracks_wsub|]. simpl. lia. }
      intros r' Hr'. destruct (w <=? 2 * BLOCK); [|apply IH; [lia|apply Hb..]].
      specialize (HL eq_refl). destruct (0 <? length offl2).
      { apply tracks_width_dassert. intros _. eapply tracks_bind; [apply tracks_finish_l; [done|lia]|].
        intros. by apply tracks_wsub_0. }
      destruct (0 <? length offr2); [|by apply tracks_wsub_0].
      apply tracks_width_dassert. intros _. eapply tracks_bind; [apply tracks_finish_r; [done|lia|done]|].
      intros. by apply tracks_wsub_0.
  Qed.
  Lemma tracks_partition_in_blocks n p : allowed c n →
    tracks (λ k, k ≤ n) (partition_in_blocks_w (T:=T) c n p) (partition_in_blocks c n p).
  Proof.
    intros Hn. unfold partition_in_blocks_w, partition_in_blocks.
    destruct (_ =? _); [constructor; lia|]. by apply tracks_pib_loop.
  Qed.
  Lemma tracks_pt_scan_l fuel n p l r : allowed c n → r ≤ n →
    tracks (λ _, True) (pt_scan_l_w (T:=T) c fuel n p l r) (pt_scan_l fuel n p l r).
  Proof.
    intros Hn Hr. revert l. induction fuel as [|f IH]; intros l; cbn [pt_scan_l_w pt_scan_l]; [apply tracks_doomed; constructor|].
    destruct (Nat.ltb_spec l r); [|by constructor].
    fbind. intros x _. fbind. intros [] _; [|by constructor].
    unfold allowed in *. rewrite uadd_ok by lia. rewrite Nat.add_1_r. apply IH.
  Qed.
  Lemma tracks_pt_scan_r fuel n p l r :
    tracks (λ _, True) (pt_scan_r_w (T:=T) c fuel n p l r) (pt_scan_r fuel n p l r).
  Proof.
    revert r. induction fuel as [|f IH]; intros r; cbn [pt_scan_r_w pt_scan_r]; [apply tracks_doomed; constructor|].
    destruct (Nat.ltb_spec l r); [|by constructor].
    fbind. intros ? [-> ?]. fbind. intros x _. fbind. intros [] _; [by constructor|].
    rewrite wsub_ok by done. apply IH.
  Qed.
  Lemma tracks_partition n pivot : allowed c n →
    tracks (λ '(mid, _), mid < n) (partition_w (T:=T) c n pivot) (partition c n pivot).
  Proof.
    intros Hn. unfold partition_w, partition. fbind. intros _ _. fbind. intros _ _.
    fbind. intros tmp _. eapply (tracks_bind (λ _, True)).
    - apply tracks_on_unwind; [apply mild_uput|by apply (tracks_refl (λ _, True))|].
      apply tracks_slice. intros.
      assert (Hm : allowed c (n - 1)) by (eapply allowed_le; [done|lia]).
      eapply tracks_bind; [by apply tracks_pt_scan_l|]. intros l _.
      eapply tracks_bind; [by apply tracks_pt_scan_r|]. intros r _.
      eapply tracks_bind; [apply (tracks_slice_post (λ k, k ≤ r - l))|].
      + intros. apply tracks_partition_in_blocks. eapply allowed_le; [done|lia].
      + simpl. intros k (? & ? & ?). unfold allowed in *. rewrite uadd_ok by lia. by constructor.
    - intros [mid was_p] _. fbind. intros _ _. fbind. intros _ [_ ?]. by constructor.
  Qed.

  (** ** [reverse], [break_patterns], [choose_pivot] *)
  Lemma tracks_reverse_loop fuel n half i : allowed c n → half ≤ n → i ≤ half → half - i < fuel →
    tracks (λ _, True) (reverse_loop_w (T:=T) c fuel n half (n - half) i)
      (for_up i (half - i) (λ i, bind (usub (half - 1) i) (λ j, swap n i (n - half + j)))).
  Proof.
    intros Hn Hh. revert i. induction fuel as [|f IH]; intros i Hi Hf; [lia|].
    cbn [reverse_loop_w]. destruct (Nat.ltb_spec i half).
    - replace (half - i) with (S (half - S i)) by lia. cbn [for_up].
      rewrite wsub_ok by lia. rewrite wsub_ok, usub_ok by lia.
      eapply tracks_bind; [apply tracks_swap|]. intros _ _. unfold allowed in *. rewrite uadd_ok by lia.
      rewrite Nat.add_1_r. apply IH; lia.
    - replace (half - i) with 0 by lia. by constructor.
  Qed.
  Lemma tracks_reverse n : allowed c n → tracks (λ _, True) (reverse_w (T:=T) c n) (reverse n).
  Proof.
    intros Hn. unfold reverse_w, reverse. cbv zeta.
    pose proof (Nat.div_le_upper_bound n 2 n ltac:(lia) ltac:(lia)).
    rewrite wsub_ok by done. pose proof (tracks_reverse_loop (S (n / 2)) n (n / 2) 0) as Hr.
    rewrite Nat.sub_0_r in Hr. apply Hr; [done|done|lia|lia].
  Qed.
  Lemma tracks_break_loop n pos i cnt seed : allowed c n → pos ≤ n → 8 ≤ n → i + cnt ≤ 3 →
    tracks (λ _, True) (break_loop_w (T:=T) c n pos i cnt seed) (break_loop c n pos i cnt seed).
  Proof.
    intros Hn Hpos H8. revert i seed. induction cnt as [|k IH]; intros i seed Hi;
      cbn [break_loop_w break_loop]; [by constructor|]. cbv zeta.
    assert (Hmod : (2 ^ N.log2_up (N.of_nat n) < words c)%N).
    { unfold allowed in Hn. destruct (N.log2_up_spec (N.of_nat n) ltac:(lia)) as [H1 _].
      assert (2 ^ N.log2_up (N.of_nat n) < 2 * N.of_nat n)%N; [|lia].
      rewrite <-(N.succ_pred (N.log2_up (N.of_nat n))); [rewrite N.pow_succ_r'; lia|].
      pose proof (N.log2_up_pos (N.of_nat n) ltac:(lia)). lia. }
    rewrite (proj2 (N.ltb_lt _ _) Hmod), bind_of_ret.
    eapply (tracks_bind (λ _, True)).
    { destruct (_ <=? _); [|by constructor]. eapply tracks_mono; [apply tracks_wsub|done]. }
    intros other _. fbind. intros ? [-> ?]. pose proof (words_ge c).
    rewrite uadd_ok by (unfold allowed in *; lia). fbind. intros _ _. apply IH. lia.
  Qed.
  Lemma quarter_le n k : k ≤ 4 → n / 4 * k ≤ n.
  Proof.
    intros. pose proof (Nat.mul_div_le n 4 ltac:(lia)). pose proof (Nat.mul_le_mono_l k 4 (n / 4)). lia.
  Qed.
  Lemma tracks_break_patterns n : allowed c n →
    tracks (λ _, True) (break_patterns_w (T:=T) c n) (break_patterns c n).
  Proof.
    intros Hn. unfold break_patterns_w, break_patterns. destruct (Nat.leb_spec 8 n); [|by constructor].
    pose proof (quarter_le n 2 ltac:(lia)).
    rewrite umul_ok by (unfold allowed in *; lia). apply tracks_break_loop; lia || done.
  Qed.
  Lemma tracks_sort2 n a b swaps : swaps < 100 →
    tracks (λ '(_, _, s), s ≤ swaps + 1) (sort2_w (T:=T) c n a b swaps) (sort2 n a b swaps).
  Proof.
    intros Hs. unfold sort2_w, sort2. fbind. intros x _. fbind. intros y _. fbind. intros [] _.
    - pose proof (words_ge c). rewrite uadd_ok by lia. rewrite Nat.add_1_r. constructor. lia.
    - constructor. lia.
  Qed.
  Lemma tracks_sort3 n a b d swaps : swaps < 90 →
    tracks (λ '(_, _, _, s), s ≤ swaps + 3) (sort3_w (T:=T) c n a b d swaps) (sort3 n a b d swaps).
  Proof.
    intros Hs. unfold sort3_w, sort3.
    eapply tracks_bind; [apply tracks_sort2; lia|]. intros [[a1 b1] s1] H1.
    eapply tracks_bind; [apply tracks_sort2; lia|]. intros [[b2 d2] s2] H2.
    eapply tracks_bind; [apply tracks_sort2; lia|]. intros [[a3 b3] s3] H3. constructor. lia.
  Qed.
  Lemma tracks_sort_adjacent n a swaps : allowed c n → a ≤ n → swaps < 90 →
    tracks (λ '(_, s), s ≤ swaps + 3) (sort_adjacent_w (T:=T) c n a swaps) (sort_adjacent n a swaps).
  Proof.
    intros Hn Ha Hs. unfold sort_adjacent_w, sort_adjacent. fbind. intros ? [-> ?].
    pose proof (words_ge c). rewrite uadd_ok by (unfold allowed in *; lia).
    eapply tracks_bind; [by apply tracks_sort3|]. intros [[[? b] ?] s] ?. by constructor.
  Qed.
  Lemma tracks_choose_pivot n : allowed c n →
    tracks (λ _, True) (choose_pivot_w (T:=T) c n) (choose_pivot n).
  Proof.
    intros Hn. unfold choose_pivot_w, choose_pivot. cbv zeta.
    pose proof (quarter_le n 1 ltac:(lia)). pose proof (quarter_le n 2 ltac:(lia)).
    pose proof (quarter_le n 3 ltac:(lia)). rewrite Nat.mul_1_r in *.
    rewrite !umul_ok by (unfold allowed in *; lia).
    eapply (tracks_bind (λ _, True)).
    - destruct (_ <=? _); [|by constructor].
      eapply (tracks_bind (λ '(_, _, _, s), s ≤ 9)).
      + destruct (_ <=? _); [|constructor; lia].
        eapply tracks_bind; [apply tracks_sort_adjacent; [done..|lia]|]. intros [a1 s1] ?.
        eapply tracks_bind; [apply tracks_sort_adjacent; [done..|lia]|]. intros [a2 s2] ?.
        eapply tracks_bind; [apply tracks_sort_adjacent; [done..|lia]|]. intros [a3 s3] ?.
        constructor. lia.
      + intros [[[a b] d] s] ?. eapply tracks_bind; [apply tracks_sort3; lia|].
        intros [[[? ?] ?] ?] _. by constructor.
    - intros [b s] _. destruct (_ <? _); [by constructor|].
      eapply tracks_bind; [by apply tracks_reverse|]. intros _ _. fbind. intros ? [-> ?].
      fbind. intros ? [-> ?]. by constructor.
  Qed.

  (** ** [quick_sort] *)
  Lemma qs_recurse_w_unfold d f n pred limit wb wp :
    qs_recurse_w (T:=T) c (S d) (S f) n pred limit wb wp =
      (if n <=? QS_MAX_INSERTION then
         if 2 <=? n then insertion_sort_shift_left_w c n 1 else Ret tt
       else if limit =? 0 then heap_sort_w c n
       else
         bind (if wb then Ret limit
               else bind (break_patterns_w c n) (λ _, wsub c limit 1)) (λ limit,
         bind (choose_pivot_w c n) (λ '(pivot, likely_sorted),
         bind (if wb && wp && likely_sorted
               then partial_insertion_sort_w c n else Ret false) (λ done : bool,
         if done then Ret tt
         else
           bind (match pred with
                 | Some p => bind (get n pivot) (λ x, bind (is_less p x) (λ r, Ret (negb r)))
                 | None => Ret false
                 end) (λ eq : bool,
           if eq then
             bind (partition_equal_w c n pivot) (λ mid,
             slice n mid n (λ m, qs_recurse_w c (S d) f m pred limit wb wp))
           else
             bind (partition_w c n pivot) (λ '(mid, was_p),
             bind (wsub c n mid) (λ nmid,
             bind (slice n mid n (λ m, slice m 0 1 (λ _, Ret tt))) (λ _,
             bind (get n mid) (λ p,
             if mid <? n - (mid + 1) then
               bind (slice n 0 mid (λ m, qs_recurse_w c d (S m) m pred limit true true)) (λ _,
               slice n (mid + 1) n (λ m, qs_recurse_w c (S d) f m (Some p) limit
                 (n / 8 <=? Nat.min mid nmid) was_p))
             else
               bind (slice n (mid + 1) n (λ m, qs_recurse_w c d (S m) m (Some p) limit true true)) (λ _,
               slice n 0 mid (λ m, qs_recurse_w c (S d) f m pred limit
                 (n / 8 <=? Nat.min mid nmid) was_p))))))))))).
  Proof. reflexivity. Qed.
  Lemma tracks_limit n limit (wb : bool) : allowed c n →
    tracks (λ _, True) (if wb then Ret limit else bind (break_patterns_w (T:=T) c n) (λ _, wsub c limit 1))
      (if wb then Ret limit else bind (break_patterns c n) (λ _, usub limit 1)).
  Proof.
    intros Hn. destruct wb; [by constructor|]. eapply tracks_bind; [by apply tracks_break_patterns|].
    intros _ _. eapply tracks_mono; [apply tracks_wsub|done].
  Qed.
  Lemma tracks_qs_recurse d f n pred limit wb wp : allowed c n →
    tracks (λ _, True) (qs_recurse_w (T:=T) c d f n pred limit wb wp) (qs_recurse c d f n pred limit wb wp).
  Proof.
    revert f n pred limit wb wp. induction d as [|d IHd]; intros f n pred limit wb wp Hn;
      [apply tracks_doomed; constructor|].
    revert n pred limit wb wp Hn. induction f as [|f IHf]; intros n pred limit wb wp Hn;
      [apply tracks_doomed; constructor|].
    rewrite qs_recurse_w_unfold, qs_recurse_unfold.
    destruct (n <=? _).
    { destruct (2 <=? n); [by apply tracks_shift_left|by constructor]. }
    destruct (limit =? 0); [by apply tracks_heap_sort|].
    eapply tracks_bind; [by apply tracks_limit|]. intros limit' _.
    eapply tracks_bind; [by apply tracks_choose_pivot|]. intros [pivot likely] _.
    eapply (tracks_bind (λ _, True)).
    { destruct (_ && _); [by apply tracks_partial_insertion_sort|by constructor]. }
    intros [] _; [by constructor|].
    eapply (tracks_bind (λ _, True)); [by apply tracks_refl|]. intros [] _.
    - eapply tracks_bind; [by apply tracks_partition_equal|]. intros mid _. apply tracks_slice. intros.
      apply IHf. eapply allowed_le; [done|lia].
    - eapply tracks_bind; [by apply tracks_partition|]. intros [mid was_p] Hmid.
      fbind. intros ? [-> _]. eapply (tracks_bind (λ _, True)); [by apply tracks_refl|]. intros _ _.
      fbind. intros p _. destruct (_ <? _).
      + eapply (tracks_bind (λ _, True)); [apply tracks_slice; intros; apply IHd; eapply allowed_le; [done|lia]|].
        intros _ _. apply tracks_slice. intros. apply IHf. eapply allowed_le; [done|lia].
      + eapply (tracks_bind (λ _, True)); [apply tracks_slice; intros; apply IHd; eapply allowed_le; [done|lia]|].
        intros _ _. apply tracks_slice. intros. apply IHf. eapply allowed_le; [done|lia].
  Qed.
  Lemma tracks_quick_sort n : allowed c n →
    tracks (λ _, True) (quick_sort_w (T:=T) c n) (quick_sort c n).
  Proof.
    intros Hn. unfold quick_sort_w, quick_sort. destruct (zst c); [by constructor|]. by apply tracks_qs_recurse.
  Qed.

  (** ** Selection *)
  Lemma ninther_frac_le n : 12 * ninther_frac n ≤ n.
  Proof.
    unfold ninther_frac. destruct (_ <=? _); [apply Nat.mul_div_le; lia|].
    destruct (_ <=? _)%N.
    - pose proof (Nat.mul_div_le n 64 ltac:(lia)). lia.
    - transitivity (1024 * (n / 1024)); [|apply Nat.mul_div_le; lia]. apply Nat.mul_le_mono_r. lia.
  Qed.
  Lemma tracks_ninthers_loop n frac i cnt a b :
    (N.of_nat (a + 3 * cnt) < words c)%N → (N.of_nat (b + 3 * cnt) < words c)%N →
    (N.of_nat (i + cnt + frac) < words c)%N →
    tracks (λ _, True) (ninthers_loop_w (T:=T) c n frac i cnt a b) (ninthers_loop n frac i cnt a b).
  Proof.
    revert i a b. induction cnt as [|k IH]; intros i a b Ha Hb Hi; cbn [ninthers_loop_w ninthers_loop]; [by constructor|].
    fbind. intros ? [-> ?]. rewrite !uadd_ok by lia.
    eapply (tracks_bind (λ _, True)); [by apply tracks_refl|]. intros _ _.
    apply IH; lia.
  Qed.
  Lemma tracks_median_of_ninthers rec rec' n : allowed c n →
    (∀ m k, m ≤ n → tracks (λ _, True) (rec m k) (rec' m k)) →
    tracks (λ p, p < n) (median_of_ninthers_w (T:=T) c rec n) (median_of_ninthers c rec' n).
  Proof.
    intros Hn Hrec. unfold median_of_ninthers_w, median_of_ninthers. cbv zeta.
    pose proof (ninther_frac_le n) as Hf. revert Hf. generalize (ninther_frac n). intros frac Hf.
    pose proof (Nat.mul_div_le n 2 ltac:(lia)) as H2. pose proof (Nat.mul_div_le frac 2 ltac:(lia)) as Hp.
    revert H2 Hp. generalize (n / 2), (frac / 2). intros half pivot H2 Hp. unfold allowed in Hn.
    fbind. intros ? [-> ?]. rewrite uadd_ok by lia. rewrite umul_ok by lia.
    fbind. intros ? [-> ?]. pose proof (Nat.mul_div_le (n - 9 * frac) 4 ltac:(lia)) as Hg.
    revert Hg. generalize ((n - 9 * frac) / 4). intros gap Hg. rewrite umul_ok by lia.
    fbind. intros ? [-> ?]. fbind. intros ? [-> ?]. rewrite uadd_ok by lia.
    eapply tracks_bind; [apply tracks_ninthers_loop; lia|]. intros _ _. rewrite uadd_ok by lia.
    eapply (tracks_bind (λ _, True)); [apply tracks_slice; intros; apply Hrec; lia|]. intros _ _.
    rewrite uadd_ok by lia. eapply tracks_bind; [by apply tracks_partition|]. intros [p ?] ?. by constructor.
  Qed.
  Definition mom_loop_w (rec : nat → nat → cmp_prog T unit) : nat → nat → nat → cmp_prog T unit :=
    fix loop (fuel n k : nat) : cmp_prog T unit :=
      match fuel with
      | 0 => NoFuel
      | S f =>
          if n <=? SEL_MAX_INSERTION then
            if 1 <? n then insertion_sort_shift_left_w c n 1 else Ret tt
          else
            bind (wsub c n 1) (λ last,
            if k =? last then
              bind (max_index n) (λ m, swap n m k)
            else if k =? 0 then
              bind (min_index n) (λ m, swap n m k)
            else
              bind (median_of_ninthers_w c rec n) (λ p,
              match Nat.compare p k with
              | Eq => Ret tt
              | Gt => slice n 0 p (λ m, loop f m k)
              | Lt =>
                  bind (uadd c p 1) (λ p1,
                  slice n p1 n (λ m,
                    bind (uadd c p 1) (λ p1,
                    bind (wsub c k p1) (λ k', loop f m k'))))
              end))
      end.
  Lemma median_of_medians_w_unfold d n k :
    median_of_medians_w c (S d) n k =
      bind (dassert c (k <? n)) (λ _, bind (dassert c (negb (zst c))) (λ _,
        mom_loop_w (median_of_medians_w c d) (S n) n k)).
  Proof. reflexivity. Qed.
  Lemma tracks_mom_loop rec rec' f n k : allowed c n →
    (∀ m k, m ≤ n → tracks (λ _, True) (rec m k) (rec' m k)) →
    tracks (λ _, True) (mom_loop_w rec f n k) (mom_loop c rec' f n k).
  Proof.
    revert n k. induction f as [|f IH]; intros n k Hn Hrec; [apply tracks_doomed; constructor|].
    cbn [mom_loop_w mom_loop]. fold (mom_loop_w rec) (mom_loop c rec').
    destruct (Nat.leb_spec n SEL_MAX_INSERTION).
    { destruct (1 <? n); [by apply tracks_shift_left|by constructor]. }
    unfold SEL_MAX_INSERTION in *. rewrite wsub_ok by lia.
    destruct (k =? n - 1); [by apply tracks_refl|]. destruct (k =? 0); [by apply tracks_refl|].
    eapply tracks_bind; [by apply tracks_median_of_ninthers|]. intros p Hp.
    destruct (Nat.compare_spec p k).
    - by constructor.
    - rewrite uadd_ok, usub_ok by (unfold allowed in *; lia). apply tracks_slice. intros.
      rewrite uadd_ok, wsub_ok by (unfold allowed in *; lia).
      apply IH; [eapply allowed_le; [done|lia]|]. intros. apply Hrec. lia.
    - apply tracks_slice. intros. apply IH; [eapply allowed_le; [done|lia]|]. intros. apply Hrec. lia.
  Qed.
  Lemma tracks_median_of_medians d n k : allowed c n →
    tracks (λ _, True) (median_of_medians_w (T:=T) c d n k) (median_of_medians c d n k).
  Proof.
    revert n k. induction d as [|d IH]; intros n k Hn; [apply tracks_doomed; constructor|].
    rewrite median_of_medians_w_unfold, median_of_medians_unfold.
    fbind. intros _ _. fbind. intros _ _. apply tracks_mom_loop; [done|].
    intros. apply IH. by eapply allowed_le.
  Qed.
  Lemma tracks_pai_loop f n index pred limit wb : allowed c n →
    tracks (λ _, True) (pai_loop_w (T:=T) c f n index pred limit wb) (pai_loop c f n index pred limit wb).
  Proof.
    revert n index pred limit wb. induction f as [|f IH]; intros n index pred limit wb Hn;
      [apply tracks_doomed; constructor|].
    cbn [pai_loop_w pai_loop]. destruct (n <=? _).
    { destruct (negb _); [by apply tracks_shift_left|by constructor]. }
    destruct (limit =? 0); [by apply tracks_median_of_medians|].
    eapply tracks_bind; [by apply tracks_limit|]. intros limit' _.
    eapply tracks_bind; [by apply tracks_choose_pivot|]. intros [pivot ?] _.
    eapply (tracks_bind (λ _, True)); [by apply tracks_refl|]. intros [] _.
    - eapply tracks_bind; [by apply tracks_partition_equal|]. intros mid _.
      destruct (Nat.ltb_spec index mid); [by constructor|]. rewrite usub_ok by done.
      apply tracks_slice. intros. rewrite wsub_ok by done. apply IH. eapply allowed_le; [done|lia].
    - eapply tracks_bind; [by apply tracks_partition|]. intros [mid was_p] Hmid.
      fbind. intros ? [-> _]. cbv zeta. eapply (tracks_bind (λ _, True)); [by apply tracks_refl|]. intros _ _.
      fbind. intros p _. destruct (Nat.compare_spec mid index).
      + by constructor.
      + rewrite !wsub_ok, usub_ok by lia. replace (index - mid - 1) with (index - (mid + 1)) by lia.
        apply tracks_slice. intros. apply IH. eapply allowed_le; [done|lia].
      + apply tracks_slice. intros. apply IH. eapply allowed_le; [done|lia].
  Qed.
  Lemma tracks_partition_at_index n index : allowed c n →
    tracks (λ '(lv, value, rv), index < n ∧ lv = (0, index) ∧ value = index ∧ rv = (index + 1, n - index - 1))
      (partition_at_index_w (T:=T) c n index) (partition_at_index c n index).
  Proof.
    intros Hn. unfold partition_at_index_w, partition_at_index.
    destruct (Nat.leb_spec n index); [constructor|].
    eapply (tracks_bind (λ _, True)).
    - destruct (zst c); [by constructor|]. rewrite wsub_ok by lia.
      destruct (index =? n - 1); [by apply tracks_refl|]. destruct (index =? 0); [by apply tracks_refl|].
      by apply tracks_pai_loop.
    - intros _ _. eapply (tracks_bind (λ r, r = (0, index, (index, n - index)))).
      { unfold split_at. cbn [fst snd]. rewrite (proj2 (Nat.leb_le index n)) by lia. by constructor. }
      intros ? ->. eapply (tracks_bind (λ r, r = (index, 1, (index + 1, n - index - 1)))).
      { unfold split_at. cbn [fst snd]. rewrite (proj2 (Nat.leb_le 1 (n - index))) by lia. by constructor. }
      intros ? ->. eapply (tracks_bind (λ r, r = index)); [by constructor|].
      intros ? ->. by constructor.
  Qed.

  (** ** [partition_at_indices] *)
  Lemma partition_at_indices_w_unfold d f n base offset inds :
    partition_at_indices_w (T:=T) c (S d) (S f) n base offset inds =
      match inds with
      | [] => Ret []
      | _ =>
          match drop (length inds / 2) inds with
          | [] => Throw IndexPanic
          | pivot :: right_inds =>
              bind (wsub c pivot offset) (λ i,
              bind (partition_at_index_w c n i) (λ '(lv, value, rv),
              bind (slice n lv.1 (lv.1 + lv.2) (λ m,
                     partition_at_indices_w c d (S (length (take (length inds / 2) inds))) m
                       (base + lv.1) offset (take (length inds / 2) inds))) (λ ls,
              bind (uadd c pivot 1) (λ offset',
              bind (slice n rv.1 (rv.1 + rv.2) (λ m,
                     partition_at_indices_w c (S d) f m (base + rv.1) offset' right_inds)) (λ rs,
              Ret (ls ++ (pivot, base + value) :: rs))))))
          end
      end.
  Proof. reflexivity. Qed.
  Lemma partition_at_indices_unfold' d f n base offset inds :
    partition_at_indices (T:=T) c (S d) (S f) n base offset inds =
      match inds with
      | [] => Ret []
      | _ =>
          match drop (length inds / 2) inds with
          | [] => Throw IndexPanic
          | pivot :: right_inds =>
              bind (rel_index c n pivot offset) (λ i,
              bind (partition_at_index c n i) (λ '(lv, value, rv),
              bind (slice n lv.1 (lv.1 + lv.2) (λ m,
                     partition_at_indices c d (S (length (take (length inds / 2) inds))) m
                       (base + lv.1) offset (take (length inds / 2) inds))) (λ ls,
              bind (slice n rv.1 (rv.1 + rv.2) (λ m,
                     partition_at_indices c (S d) f m (base + rv.1) (pivot + 1) right_inds)) (λ rs,
              Ret (ls ++ (pivot, base + value) :: rs)))))
          end
      end.
  Proof. reflexivity. Qed.
  Lemma partition_at_index_w_out {A} n i (f : _ → P A) : n ≤ i →
    bind (partition_at_index_w (T:=T) c n i) f = bind (Throw AssertPanic) f.
  Proof. intros H. unfold partition_at_index_w. by rewrite (proj2 (Nat.leb_le _ _)). Qed.
  Lemma partition_at_index_out {A} n i (f : _ → P A) : n ≤ i →
    bind (partition_at_index (T:=T) c n i) f = bind (Throw AssertPanic) f.
  Proof. intros H. unfold partition_at_index. by rewrite (proj2 (Nat.leb_le _ _)). Qed.
  Lemma tracks_partition_at_indices d f n base offset inds : allowed c (offset + n) →
    tracks (λ _, True) (partition_at_indices_w (T:=T) c d f n base offset inds)
      (partition_at_indices c d f n base offset inds).
  Proof.
    revert f n base offset inds. induction d as [|d IHd]; intros f n base offset inds Hn;
      [apply tracks_doomed; constructor|].
    revert n base offset inds Hn. induction f as [|f IHf]; intros n base offset inds Hn;
      [apply tracks_doomed; constructor|].
    rewrite partition_at_indices_w_unfold, partition_at_indices_unfold'.
    destruct inds as [|i0 inds]; [by constructor|].
    destruct (drop _ _) as [|pivot right_inds]; [constructor|].
    assert (Hn' : allowed c n) by (eapply allowed_le; [done|lia]).
    unfold wsub, rel_index. destruct (Nat.leb_spec offset pivot).
    - rewrite !bind_of_ret.
      eapply tracks_bind; [by apply tracks_partition_at_index|].
      intros [[lv value] rv] (Hi & -> & -> & ->). cbn [fst snd].
      eapply (tracks_bind (λ _, True)).
      { apply tracks_slice. intros. apply IHd. eapply allowed_le; [exact Hn|lia]. }
      intros ls _. unfold allowed in *. rewrite uadd_ok by lia.
      eapply (tracks_bind (λ _, True)); [|intros; by constructor].
      apply tracks_slice. intros. apply IHf. lia.
    - destruct (ovf c); [apply tracks_doomed, doomed_bind; constructor; by right|].
      rewrite !bind_of_ret. unfold allowed in *.
      change (if wide c then 2 ^ 64 else 2 ^ 32)%N with (words c).
      rewrite partition_at_index_w_out by lia.
      rewrite partition_at_index_out by (destruct (N.ltb_spec (N.of_nat pivot + words c - N.of_nat offset) (N.of_nat n)); lia).
      eapply tracks_bind; [apply (tracks_throw (λ _, False))|]. done.
  Qed.
  Lemma tracks_select_many n inds : allowed c n →
    tracks (λ _, True) (select_many_w (T:=T) c n inds) (select_many c n inds).
  Proof. intros. by apply tracks_partition_at_indices. Qed.

  (** ** [binary_search_by] *)
  Lemma tracks_binary_search_loop f n left right : allowed c n → right ≤ n → left ≤ n →
    tracks (λ _, True) (binary_search_loop_w (T:=T) c f n (right - left) left right)
      (binary_search_loop c f n (right - left) left right).
  Proof.
    intros Hn. revert left right. induction f as [|f IH]; intros left right Hr Hl;
      [apply tracks_doomed; constructor|].
    cbn [binary_search_loop_w binary_search_loop]. destruct (Nat.ltb_spec left right); [|by apply tracks_refl].
    pose proof (Nat.mul_div_le (right - left) 2 ltac:(lia)) as Hh. unfold allowed in Hn.
    rewrite uadd_ok by lia. cbv zeta. fbind. intros x Hx. constructor. intros [[]|]; [| | |constructor].
    - rewrite bind_of_ret. by apply tracks_refl.
    - rewrite uadd_ok by lia. fbind. intros ? [-> ?]. apply IH; lia.
    - rewrite bind_of_ret. fbind. intros ? [-> ?]. apply IH; lia.
  Qed.
  Lemma tracks_binary_search_by n : allowed c n →
    tracks (λ _, True) (binary_search_by_w (T:=T) c n) (binary_search_by c n).
  Proof.
    intros Hn. pose proof (tracks_binary_search_loop (S n) n 0 n) as H. rewrite Nat.sub_0_r in H.
    apply H; [done|lia|lia].
  Qed.

  (** ** [partition_dedup] *)
  Lemma tracks_dedup_loop f n cnt next_read next_write :
    allowed c n → next_read + cnt = n → next_write ≤ next_read → cnt < f →
    tracks (λ _, True) (dedup_loop_w (T:=T) c f n next_read next_write)
      (dedup_loop n cnt next_read next_write).
  Proof.
    intros Hn. revert cnt next_read next_write. induction f as [|f IH]; intros cnt nr nw Hc Hw Hf; [lia|].
    cbn [dedup_loop_w]. destruct cnt as [|cnt]; cbn [dedup_loop].
    { rewrite (proj2 (Nat.ltb_ge _ _)) by lia. by constructor. }
    rewrite (proj2 (Nat.ltb_lt _ _)) by lia. fbind. intros ? [-> ?].
    eapply (tracks_bind (λ _, True)); [by apply tracks_refl|]. intros [] _; unfold allowed in *.
    - rewrite bind_of_ret, uadd_ok by lia. rewrite Nat.add_1_r. apply IH; lia.
    - eapply (tracks_bind_assoc (λ _, True)).
      + destruct (nr =? nw); [by constructor|]. rewrite uadd_ok by lia. by apply tracks_refl.
      + intros _ _. rewrite !uadd_ok by lia. rewrite Nat.add_1_r. apply IH; lia.
  Qed.
  Lemma tracks_partition_dedup_by n : allowed c n →
    tracks (λ _, True) (partition_dedup_by_w (T:=T) c n) (partition_dedup_by n).
  Proof.
    intros Hn. unfold partition_dedup_by_w, partition_dedup_by.
    destruct (Nat.leb_spec n 1); [by apply tracks_refl|].
    eapply tracks_bind; [apply (tracks_dedup_loop n n (n - 1) 1 1); lia || done|].
    intros ? _. by apply tracks_refl.
  Qed.
End word.
