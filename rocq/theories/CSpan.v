(** * CSpan: the rounds of the parallel stable sort. *)
From Verif Require Export CParSort Span CKey.
From stdpp Require Import list.

(** The bounds of src/par/merge_sort.rs:553 and 824: the calls of one sequential
    merge, and of the sort of one chunk. *)
Definition leaf_calls : nat := N.to_nat 5000.
Definition chunk_calls : nat := N.to_nat 240000.
Global Arguments leaf_calls : simpl never.
Global Arguments chunk_calls : simpl never.

Section merge.
  Context {T : Type} (c : cfg).
  Notation P A := (cmp_prog T A).

  (** Both parts of the split get at most five sixths of the elements. *)
  Lemma split_for_merge_spans left right :
    calls (split_for_merge left right : P (nat * nat))
      (λ r, r.1 ≤ left.2 → r.2 ≤ right.2 →
            4 * (r.1 + r.2) ≤ 3 * (left.2 + right.2) + 4 ∧
            4 * ((left.2 - r.1) + (right.2 - r.2)) ≤ 3 * (left.2 + right.2) + 4)
      (Nat.log2 (left.2 + right.2) + 1).
  Proof.
    eapply calls_mono; [apply split_for_merge_calls|done|].
    intros [a b] [H1 H2]. simpl in *. intros Ha Hb. specialize (H2 Ha Hb). lia.
  Qed.

  Lemma par_merge_spans fuel left right dest j L b :
    left.2 + right.2 < 2 ^ (L + 1) → 5 ^ j * (left.2 + right.2) < 6 ^ j * leaf_calls →
    leaf_calls + j * (L + 1) ≤ b →
    spans (par_merge fuel left right dest : P unit) (λ _, True) b.
  Proof.
    revert left right dest j b. induction fuel as [|f IH]; intros left right dest j b HL Hj Hb.
    { done. }
    cbn [par_merge]. set (n := left.2 + right.2) in *.
    destruct (merge_sequential left.2 right.2) eqn:Hseq.
    { apply calls_spans.
      pose proof (λ a b e, state_drop_silent (T:=T) left right dest a b e) as Hsd.
      unfold merge_sequential in Hseq. apply orb_true_iff in Hseq as [Hseq|Hseq].
      - cbn [seq_merge]. replace ((0 <? left.2) && (0 <? right.2)) with false.
        + eapply calls_mono; [apply calls_silent, Hsd|apply Nat.le_0_l|done].
        + symmetry. apply andb_false_iff.
          apply orb_true_iff in Hseq as [Hseq%Nat.eqb_eq|Hseq%Nat.eqb_eq]; rewrite Hseq; auto.
      - apply N.ltb_lt in Hseq. fold n in Hseq. unfold leaf_calls in Hb.
        eapply calls_mono; [eapply (costs_calls _ _ b 0), seq_merge_cost; lia|lia|done]. }
    unfold merge_sequential in Hseq. rewrite !orb_false_iff in Hseq.
    destruct Hseq as [_ Hseq%N.ltb_ge]. fold n in Hseq.
    assert (leaf_calls ≤ n) as Hn by (unfold leaf_calls; lia).
    assert (12 ≤ leaf_calls) as H12 by (unfold leaf_calls; lia).
    clear Hseq. destruct j as [|j]; [rewrite !Nat.pow_0_r, !Nat.mul_1_l in Hj; lia|].
    pose proof (state_drop_silent (T:=T) left right dest 0 0 0) as Hsd.
    assert (Nat.log2 n ≤ L) as HlL.
    { destruct (decide (Nat.log2 n ≤ L)); [done|]. exfalso.
      pose proof (Nat.log2_spec n ltac:(lia)) as [H1 _].
      pose proof (Nat.pow_le_mono_r 2 (L + 1) (Nat.log2 n) ltac:(lia) ltac:(lia)). lia. }
    set (b' := leaf_calls + j * (L + 1)).
    assert (L + 1 + b' ≤ b) as Hb' by (unfold b'; rewrite Nat.mul_succ_l in Hb; lia).
    eapply (spans_bind _ _ _ _ (L + 1) b'); [|  |exact Hb'].
    { apply spans_on_unwind; [done|]. apply calls_spans.
      eapply calls_mono; [apply split_for_merge_spans|fold n; lia|]. intros r Hr. exact Hr. }
    intros [lm rm] Hs. cbn [fst snd] in Hs. fold n in Hs.
    eapply (spans_bind _ _ _ _ 0 b'); [apply spans_on_unwind, calls_spans, calls_vsplit; done| |lia].
    intros [[la ll] [ra rl]] (Hlm & H3 & H4). simpl in H3, H4. subst ll rl.
    eapply (spans_bind _ _ _ _ 0 b'); [apply spans_on_unwind, calls_spans, calls_vsplit; done| |lia].
    intros [[la' ll] [ra' rl]] (Hrm & H3 & H4). simpl in H3, H4. subst ll rl.
    eapply (spans_bind _ _ _ _ 0 b'); [apply calls_spans, calls_vsplit| |lia].
    intros [dl dr] _. specialize (Hs Hlm Hrm) as [H1 H2].
    rewrite !Nat.pow_succ_r' in Hj.
    assert (∀ m, 4 * m ≤ 3 * n + 4 → 5 ^ j * m < 6 ^ j * leaf_calls) as Hpart.
    { intros m Hm. assert (5 ^ j * (6 * m) ≤ 5 ^ j * (5 * n)) by (apply Nat.mul_le_mono_l; lia). lia. }
    eapply (spans_bind _ _ _ _ b' 0); [|done|lia].
    eapply (spans_join _ _ (λ _, True) (λ _, True)).
    - apply (IH _ _ _ j); cbn [fst snd]; [lia|by apply Hpart|done].
    - apply (IH _ _ _ j); cbn [fst snd]; [lia|by apply Hpart|done].
  Qed.
  Lemma par_merge_rounds fuel left right dest L :
    left.2 + right.2 < 2 ^ (L + 1) →
    spans (par_merge fuel left right dest : P unit) (λ _, True) (leaf_calls + 4 * (L + 1) * (L + 1)).
  Proof.
    intros HL. eapply (par_merge_spans _ _ _ _ (4 * (L + 1)) L); [done| |done].
    rewrite !Nat.pow_mul_r. change (5 ^ 4) with 625. 
    assert (2 ^ (L + 1) * 625 ^ (L + 1) ≤ (6 ^ 4) ^ (L + 1)) as H.
    { rewrite <-Nat.pow_mul_l. apply Nat.pow_le_mono_l. apply Nat.leb_le. reflexivity. }
    set (w := left.2 + right.2) in *. set (u := 625 ^ (L + 1)) in *. set (v := (6 ^ 4) ^ (L + 1)) in *.
    assert (0 < u) by (apply Nat.neq_0_lt_0, Nat.pow_nonzero; lia).
    assert (u * w < u * 2 ^ (L + 1)) by (apply Nat.mul_lt_mono_pos_l; lia).
    assert (v * 1 ≤ v * leaf_calls) by (apply Nat.mul_le_mono_l; unfold leaf_calls; lia).
    lia.
  Qed.

  Lemma pm_recurse_spans fuel v buf ch into_buf s e d L w :
    chain s ch e → length ch ≤ 2 ^ d → e - s < 2 ^ (L + 1) → leaf_calls + 4 * (L + 1) * (L + 1) ≤ w →
    spans (pm_recurse c fuel v buf ch into_buf : P unit) (λ _, True) (d * w).
  Proof.
    intros Hch Hd HL Hw. revert ch into_buf s e d Hch Hd HL.
    induction fuel as [|f IH]; intros ch into_buf s e d Hch Hd HL; [done|].
    cbn [pm_recurse]. set (b := d * w).
    eapply (spans_bind _ _ _ _ 0 b); [apply calls_spans, calls_dassert| |lia]. intros [] _.
    destruct (Nat.eqb_spec (length ch) 1) as [H1|H1].
    { destruct into_buf; [|by apply spans_ret].
      eapply (spans_bind _ _ _ _ 0 b); [apply calls_spans, calls_chunk_get| |lia]. intros [x y] _.
      apply calls_spans, calls_silent. pose proof (vget_silent (T:=T)). pose proof (vcopy_silent (T:=T)).
      apply silent_for_up. intros i. apply silent_bind; auto. }
    eapply (spans_bind _ _ _ _ 0 b); [apply calls_spans, calls_chunk_get| |lia]. intros [start x1] Hst.
    eapply (spans_bind _ _ _ _ 0 b); [apply calls_spans, calls_chunk_get| |lia]. intros [mid x2] Hmid.
    eapply (spans_bind _ _ _ _ 0 b); [apply calls_spans, calls_usub| |lia]. intros len1 ->.
    eapply (spans_bind _ _ _ _ 0 b); [apply calls_spans, calls_chunk_get| |lia]. intros [x3 end_] Hend.
    apply (chain_first _ _ _ _ Hch) in Hst. apply (chain_last _ _ _ _ Hch) in Hend.
    simpl in Hst, Hend. subst start end_.
    destruct (if into_buf then (v, buf) else (buf, v)) as [src dest].
    eapply (spans_bind _ _ _ _ 0 b); [apply calls_spans, calls_usub| |lia]. intros glen ->.
    set (h := length ch / 2) in *.
    assert (0 < length ch) as Hpos by (apply lookup_lt_Some in Hmid; lia).
    pose proof (Nat.div_mod (length ch) 2 ltac:(lia)) as Hdm.
    pose proof (Nat.mod_upper_bound (length ch) 2 ltac:(lia)) as Hmo. fold h in Hdm.
    destruct d as [|d]; [simpl in Hd; lia|]. rewrite Nat.pow_succ_r' in Hd.
    rewrite <-(take_drop h ch) in Hch. apply chain_app in Hch as (m & Hc1 & Hc2).
    pose proof (chain_le _ _ _ Hc1). pose proof (chain_le _ _ _ Hc2).
    eapply (spans_bind _ _ _ _ (d * w) w); [| |unfold b; rewrite Nat.mul_succ_l; lia].
    { apply spans_on_unwind; [apply copy_on_drop_silent|].
      eapply spans_join.
      - eapply IH; [exact Hc1| |lia]. rewrite take_length. lia.
      - eapply IH; [exact Hc2| |lia]. rewrite drop_length. lia. }
    intros r _. eapply (spans_bind _ _ _ _ 0 w); [apply calls_spans, calls_vslice| |lia].
    intros [sl ll] (? & ? & Hll). eapply (spans_bind _ _ _ _ 0 w); [apply calls_spans, calls_vslice| |lia].
    intros [sr rl] (? & ? & Hrl). eapply (spans_bind _ _ _ _ 0 w); [apply calls_spans, calls_vslice| |lia].
    intros dst _. eapply spans_mono; [apply (par_merge_rounds _ _ _ _ L)|exact Hw|done].
    simpl in *. lia.
  Qed.
End merge.

(** ** Tasks. *)
Section bridge.
  Context {T Q R : Type}.
  Notation P A := (prog T Q R A).

  Lemma par_each_spans {B} (ts : list (P B)) b :
    Forall (λ t, spans t (λ _, True) b) ts → spans (par_each ts) (λ _, True) b.
  Proof.
    induction 1 as [|t ts Ht H IH]; simpl; [by apply spans_ret|].
    eapply (spans_par _ _ _ _ _ _ b 0); [exact Ht|exact IH| |lia].
    intros x [y|e] _ _; [by apply spans_ret|apply spans_throw].
  Qed.
  Lemma par_bridge_spans {B} f (ts : list (P B)) b :
    Forall (λ t, spans t (λ _, True) b) ts → spans (par_bridge f ts) (λ _, True) (b + b).
  Proof.
    intros H. unfold par_bridge.
    eapply (spans_bind _ _ (λ _, True) _ b b); [| |lia].
    { apply par_each_spans. generalize 0. induction H as [|t ts Ht H IH]; intros i; simpl; constructor.
      - destruct (f i); [|by apply spans_ret].
        eapply (spans_bind _ _ _ _ b 0); [exact Ht| |lia]. intros x _. by apply spans_ret.
      - apply IH. }
    intros rs _. eapply (spans_bind _ _ _ _ 0 b); [apply calls_spans, all_done_calls| |lia].
    intros os _. eapply (spans_bind _ _ (λ _, True) _ b 0); [| |lia].
    { apply par_each_spans. clear rs. revert os.
      induction H as [|t ts Ht H IH]; intros [|[x|] os]; simpl; constructor; auto. by apply spans_ret. }
    intros rs' _. eapply spans_mono; [apply calls_spans, all_done_calls|lia|done].
  Qed.
End bridge.

Section sort.
  Context {T : Type} (c : cfg).
  Notation P A := (cmp_prog T A).
  Notation bounds_of := (zip_with (λ '(l, m) (res : ms_result), (l, l + m, res))).

  Lemma axis_chunks_sizes fuel n l :
    Forall (λ x, x.2 ≤ CHUNK_LENGTH) (axis_chunks fuel n l).
  Proof.
    revert l. induction fuel as [|f IH]; intros l; cbn [axis_chunks]; [constructor|].
    destruct (l <? n); [|constructor]. constructor; [|apply IH]. cbn [snd]. apply Nat.le_min_l.
  Qed.
  Lemma axis_chunks_count fuel n l :
    l < n → CHUNK_LENGTH * (length (axis_chunks fuel n l) - 1) ≤ n - l.
  Proof.
    revert l. induction fuel as [|f IH]; intros l Hl; cbn [axis_chunks]; [simpl; lia|].
    rewrite (proj2 (Nat.ltb_lt l n) Hl). cbn [length].
    set (k := length (axis_chunks f n (l + CHUNK_LENGTH))) in *.
    destruct (decide (l + CHUNK_LENGTH < n)) as [Hn|Hn].
    - specialize (IH _ Hn). fold k in IH. replace (S k - 1) with k by lia.
      destruct k as [|k]; [lia|]. replace (S k - 1) with k in IH by lia. rewrite Nat.mul_succ_r. lia.
    - assert (k = 0) as -> by (unfold k; rewrite axis_chunks_end by lia; done). simpl. lia.
  Qed.

  Lemma chunk_cost m cap :
    m ≤ CHUNK_LENGTH → calls (pm_merge_sort c m cap : P _) (λ _, True) chunk_calls.
  Proof.
    intros Hm. eapply calls_mono; [eapply (costs_calls _ _ chunk_calls 0)|lia|done].
    apply pm_merge_sort_cost.
    pose proof (Nat.log2_le_mono _ _ Hm) as Hl. change (Nat.log2 CHUNK_LENGTH) with 10 in Hl.
    assert ((10 * Nat.log2 m + 20) * m ≤ 120 * m) by (apply Nat.mul_le_mono_r; lia).
    unfold chunk_calls, CHUNK_LENGTH in *. lia.
  Qed.

  Lemma par_sort_spans take_item n :
    let L := Nat.log2 n in
    spans (par_sort c take_item n : P unit) (λ _, True)
      (n / CHUNK_LENGTH + (L + 1) * (leaf_calls + 4 * (L + 1) * (L + 1)) + 2 * chunk_calls).
  Proof.
    cbv zeta. unfold par_sort, par_merge_sort. set (L := Nat.log2 n).
    set (w := leaf_calls + 4 * (L + 1) * (L + 1)).
    set (b := n / CHUNK_LENGTH + (L + 1) * w + 2 * chunk_calls).
    assert (chunk_calls ≤ b) as Hcb by (unfold b; lia).
    assert (400 ≤ chunk_calls) as Hc4 by (unfold chunk_calls; lia).
    destruct (zst c); [by apply spans_ret|].
    destruct (Nat.leb_spec n PM_MAX_INSERTION) as [Hn|Hn].
    { unfold PM_MAX_INSERTION in Hn.
      destruct (Nat.leb_spec 2 n) as [H2|H2]; [|by apply spans_ret].
      assert ((n - 1) * (n - 1) ≤ 20 * 20) by (apply Nat.mul_le_mono; lia).
      apply calls_spans. eapply calls_mono; [eapply (costs_calls _ _ b 0)|lia|done].
      eapply (costs_for_down 0 (n - 1) _ (λ j k', k' + j * (n - 1) ≤ (n - 1) * (n - 1))).
      - lia.
      - intros j k' Hj Hk'. simpl in Hk'. set (p := j * (n - 1)) in *. set (q := (n - 1) * (n - 1)) in *.
        apply costs_slice. intros _ _. cost_call pm_insert_head_cost; [lia|]. cost_fin. }
    destruct (Nat.leb_spec n CHUNK_LENGTH) as [Hc|Hc].
    { apply calls_spans. eapply (calls_bind _ _ (λ _, True) _ chunk_calls 0); [| |lia].
      - by apply chunk_cost.
      - intros res _. destruct (ms_eqb _ _); [apply calls_silent, reverse_silent|by apply calls_ret]. }
    destruct (axis_chunks_bounds n n 0 ltac:(lia)) as (_ & _ & Hchain).
    pose proof (axis_chunks_sizes n n 0) as Hsizes.
    pose proof (axis_chunks_count n n 0 ltac:(lia)) as Hcount.
    set (bounds := axis_chunks n n 0) in *.
    eapply (spans_bind _ _ (λ _, True) _ (chunk_calls + chunk_calls) (n / CHUNK_LENGTH + (L + 1) * w));
      [| |unfold b; lia].
    { apply par_bridge_spans. clear -Hsizes. induction Hsizes as [|[l m] bs Hm Hs IH]; [constructor|].
      cbn [map]. constructor; [|exact IH]. apply calls_spans. by apply calls_relocate, chunk_cost. }
    intros results _. destruct (Hchain results) as (e & He & Hch).
    assert (length (bounds_of bounds results) - 1 ≤ n / CHUNK_LENGTH) as Hlz.
    { apply Nat.div_le_lower_bound; [done|]. rewrite Nat.sub_0_r in Hcount.
      etrans; [|exact Hcount]. apply Nat.mul_le_mono_l. rewrite zip_with_length. lia. }
    assert (e < 2 ^ (L + 1)) as HL.
    { eapply Nat.le_lt_trans; [exact He|]. apply lt_pow2_log2. }
    destruct (bounds_of bounds results) as [|[[a b0] res] rest].
    { eapply spans_mono; [apply (pm_recurse_spans c _ _ _ [] _ 0 0 0 L w)|lia|done];
        [done|simpl; lia|lia|done]. }
    rewrite fmap_cons in Hch. cbn [chain fst snd] in Hch. destruct Hch as (-> & Hb & Hch).
    simpl in Hlz.
    eapply (spans_bind _ _ _ _ (n / CHUNK_LENGTH) ((L + 1) * w));
      [apply calls_spans, pm_concat_calls; [exact Hb|exact Hch|lia]| |lia].
    intros ch [Hch' Hl]. eapply (pm_recurse_spans c _ _ _ ch _ 0 e (L + 1) L w); [exact Hch'| |lia|done].
    etrans; [|apply Nat.lt_le_incl, lt_pow2_log2].
    assert (n / CHUNK_LENGTH < n) by (apply Nat.div_lt; [lia|unfold CHUNK_LENGTH; lia]). lia.
  Qed.
End sort.

Local Transparent bind spans.
Local Arguments bind {T Q R A B} !p f.
Local Arguments spans {T Q R A} !p Ψ b.
Lemma spans_with_asks {T Q R Q' R' A} (h : Q → prog T Q' R' R) w (p : prog T Q R A) Ψ b :
  (∀ q, spans (h q) (λ _, True) w) → spans p Ψ b → spans (with_asks h p) Ψ (w * b).
Proof.
  intros Hh. revert Ψ b.
  induction p as [A a|A e|A i g IH|A i x g IH|A q g IH|A B' C p1 IH1 p2 IH2 g IH| |];
    intros Ψ b Hp; unfold with_asks; fold (@with_asks T Q R Q' R' h); cbn [spans] in *; auto.
  - destruct Hp as [Hb Hp]. eapply (spans_bind _ _ _ _ w (w * (b - 1))); [apply Hh| |].
    + intros r _. apply IH, Hp.
    + destruct b; [lia|]. replace (S b - 1) with b by lia. rewrite Nat.mul_succ_r. lia.
  - destruct Hp as (c1 & c2 & Ψ1 & Ψ2 & Hb & H1 & H2 & H3).
    exists (w * c1), (w * c2), Ψ1, Ψ2.
    split; [rewrite <-!Nat.mul_add_distr_l; by apply Nat.mul_le_mono_l|]. auto.
Qed.
Lemma spans_by_key {T K A} (p : cmp_prog T A) Ψ b : spans p Ψ b → spans (by_key (K:=K) p) Ψ (3 * b).
Proof.
  apply spans_with_asks. intros [x y]. simpl. split; [lia|]. intros [| |]; simpl; auto.
  split; [lia|]. intros [| |]; simpl; auto. split; [lia|]. intros [| |]; simpl; auto.
Qed.
Global Opaque bind spans.

Lemma span_bound m n b :
  m ≤ b * (n / CHUNK_LENGTH + (Nat.log2 n + 1) * (leaf_calls + 4 * (Nat.log2 n + 1) * (Nat.log2 n + 1))
    + 2 * chunk_calls) →
  (N.of_nat m ≤ N.of_nat b * (N.of_nat n / 2000 + 4 * N.of_nat (Nat.log2 n + 1) ^ 3 +
    5000 * N.of_nat (Nat.log2 n + 1) + 480000))%N.
Proof.
  intros H. set (L := Nat.log2 n + 1) in *.
  assert (N.of_nat (n / CHUNK_LENGTH) = (N.of_nat n / 2000)%N) as Hd.
  { rewrite Nat2N.inj_div. done. }
  assert (N.of_nat m ≤ N.of_nat (b * (n / CHUNK_LENGTH + L * (leaf_calls + 4 * L * L) + 2 * chunk_calls)))%N
    as H' by lia.
  rewrite !Nat2N.inj_mul, !Nat2N.inj_add, !Nat2N.inj_mul, !Nat2N.inj_add, !Nat2N.inj_mul, Hd in H'.
  unfold leaf_calls, chunk_calls in H'. rewrite !N2Nat.id in H'.
  etrans; [exact H'|]. apply N.mul_le_mono_l.
  rewrite (N.pow_succ_r' _ 2), (N.pow_2_r). lia.
Qed.

Section rounds.
  Context {T : Type} (c : cfg).
  Implicit Types (l junk : list T).

  Lemma par_sort_rounds_bound take_item ans l junk m st :
    rounds ans m (par_sort c take_item (length l) : cmp_prog T unit, l ++ junk) st →
    let n := length l in
    (N.of_nat m ≤ N.of_nat n / 2000 + 4 * N.of_nat (Nat.log2 n + 1) ^ 3 +
      5000 * N.of_nat (Nat.log2 n + 1) + 480000)%N.
  Proof.
    intros Hm n. rewrite <-N.mul_1_l. apply (span_bound m n 1). rewrite Nat.mul_1_l.
    eapply spans_rounds; [|exact Hm]. apply par_sort_spans.
  Qed.
  Lemma par_sort_by_rounds_bound take_item ans l junk m st :
    rounds ans m (par_sort_by c take_item (length l), l ++ junk) st →
    let n := length l in
    (N.of_nat m ≤ N.of_nat n / 2000 + 4 * N.of_nat (Nat.log2 n + 1) ^ 3 +
      5000 * N.of_nat (Nat.log2 n + 1) + 480000)%N.
  Proof.
    intros Hm n. rewrite <-N.mul_1_l. apply (span_bound m n 1). rewrite Nat.mul_1_l.
    eapply spans_rounds; [|exact Hm]. apply spans_by_compare, par_sort_spans.
  Qed.
  Lemma par_sort_by_key_rounds_bound {K} take_item (ans : key_question K → key_answer K → Prop) l junk m st :
    rounds ans m (par_sort_by_key c take_item (length l), l ++ junk) st →
    let n := length l in
    (N.of_nat m ≤ 3 * (N.of_nat n / 2000 + 4 * N.of_nat (Nat.log2 n + 1) ^ 3 +
      5000 * N.of_nat (Nat.log2 n + 1) + 480000))%N.
  Proof.
    intros Hm n. apply (span_bound m n 3).
    eapply spans_rounds; [|exact Hm]. apply spans_by_key, par_sort_spans.
  Qed.
End rounds.
