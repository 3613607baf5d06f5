(** * CNest: how deep the joins nest, in every schedule. *)
From Verif Require Export CSpan CParUp CMany NestSpec.
From Verif Require Import TParPanic.
From stdpp Require Import list relations.

Local Transparent bind on_unwind focus relocate calls nest polite silent quiet with_asks step.
Local Arguments bind {T Q R A B} !p f.
Local Arguments on_unwind {T Q R A} c !p.
Local Arguments relocate {T Q R A} f !p.
Local Arguments calls {T Q R A} !p Ψ b.
Local Arguments nest {T Q R A} d !p.
Local Arguments polite {T Q R} bad {A} !p.
Local Arguments with_asks {T Q R Q' R'} h {A} !p.
Local Arguments step {T Q R} ans {A} !p act.

Section nests.
  Context {T Q R : Type}.
  Notation P A := (prog T Q R A).

  (** At most [d] joins are active at the same time, and a value [p] returns
      satisfies [Ψ]. *)
  Fixpoint nests {A} (p : P A) (Ψ : A → Prop) (d : nat) : Prop :=
    match p with
    | Ret a => Ψ a
    | Throw _ | Undef | NoFuel => True
    | Read _ k => ∀ x, nests (k x) Ψ d
    | Write _ _ k => nests k Ψ d
    | Ask _ k => ∀ r, nests (k r) Ψ d
    | Par p1 p2 k => 0 < d ∧ ∃ Ψ1 Ψ2, nests p1 Ψ1 (d - 1) ∧ nests p2 Ψ2 (d - 1) ∧
        ∀ x y, arm Ψ1 x → arm Ψ2 y → nests (k x y) Ψ d
    end.

  Lemma nests_mono {A} (p : P A) (Ψ Ψ' : A → Prop) d d' :
    nests p Ψ d → d ≤ d' → (∀ a, Ψ a → Ψ' a) → nests p Ψ' d'.
  Proof.
    revert d d'.
    induction p as [A a|A e|A i f IH|A i x f IH|A q f IH|A B' C p1 IH1 p2 IH2 f IH| |];
      intros d d' Hp Hd HΨ; simpl in *; eauto.
    destruct Hp as (? & Ψ1 & Ψ2 & H1 & H2 & H3). split; [lia|]. exists Ψ1, Ψ2.
    split; [eapply IH1; [exact H1|lia|done]|]. split; [eapply IH2; [exact H2|lia|done]|]. eauto.
  Qed.
  Lemma nests_bind {A A'} (p : P A) (f : A → P A') Ψ Ψ' d :
    nests p Ψ d → (∀ a, Ψ a → nests (f a) Ψ' d) → nests (bind p f) Ψ' d.
  Proof.
    intros Hp Hf. revert Hp.
    induction p as [A a|A e|A i g IH|A i x g IH|A q g IH|A B' C p1 IH1 p2 IH2 g IH| |];
      intros Hp; simpl in *; eauto.
    destruct Hp as (? & Ψ1 & Ψ2 & H1 & H2 & H3). split; [lia|]. exists Ψ1, Ψ2. eauto 10.
  Qed.
  Lemma nests_relocate {A} g (p : P A) Ψ d : nests p Ψ d → nests (relocate g p) Ψ d.
  Proof.
    revert d.
    induction p as [A a|A e|A i k IH|A i x k IH|A q k IH|A B' C p1 IH1 p2 IH2 k IH| |];
      intros d Hp; simpl in *; auto.
    destruct Hp as (? & Ψ1 & Ψ2 & H1 & H2 & H3). split; [lia|]. exists Ψ1, Ψ2. auto.
  Qed.
  Lemma nests_slice {A} n a b (p : nat → P A) Ψ d :
    (a ≤ b → b ≤ n → nests (p (b - a)) Ψ d) → nests (slice n a b p) Ψ d.
  Proof.
    intros H. unfold slice.
    destruct (Nat.leb_spec a b), (Nat.leb_spec b n); cbn [andb]; try done.
    unfold focus. apply nests_relocate. auto.
  Qed.
  Lemma nests_join {A B} (p1 : P A) (p2 : P B) Ψ1 Ψ2 d :
    nests p1 Ψ1 d → nests p2 Ψ2 d →
    nests (rayon_join p1 p2) (λ r, Ψ1 r.1 ∧ Ψ2 r.2) (S d).
  Proof.
    intros H1 H2. simpl. rewrite Nat.sub_0_r. split; [lia|]. exists Ψ1, Ψ2.
    repeat (split; [done|]). intros [?|?] [?|?]; simpl; done.
  Qed.
  Lemma nest_nests {A} (p : P A) d : nest d p → nests p (λ _, True) d.
  Proof.
    revert d.
    induction p as [A a|A e|A i f IH|A i x f IH|A q f IH|A B' C p1 IH1 p2 IH2 f IH| |];
      intros d Hp; simpl in *; eauto.
    destruct Hp as (? & H1 & H2 & H3). split; [done|]. exists (λ _, True), (λ _, True). auto.
  Qed.
  (** Sequential programs. *)
  Lemma calls_nests {A} (p : P A) Ψ b d : nest 0 p → calls p Ψ b → nests p Ψ d.
  Proof.
    revert b.
    induction p as [A a|A e|A i f IH|A i x f IH|A q f IH|A B' C p1 IH1 p2 IH2 f IH| |];
      intros b Hn Hp; simpl in *; eauto.
    - intros r. eapply IH; [done|]. by apply Hp.
    - destruct Hn as [? _]. lia.
  Qed.
  Lemma silent_nest {A} (p : P A) d : silent p → nest d p.
  Proof.
    induction p as [A a|A e|A i f IH|A i x f IH|A q f IH|A B' C p1 IH1 p2 IH2 f IH| |];
      intros Hp; simpl in *; auto; done.
  Qed.
  Lemma quiet_nest {A} (p : P A) d : quiet p → nest d p.
  Proof.
    induction p as [A a|A e|A i f IH|A i x f IH|A q f IH|A B' C p1 IH1 p2 IH2 f IH| |];
      intros Hp; simpl in *; auto; done.
  Qed.
  Lemma polite_nest {A} (bad : Q → R → Prop) (p : P A) d :
    (∀ q r, bad q r ∨ ¬ bad q r) → polite bad p → nest d p.
  Proof.
    intros Hd.
    induction p as [A a|A e|A i f IH|A i x f IH|A q f IH|A B' C p1 IH1 p2 IH2 f IH| |];
      intros Hp; simpl in *; auto; try done.
    intros r. destruct (Hp r) as [H1 H2], (Hd q r); [|auto]. apply quiet_nest. auto.
  Qed.
  Lemma nests_on_unwind {A} cl (p : P A) Ψ d :
    silent cl → nests p Ψ d → nests (on_unwind cl p) Ψ d.
  Proof.
    intros Hc.
    induction p as [A a|A e|A i g IH|A i x g IH|A q g IH|A B' C p1 IH1 p2 IH2 g IH| |];
      intros Hp; simpl in *; auto.
    - eapply nests_bind; [by apply nest_nests, silent_nest|done].
    - destruct Hp as (? & Ψ1 & Ψ2 & H1 & H2 & H3). split; [lia|]. exists Ψ1, Ψ2. auto.
  Qed.

  (** ** Steps. *)
  Lemma nests_step {A} ans (p : P A) act p' Ψ d : nests p Ψ d → step ans p act p' → nests p' Ψ d.
  Proof.
    revert p' d.
    induction p as [A a|A e|A i g IH|A i x g IH|A q g IH|A B' C p1 IH1 p2 IH2 g IH| |];
      intros p' d Hp Hs; simpl in *; try done.
    - destruct Hs as (x & _ & ->). auto.
    - by destruct Hs as (_ & ->).
    - destruct Hs as (r & _ & _ & ->). auto.
    - destruct Hp as (Hd & Ψ1 & Ψ2 & H1 & H2 & H3).
      destruct Hs as [(q & Hs & ->)|[(q & Hs & ->)|(x & y & Hx & Hy & _ & ->)]].
      + simpl. split; [done|]. exists Ψ1, Ψ2. eauto.
      + simpl. split; [done|]. exists Ψ1, Ψ2. eauto.
      + apply H3.
        * destruct p1; try done; injection Hx as <-; done.
        * destruct p2; try done; injection Hy as <-; done.
  Qed.
  Lemma nests_active {A} (p : P A) Ψ d : nests p Ψ d → active p ≤ d.
  Proof.
    revert d.
    induction p as [A a|A e|A i g IH|A i x g IH|A q g IH|A B' C p1 IH1 p2 IH2 g IH| |];
      intros d Hp; simpl in *; try lia.
    destruct Hp as (Hd & Ψ1 & Ψ2 & H1 & H2 & _). apply IH1 in H1. apply IH2 in H2. lia.
  Qed.
  Lemma nests_steps {A} ans (p : P A) l p' l' Ψ d :
    nests p Ψ d → rtc (stepm ans) (p, l) (p', l') → active p' ≤ d.
  Proof.
    intros Hp Hs. cut (nests p' Ψ d); [apply nests_active|].
    remember (p, l) as c eqn:Hc. remember (p', l') as c' eqn:Hc'. revert p l Hc Hp.
    induction Hs as [c|c c2 c3 (act & Hstep & _) Hs IH]; intros p l -> Hp.
    - by injection Hc' as -> ->.
    - destruct c2 as [p2 l2]. eapply IH; [done|done|]. by eapply nests_step.
  Qed.
End nests.

Lemma nests_with_asks {T Q R Q' R' A} (h : Q → prog T Q' R' R) (p : prog T Q R A) Ψ d :
  (∀ q, nest 0 (h q)) → nests p Ψ d → nests (with_asks h p) Ψ d.
Proof.
  intros Hh. revert d.
  induction p as [A a|A e|A i g IH|A i x g IH|A q g IH|A B' C p1 IH1 p2 IH2 g IH| |];
    intros d Hp; simpl in *; auto.
  - eapply nests_bind; [eapply nest_nests, nest_le, Nat.le_0_l; apply Hh|]. auto.
  - destruct Hp as (? & Ψ1 & Ψ2 & H1 & H2 & H3). split; [lia|]. exists Ψ1, Ψ2. auto.
Qed.
Lemma nests_by_compare {T A} (p : cmp_prog T A) Ψ d : nests p Ψ d → nests (by_compare p) Ψ d.
Proof. apply nests_with_asks. intros [x y]. simpl. auto. Qed.
Lemma nests_by_key {T K A} (p : cmp_prog T A) Ψ d : nests p Ψ d → nests (by_key (K:=K) p) Ψ d.
Proof.
  apply nests_with_asks. intros [x y]. simpl. intros [| |]; simpl; try done.
  intros [| |]; simpl; try done. intros []; simpl; done.
Qed.

Global Opaque bind on_unwind focus relocate calls nest polite silent quiet with_asks step nests.

Section instances.
  Context {T : Type} (c : cfg).
  Notation P A := (cmp_prog T A).
  Notation pol := (polite (λ (_ : T * T) (r : option bool), r = None)).

  Lemma pol_nest {A} (p : P A) d : pol p → nest d p.
  Proof. apply polite_nest. intros _ [r|]; [right; done|by left]. Qed.
  Lemma pol_nests {A} (p : P A) Ψ b d : pol p → calls p Ψ b → nests p Ψ d.
  Proof. intros H. apply calls_nests, pol_nest, H. Qed.
  Lemma pol_nests_any {A} (p : P A) d : pol p → nests p (λ _, True) d.
  Proof. intros H. apply nest_nests, pol_nest, H. Qed.

  Lemma dassert_nests (Ψ : unit → Prop) b d : Ψ tt → nests (dassert c b : P unit) Ψ d.
  Proof. intros H. unfold dassert. by destruct (_ && _). Qed.
  Lemma usub_nests (Ψ : nat → Prop) a b d : Ψ (a - b) → nests (usub a b : P nat) Ψ d.
  Proof. intros H. unfold usub. by destruct (_ <=? _). Qed.

  (** ** Selection of many indices. *)
  Lemma par_partition_at_indices_nests fuel n base offset vlen inds d :
    length inds < 2 ^ (d + 1) →
    nests (par_partition_at_indices c fuel n base offset vlen inds : P _) (λ _, True) d.
  Proof.
    revert n base offset vlen inds d.
    induction fuel as [|f IH]; intros n base offset vlen inds d Hd; [done|].
    cbn [par_partition_at_indices]. destruct inds as [|i0 inds]; [done|].
    set (is := i0 :: inds) in *. cbv zeta. set (h := length is / 2) in *.
    pose proof (Nat.div_mod (length is) 2 ltac:(lia)) as Hdm.
    pose proof (Nat.mod_upper_bound (length is) 2 ltac:(lia)) as Hmo. fold h in Hdm.
    destruct (drop h is) as [|pivot rinds] eqn:Hdr; [done|].
    assert (length rinds = length is - h - 1) as Hr.
    { assert (length (drop h is) = S (length rinds)) as H by (by rewrite Hdr).
      rewrite drop_length in H. lia. }
    assert (length (take h is) = h) as Hl by (rewrite take_length; lia).
    rewrite Nat.add_1_r, Nat.pow_succ_r' in Hd.
    eapply nests_bind; [apply pol_nests_any, rel_index_polite|]. intros i _.
    eapply nests_bind; [apply pol_nests_any, partition_at_index_polite|]. intros [[lv value] rv] _.
    destruct (vlen <=? h); [done|].
    eapply (nests_bind _ _ (λ _, True)).
    - destruct (Nat.eqb_spec h 0) as [H0|H0]; cbn [orb].
      + eapply nests_bind; [apply nests_slice; intros _ _; apply IH|].
        { rewrite Nat.add_1_r, Nat.pow_succ_r'. lia. } intros ls _.
        eapply nests_bind; [apply nests_slice; intros _ _; apply IH|].
        { rewrite Nat.add_1_r, Nat.pow_succ_r'. lia. } intros rs _. done.
      + destruct (sequential i).
        * eapply nests_bind; [apply nests_slice; intros _ _; apply IH|].
          { rewrite Nat.add_1_r, Nat.pow_succ_r'. lia. } intros ls _.
          eapply nests_bind; [apply nests_slice; intros _ _; apply IH|].
          { rewrite Nat.add_1_r, Nat.pow_succ_r'. lia. } intros rs _. done.
        * destruct d as [|d]; [rewrite Nat.pow_0_r in Hd; lia|].
          eapply nests_mono; [apply nests_join; (apply nests_slice; intros _ _; apply IH)|done|done].
          -- rewrite Nat.add_1_r. lia.
          -- rewrite Nat.add_1_r. lia.
    - intros [ls rs] _. done.
  Qed.
  Lemma par_select_many_nests n vlen inds :
    nests (par_select_many c n vlen inds : P _) (λ _, True) (Nat.log2 (length inds)).
  Proof.
    eapply nests_bind; [apply par_partition_at_indices_nests|done].
    destruct (decide (length inds = 0)) as [->|]; [simpl; lia|].
    rewrite Nat.add_1_r. apply Nat.log2_spec. lia.
  Qed.
  Lemma par_quick_sort_nests n :
    nests (par_quick_sort c n : P _) (λ _, True) (n - N.to_nat 2001).
  Proof.
    unfold par_quick_sort. destruct (zst c); [done|].
    apply nest_nests, par_qs_recurse_nest. lia.
  Qed.

  (** ** Merging. *)
  Lemma par_merge_nests fuel left right dest j :
    5 ^ j * (left.2 + right.2) < 6 ^ j * leaf_calls →
    nests (par_merge fuel left right dest : P unit) (λ _, True) j.
  Proof.
    revert left right dest j. induction fuel as [|f IH]; intros left right dest j Hj; [done|].
    cbn [par_merge]. set (n := left.2 + right.2) in *.
    destruct (merge_sequential left.2 right.2) eqn:Hseq; [apply pol_nests_any, seq_merge_polite|].
    unfold merge_sequential in Hseq. rewrite !orb_false_iff in Hseq.
    destruct Hseq as [_ Hseq%N.ltb_ge]. fold n in Hseq.
    assert (leaf_calls ≤ n) as Hn by (unfold leaf_calls; lia).
    assert (12 ≤ leaf_calls) as H12 by (unfold leaf_calls; lia).
    clear Hseq. destruct j as [|j]; [rewrite !Nat.pow_0_r, !Nat.mul_1_l in Hj; lia|].
    pose proof (state_drop_silent (T:=T) left right dest 0 0 0) as Hsd.
    eapply nests_bind.
    { apply nests_on_unwind; [done|].
      eapply pol_nests; [apply split_for_merge_polite|apply split_for_merge_spans]. }
    intros [lm rm] Hs. cbn [fst snd] in Hs. fold n in Hs.
    eapply nests_bind; [apply nests_on_unwind; [done|]; eapply pol_nests; [apply vsplit_polite|apply calls_vsplit]|].
    intros [[la ll] [ra rl]] (Hlm & H3 & H4). simpl in H3, H4. subst ll rl.
    eapply nests_bind; [apply nests_on_unwind; [done|]; eapply pol_nests; [apply vsplit_polite|apply calls_vsplit]|].
    intros [[la' ll] [ra' rl]] (Hrm & H3 & H4). simpl in H3, H4. subst ll rl.
    eapply nests_bind; [eapply pol_nests; [apply vsplit_polite|apply calls_vsplit]|].
    intros [dl dr] _. specialize (Hs Hlm Hrm) as [H1 H2].
    rewrite !Nat.pow_succ_r' in Hj.
    assert (∀ m, 4 * m ≤ 3 * n + 4 → 5 ^ j * m < 6 ^ j * leaf_calls) as Hpart.
    { intros m Hm. assert (5 ^ j * (6 * m) ≤ 5 ^ j * (5 * n)) by (apply Nat.mul_le_mono_l; lia). lia. }
    eapply nests_bind; [|done].
    apply (nests_join _ _ (λ _, True) (λ _, True)).
    - apply (IH _ _ _ j); cbn [fst snd]. by apply Hpart.
    - apply (IH _ _ _ j); cbn [fst snd]. by apply Hpart.
  Qed.
  Lemma par_merge_nests_log fuel left right dest n :
    left.2 + right.2 ≤ n →
    nests (par_merge fuel left right dest : P unit) (λ _, True) (4 * (Nat.log2 n - 11)).
  Proof.
    intros Hn. apply par_merge_nests. set (i := Nat.log2 n - 11).
    assert (n < 2 ^ 12 * 2 ^ i) as Hi.
    { rewrite <-Nat.pow_add_r. destruct (decide (n = 0)) as [->|].
      { apply Nat.neq_0_lt_0, Nat.pow_nonzero. lia. }
      pose proof (Nat.log2_spec n ltac:(lia)) as [_ H]. eapply Nat.lt_le_trans; [exact H|].
      apply Nat.pow_le_mono_r; [lia|]. unfold i. lia. }
    assert (2 ^ 12 ≤ leaf_calls) as H12 by (unfold leaf_calls; apply Nat.leb_le; vm_compute; reflexivity).
    rewrite !Nat.pow_mul_r. change (5 ^ 4) with 625.
    assert (2 ^ i * 625 ^ i ≤ (6 ^ 4) ^ i) as H.
    { rewrite <-Nat.pow_mul_l. apply Nat.pow_le_mono_l. apply Nat.leb_le. reflexivity. }
    set (q := 2 ^ 12) in *. clearbody q.
    set (w := left.2 + right.2) in *. set (u := 625 ^ i) in *. set (v := (6 ^ 4) ^ i) in *.
    assert (0 < u) by (apply Nat.neq_0_lt_0, Nat.pow_nonzero; lia).
    assert (u * w < u * (q * 2 ^ i)) by (apply Nat.mul_lt_mono_pos_l; lia).
    assert (v * q ≤ v * leaf_calls) by (apply Nat.mul_le_mono_l; lia).
    assert (q * (2 ^ i * u) ≤ q * v) by (apply Nat.mul_le_mono_l; lia).
    rewrite (Nat.mul_comm v q) in *. 
    assert (u * (q * 2 ^ i) = q * (2 ^ i * u)) by lia. lia.
  Qed.

  Lemma pm_recurse_nests fuel v buf ch into_buf d n :
    Forall (λ x, x.2 ≤ n) ch → length ch ≤ 2 ^ d →
    nests (pm_recurse c fuel v buf ch into_buf : P unit) (λ _, True) (d + 4 * (Nat.log2 n - 11)).
  Proof.
    intros Hn Hd. revert ch into_buf d Hn Hd.
    induction fuel as [|f IH]; intros ch into_buf d Hn Hd; [done|].
    cbn [pm_recurse]. 
    eapply nests_bind; [by apply (dassert_nests (λ _, True))|]. intros [] _.
    destruct (Nat.eqb_spec (length ch) 1) as [H1|H1].
    { destruct into_buf; [|done].
      eapply nests_bind; [apply pol_nests_any, chunk_get_polite|]. intros [x y] _.
      apply nest_nests, silent_nest. pose proof (vget_silent (T:=T)). pose proof (vcopy_silent (T:=T)).
      apply silent_for_up. intros i. apply silent_bind; auto. }
    eapply nests_bind; [eapply pol_nests; [apply chunk_get_polite|apply calls_chunk_get]|]. intros [start x1] Hst.
    eapply nests_bind; [eapply pol_nests; [apply chunk_get_polite|apply calls_chunk_get]|]. intros [mid x2] Hmid.
    eapply nests_bind; [by apply (usub_nests (λ _, True))|]. intros len1 _.
    eapply nests_bind; [eapply pol_nests; [apply chunk_get_polite|apply calls_chunk_get]|]. intros [x3 end_] Hend.
    assert (end_ ≤ n) as Hen.
    { rewrite Forall_lookup in Hn. by apply Hn in Hend. }
    destruct (if into_buf then (v, buf) else (buf, v)) as [src dest].
    eapply nests_bind; [by apply (usub_nests (λ _, True))|]. intros glen _.
    set (h := length ch / 2) in *.
    assert (0 < length ch) as Hpos by (apply lookup_lt_Some in Hmid; lia).
    pose proof (Nat.div_mod (length ch) 2 ltac:(lia)) as Hdm.
    pose proof (Nat.mod_upper_bound (length ch) 2 ltac:(lia)) as Hmo. fold h in Hdm.
    destruct d as [|d]; [simpl in Hd; lia|]. rewrite Nat.pow_succ_r' in Hd.
    eapply nests_bind.
    { apply nests_on_unwind; [apply copy_on_drop_silent|].
      change (S d + 4 * (Nat.log2 n - 11)) with (S (d + 4 * (Nat.log2 n - 11))).
      apply (nests_join _ _ (λ _, True) (λ _, True)); apply IH.
      - by apply Forall_take.
      - rewrite take_length. lia.
      - by apply Forall_drop.
      - rewrite drop_length. lia. }
    intros r _. eapply nests_bind; [eapply pol_nests; [apply vslice_polite|apply calls_vslice]|].
    intros [sl ll] (? & ? & Hll). eapply nests_bind; [eapply pol_nests; [apply vslice_polite|apply calls_vslice]|].
    intros [sr rl] (? & ? & Hrl). eapply nests_bind; [apply pol_nests_any, vslice_polite|].
    intros dst _. eapply nests_mono; [apply (par_merge_nests_log _ _ _ _ n)|lia|done].
    simpl in *. lia.
  Qed.
End instances.

Lemma par_select_many_active {T} (c : cfg) (ans : T * T → option comparison → Prop) n vlen inds l p' l' :
  rtc (stepm ans) (par_select_many_nth_unstable_by c n vlen inds, l) (p', l') →
  active p' ≤ Nat.log2 (length inds).
Proof. eapply nests_steps, nests_by_compare, par_select_many_nests. Qed.
Lemma par_select_many_key_active {T K} (c : cfg) (ans : key_question (T:=T) K → key_answer K → Prop)
    n vlen inds l p' l' :
  rtc (stepm ans) (par_select_many_nth_unstable_by_key c n vlen inds, l) (p', l') →
  active p' ≤ Nat.log2 (length inds).
Proof. eapply nests_steps, nests_by_key, par_select_many_nests. Qed.
Lemma par_sort_unstable_active {T} (c : cfg) (ans : T * T → option comparison → Prop) n l p' l' :
  rtc (stepm ans) (par_sort_unstable_by c n, l) (p', l') →
  active p' ≤ n - N.to_nat 2001.
Proof. eapply nests_steps, nests_by_compare, par_quick_sort_nests. Qed.
Lemma pm_recurse_active {T} (c : cfg) (ans : T * T → option comparison → Prop)
    fuel v buf ch into_buf n l p' l' :
  Forall (λ x, x.2 ≤ n) ch →
  rtc (stepm ans) (by_compare (pm_recurse c fuel v buf ch into_buf), l) (p', l') →
  active p' ≤ Nat.log2_up (length ch) + 4 * (Nat.log2 n - 11).
Proof.
  intros Hn. eapply nests_steps, nests_by_compare, pm_recurse_nests; [done|].
  destruct (decide (length ch ≤ 1)) as [H|H].
  - rewrite Nat.log2_up_eqn0; [|lia]. simpl. lia.
  - by apply Nat.log2_up_spec; lia.
Qed.
