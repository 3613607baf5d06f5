(** * The stable sort makes O(n log k) calls for k sorted sequences one after another. *)
From Verif Require Export CRuns CKey.
From stdpp Require Import list.

Local Arguments collapse_loop : simpl never.

(** The answer of [lt], or a panic. *)
Definition may_lt {T} (lt : T → T → bool) (q : T * T) (r : option bool) : Prop :=
  ∀ b, r = Some b → b = lt q.1 q.2.

Section runs.
  Context {T : Type} (c : cfg) (lt : T → T → bool).
  Notation ans := (may_lt lt).
  Notation ok := (cnt_ans (may_lt lt)).

  (** Non-descending or strictly descending. *)
  Definition monotone (p : list T) : Prop :=
    sorted_wrt lt p ∨ StronglySorted (λ a b, lt b a = true) p.
  (** [l] consists of at most [j] such sequences. *)
  Definition pieces (j : nat) (l : list T) : Prop :=
    ∃ ls, concat ls = l ∧ length ls ≤ j ∧ Forall monotone ls.

  Lemma strongly_drop (R : T → T → Prop) i l : StronglySorted R l → StronglySorted R (drop i l).
  Proof.
    revert l. induction i as [|i IH]; intros [|x l] H; simpl; auto.
    apply IH. by inversion H.
  Qed.
  Lemma pieces_drop j i l : pieces j l → pieces j (drop i l).
  Proof.
    intros (ls & <- & Hj & Hls). revert j i Hj.
    induction Hls as [|p ls Hp Hls IH]; intros j i Hj; simpl in *.
    - exists []. by rewrite drop_nil.
    - destruct j as [|j]; [lia|]. destruct (IH j (i - length p)) as (ls' & H1 & H2 & H3); [lia|].
      exists (drop i p :: ls'). simpl. rewrite H1, skipn_app. split; [done|]. split; [lia|].
      constructor; [|done]. destruct Hp; [left|right]; by apply strongly_drop.
  Qed.
  Lemma pieces_first j l :
    pieces j l → l ≠ [] → ∃ p q, l = p ++ q ∧ p ≠ [] ∧ monotone p ∧ 0 < j ∧ pieces (j - 1) q.
  Proof.
    intros (ls & <- & Hj & Hls). revert j Hj.
    induction Hls as [|p ls Hp Hls IH]; intros j Hj Hne; simpl in *; [done|].
    destruct p as [|x p].
    - destruct (IH (j - 1)) as (p & q & H1 & H2 & H3 & H4 & H5); [lia|done|].
      exists p, q. repeat split; auto; [lia|].
      destruct H5 as (ls' & ? & ? & ?). exists ls'. repeat split; auto. lia.
    - exists (x :: p), (concat ls). repeat split; auto; [lia|]. exists ls. repeat split; auto. lia.
  Qed.
  Lemma pieces_all l : pieces (length l) l.
  Proof.
    exists (map (λ x, [x]) l). rewrite map_length. split; [|split; [done|]].
    - induction l; simpl; congruence.
    - apply Forall_map, Forall_forall. intros x _. left. by repeat constructor.
  Qed.
  Lemma monotone_streak p : monotone p → ∃ want, streak lt want p.
  Proof. intros [H|H]; eexists; by apply sorted_streak. Qed.

  (** The streak found covers the first sequence. *)
  Lemma streak_loop_first want fuel n e p q :
    n = length (p ++ q) → 0 < e → e ≤ n → n < fuel + e → streak lt want p →
    wp ans (streak_loop want fuel n e) (λ j _, length p ≤ j) (λ _ _, True) (p ++ q).
  Proof.
    intros Hn. revert e. induction fuel as [|f IH]; intros e He Hen Hf Hs; [lia|]. simpl.
    destruct (Nat.ltb_spec e n).
    - apply wp_bind, wp_uget; [lia|lia|]. intros x Hx.
      apply wp_bind, wp_uget; [lia|lia|]. intros y Hy.
      apply wp_bind, wp_is_less.
      + intros b Hans. specialize (Hans b eq_refl). simpl in Hans. subst b.
        destruct (Bool.eqb (lt x y) want) eqn:Hb; [by apply IH; [lia..|]|].
        apply wp_ret. destruct (decide (length p ≤ e)); [done|]. exfalso.
        rewrite lookup_app_l in Hx by lia. rewrite lookup_app_l in Hy by lia.
        rewrite (Hs e x y He Hx Hy), eqb_reflx in Hb. done.
      + done.
    - apply wp_ret. rewrite app_length in Hn. lia.
  Qed.
  Local Arguments streak_loop : simpl never.
  Lemma find_streak_first n p q :
    n = length (p ++ q) → monotone p → p ≠ [] →
    wp ans (find_streak n) (λ r _, length p ≤ r.1) (λ _ _, True) (p ++ q).
  Proof.
    intros Hn Hp Hne. unfold find_streak.
    assert (0 < length p) by (destruct p; simpl; [done|lia]).
    pose proof (app_length p q). destruct (Nat.ltb_spec n 2).
    { apply wp_ret. simpl. lia. }
    apply wp_bind, wp_uget; [lia|lia|]. intros x Hx.
    apply wp_bind, wp_uget; [lia|lia|]. intros y Hy.
    apply wp_bind, wp_is_less; [|done].
    intros b Hans. specialize (Hans b eq_refl). simpl in Hans. subst b. apply wp_bind.
    apply monotone_streak in Hp as [want Hp].
    assert (Hs : streak lt (lt x y) p).
    { intros i a b Hi Ha Hb. rewrite (Hp i a b Hi Ha Hb). symmetry.
      pose proof (lookup_lt_Some _ _ _ Ha).
      apply (Hp 1); [lia| |]; by rewrite lookup_app_l in * by lia. }
    wp_apply (streak_loop_first (lt x y) (S n) n 2 p q); [done|lia|lia|lia|done| |done].
    intros j l' _ Hj. by apply wp_ret.
  Qed.

  (** Extending a run leaves the elements behind it alone. *)
  Lemma provide_sorted_batch_rest n A s rest :
    n = length (A ++ s ++ rest) → s ≠ [] → ksorted ans s →
    wp ans (provide_sorted_batch c n (length A) (length A + length s))
      (λ e l', ∃ s' k, l' = A ++ s' ++ drop k rest ∧ e = length A + length s' ∧
         s' ≠ [] ∧ ksorted ans s' ∧ sperm ans (s ++ rest) (s' ++ drop k rest))
      (upanic ans (A ++ s ++ rest)) (A ++ s ++ rest).
  Proof.
    intros Hn Hne Hs. rewrite !app_length in Hn. unfold provide_sorted_batch.
    assert (0 < length s) by (destruct s; simpl; [done|lia]).
    apply wp_bind, wp_assert.
    { rewrite !(proj2 (Nat.leb_le _ _)) by lia. done. }
    replace (length A + length s - length A) with (length s) by lia.
    destruct (_ && _) eqn:Hb.
    2: { apply wp_ret. exists s, 0. rewrite drop_0. repeat split; auto; reflexivity. }
    apply andb_true_iff in Hb as [Hb1%Nat.ltb_lt Hb2%Nat.ltb_lt].
    set (e := Nat.min (length A + MIN_INSERTION_RUN) n).
    set (k := e - length A - length s).
    assert (Hk : k ≤ length rest) by (unfold k, e; lia).
    assert (He : e = length A + length s + k) by (unfold k, e in *; lia).
    apply wp_bind.
    replace (A ++ s ++ rest) with (A ++ (s ++ take k rest) ++ drop k rest) at 2
      by (rewrite <-app_assoc, take_drop; done).
    assert (Hlen : length (s ++ take k rest) = length s + k)
      by (rewrite app_length, take_length; lia).
    apply wp_slice_app; [done|rewrite Hlen; lia|unfold e; lia|].
    wp_apply (insertion_sort_shift_left_spec c ans (length (s ++ take k rest))
               (Nat.max (length s) 1) (s ++ take k rest)).
    - done.
    - lia.
    - intros [] m _ [Hm Hsm] Hlm. apply wp_ret.
      exists m, k. repeat split.
      + lia.
      + intros ->. simpl in Hlm. lia.
      + apply Hsm. rewrite take_app_alt by lia. done.
      + etrans; [|by apply sperm_app_r]. rewrite <-app_assoc, take_drop. done.
    - intros e' m _ (He' & Hex & Hpp) _. split; [done|]. split; [done|].
      rewrite Hpp. rewrite <-app_assoc, take_drop. done.
  Qed.

  Lemma runs_of_at off (segs : list (list T)) : runs_of off segs = runs_at off (map length segs).
  Proof. revert off. induction segs as [|s segs IH]; intros off; simpl; [done|]. by rewrite IH. Qed.
  Lemma runs_at_inj off l1 l2 : runs_at off l1 = runs_at off l2 → l1 = l2.
  Proof.
    revert off l2. induction l1 as [|a l1 IH]; intros off [|b l2]; simpl; try done.
    intros [= <- H]. f_equal. by eapply IH.
  Qed.
  Lemma sum_lengths (segs : list (list T)) : sum_list (map length segs) = length (concat segs).
  Proof. induction segs as [|s segs IH]; simpl; [done|]. by rewrite app_length, IH. Qed.

  Lemma merge_sort_loop_runs fuel n K m l0 segs rest j g :
    0 < K → n ≤ K * m → K * m ≤ 2 * n →
    n = length (concat segs ++ rest) → length rest < fuel →
    Forall (seg_ok ans) segs → sperm ans l0 (concat segs ++ rest) →
    pieces j rest → j ≤ K → fib (rev (map length segs)) →
    g + 4 * pot (rev (map length segs)) ≤
      (8 * Nat.log2 K + 50) * length (concat segs) + 8 * (m * (K - j)) →
    rest ≠ [] →
    wpg ok (merge_sort_loop c fuel (n / 2) n (length (concat segs)) (length (concat segs))
              (runs_of 0 segs))
      (λ _ g' _, g' ≤ (8 * Nat.log2 K + 70) * n) (λ _ g' _, g' ≤ (8 * Nat.log2 K + 70) * n)
      g (concat segs ++ rest).
  Proof.
    intros HK Hm1 Hm2. set (L := Nat.log2 K). set (B := (8 * L + 70) * n).
    revert segs rest j g.
    induction fuel as [|f IH]; intros segs rest j g Hn Hf Hok Hp Hpc HjK Hfib Hg Hrest; [lia|].
    cbn [merge_sort_loop]. rewrite app_length in Hn.
    assert (Hr0 : 0 < length rest) by (destruct rest; simpl; [done|lia]).
    destruct (Nat.ltb_spec (length (concat segs)) n) as [Hlt|Hge]; [|lia].
    set (s := length (concat segs)) in *.
    destruct (pieces_first _ _ Hpc Hrest) as (p & q & Hpq & Hpne & Hmon & Hj & Hpc').
    assert (HmKj : m * (K - j) + m ≤ 2 * n).
    { etrans; [|exact Hm2]. rewrite (Nat.mul_comm K m), <-Nat.mul_succ_r.
      apply Nat.mul_le_mono_l. lia. }
    set (C := 8 * L + 50) in *.
    assert (HB : B = C * s + C * length rest + 20 * n).
    { unfold B, C. replace n with (s + length rest) at 1 by lia. lia. }
    assert (HC : 10 * length rest ≤ C * length rest) by (apply Nat.mul_le_mono_r; unfold C; lia).
    apply wpg_bind.
    replace (concat segs ++ rest) with (concat segs ++ rest ++ []) by (by rewrite app_nil_r).
    apply wpg_slice_app; [done|unfold s; lia|lia|].
    eapply wpg_mono.
    { eapply (costs_wp ans _ (λ p k', 0 < p.1 ∧ p.1 ≤ length rest ∧ k' ≤ g + p.1) _ _ B g rest); [lia| |].
      - eapply (wp_conj ans ans ans _ (λ _ _ H, H) (λ _ _ H, H)).
        + by apply (find_streak_spec ans (length rest) rest).
        + rewrite Hpq. by apply find_streak_first.
      - apply find_streak_cost; [done|lia]. }
    2: { intros e g' l' _ [? _] _. done. }
    intros [e r] g1 l' _ [(_ & _ & Hg1) ((-> & He0 & He & Hs) & Hfirst)] _.
    simpl in Hg1, He0, He, Hs, Hfirst. rewrite app_nil_r. cbv beta iota zeta.
    assert (Hte : length (take e rest) = e) by (rewrite take_length; lia).
    assert (Hpcd : ∀ k, pieces (j - 1) (drop k (drop e rest))).
    { intros k. apply pieces_drop. rewrite Hpq, skipn_app, drop_ge by done. simpl.
      by apply pieces_drop. }
    apply wpg_bind. fold s.
    (* after reversing a descending streak *)
    eapply (wpg_mono _ _ (λ _ g' l', g' = g1 ∧ ∃ s, l' = concat segs ++ s ++ drop e rest ∧
              s ≠ [] ∧ length s = e ∧ ksorted ans s ∧ sperm ans (take e rest) s) _
              (λ _ g' _, g' ≤ B)).
    { destruct r; simpl in Hs.
      - replace (concat segs ++ rest) with (concat segs ++ take e rest ++ drop e rest)
          by (by rewrite take_drop).
        apply wpg_slice_app; [done|unfold s; lia|lia|].
        eapply wpg_mono.
        { apply (costs_wp ans _ (λ _ k', k' = g1) (λ _ l', l' = rev (take e rest)) (λ _ _, False) B);
            [lia|by apply reverse_spec|]. apply costs_silent, reverse_silent. }
        + intros [] g' m' _ [-> ->] Hlm. split; [done|]. exists (rev (take e rest)). repeat split.
          * intros Hnil. rewrite Hnil in Hlm. simpl in Hlm. lia.
          * lia.
          * by apply ksorted_rev.
          * by apply sperm_reverse.
        + by intros ? ? ? _ [_ []].
      - apply wpg_ret. split; [done|]. exists (take e rest). repeat split.
        + by rewrite take_drop.
        + intros Hnil. rewrite Hnil in Hte. simpl in Hte. lia.
        + done.
        + done.
        + reflexivity. }
    2: auto.
    intros [] g' l' _ [-> (s1 & -> & Hsne & Hsl & Hss & Hsp)].
    apply wpg_bind.
    assert (Hp1 : sperm ans l0 (concat segs ++ s1 ++ drop e rest)).
    { etrans; [exact Hp|]. apply sperm_app_l.
      rewrite <-(take_drop e rest) at 1. by apply sperm_app_r. }
    rewrite <-Hsl.
    eapply wpg_mono.
    { eapply (costs_wp ans _ (λ e' k', s + e ≤ e' ∧ e' ≤ n ∧ k' + (s + e - s) ≤ g1 + 10 * (e' - s)) _ _ B).
      - lia.
      - apply (provide_sorted_batch_rest n (concat segs) s1 (drop (length s1) rest));
          [rewrite !app_length, drop_length; lia|done|done].
      - fold s. rewrite Hsl. apply provide_sorted_batch_cost; lia. }
    2: { intros e' g' l' _ [? _]. done. }
    intros e2 g2 l' Hll [(He2 & He2n & Hg2) (s2 & k2 & -> & -> & Hne2 & Hs2 & Hsp2)].
    fold s in He2, He2n, Hg2 |- *. rewrite Hsl in *.
    set (rest2 := drop k2 (drop e rest)) in *.
    assert (Hpc2 : pieces (j - 1) rest2) by apply Hpcd.
    apply wpg_bind, wpg_usub; [lia|].
    replace (s + length s2 - s) with (length s2) by lia.
    assert (Hruns : runs_of 0 segs ++ [Run s (length s2)] = runs_of 0 (segs ++ [s2])).
    { rewrite runs_of_app. done. }
    rewrite Hruns.
    assert (Hcat : concat segs ++ s2 ++ rest2 = concat (segs ++ [s2]) ++ rest2).
    { rewrite concat_app. simpl. rewrite app_nil_r. by rewrite <-app_assoc. }
    assert (Hlen2 : length s2 + length rest2 = length rest).
    { apply (sperm_length ans) in Hsp2. rewrite !app_length, drop_length in Hsp2. lia. }
    assert (Hz : 0 < length s2) by (destruct s2; simpl; [done|lia]).
    assert (Hcl : length (concat (segs ++ [s2])) = s + length s2).
    { rewrite concat_app, app_length. simpl. rewrite app_nil_r. done. }
    set (ls := rev (map length segs)) in *.
    assert (Hat : runs_of 0 (segs ++ [s2]) = runs_at 0 (rev (length s2 :: ls))).
    { rewrite runs_of_at, map_app. unfold ls. simpl. by rewrite rev_involutive. }
    assert (Hsum : sum_list ls = s) by (unfold ls; by rewrite sum_list_rev, sum_lengths).
    assert (Hpos : Forall (λ x, 0 < x) ls).
    { unfold ls. apply Forall_rev, Forall_map. eapply Forall_impl; [exact Hok|].
      intros [|x y] [H _]; simpl; [done|lia]. }
    rewrite Hcat. apply wpg_bind. rewrite runs_of_length.
    assert (Hfin : C * s + C * length s2 + 8 * (m * (K - j)) + 8 * m + 4 * n ≤ B).
    { rewrite HB. assert (C * length s2 ≤ C * length rest) by (apply Nat.mul_le_mono_l; lia). lia. }
    assert (HjK' : m * (K - (j - 1)) = m * (K - j) + m).
    { replace (K - (j - 1)) with (K - j + 1) by lia. lia. }
    eapply wpg_mono.
    { eapply (costs_wp ans _ _ _ _ B g2 _).
      - lia.
      - apply (collapse_loop_spec ans (S (S (length segs))) n l0 (segs ++ [s2]) rest2).
        + rewrite <-Hcat, !app_length. fold s. lia.
        + intros Hnil. by apply app_eq_nil in Hnil as [_ ?].
        + rewrite app_length. simpl. lia.
        + apply Forall_app. split; [done|]. constructor; [|done]. done.
        + rewrite <-Hcat. etrans; [exact Hp1|]. by apply sperm_app_l.
      - rewrite Hat. apply (push_cost _ _ n K m (length s2) ls
          (C * s + 8 * (m * (K - j))) B g2); auto.
        + simpl. lia.
        + lia.
        + fold L C. lia. }
    2: { intros e' g' l' _ [? _]. done. }
    intros runs g3 l' Hll3 [[Hg3 Hcont] (segs' & -> & -> & Hne' & Hok' & Hp' & Hcn & _)].
    assert (Hlc : length (concat segs') = s + length s2).
    { rewrite !app_length, Hcl in Hll3. lia. }
    rewrite <-Hlc.
    destruct (decide (rest2 = [])) as [Hr2|Hr2].
    { rewrite Hr2 in *. simpl in Hlen2. destruct f as [|f]; [simpl in *; lia|].
      cbn [merge_sort_loop]. rewrite (proj2 (Nat.ltb_ge _ _)) by lia. by apply wpg_ret. }
    assert (Hr2l : 0 < length rest2) by (destruct rest2; simpl; [done|lia]).
    destruct Hcont as (ls' & Hruns' & Hsum' & Hpos' & Hfib' & Hg3').
    { simpl. lia. }
    assert (Hls' : rev (map length segs') = ls').
    { rewrite runs_of_at in Hruns'. apply runs_at_inj in Hruns'. by rewrite Hruns', rev_involutive. }
    apply (IH segs' rest2 (j - 1)); auto.
    - rewrite app_length. lia.
    - lia.
    - lia.
    - by rewrite Hls'.
    - rewrite Hls', HjK', Hlc. fold L C in Hg3'. lia.
  Qed.

  Lemma stable_sort_runs_le K l :
    0 < K → K ≤ length l → pieces K l →
    wpg ok (stable_sort c (length l)) (λ _ g _, g ≤ (8 * Nat.log2 K + 70) * length l)
      (λ _ g _, g ≤ (8 * Nat.log2 K + 70) * length l) 0 l.
  Proof.
    intros HK Hle Hpc. unfold stable_sort. case_match; [apply wpg_ret; lia|].
    set (n := length l) in *. unfold merge_sort, MS_MAX_INSERTION.
    apply wpg_bind, wpg_dassert; [by rewrite H|].
    assert (HB : 70 * n ≤ (8 * Nat.log2 K + 70) * n) by (apply Nat.mul_le_mono_r; lia).
    destruct (Nat.leb_spec n 20).
    { destruct (Nat.leb_spec 2 n); [|apply wpg_ret; lia].
      assert ((n - 1) * (n - 1) ≤ 20 * n) by (apply Nat.mul_le_mono; lia).
      eapply wpg_mono.
      { eapply (costs_wp ans _ _ _ _ _ 0 l); [| |].
        - exact (Nat.le_0_l ((n - 1) * (n - 1))).
        - by apply (insertion_sort_shift_left_spec c ans n 1 l); [|lia].
        - by apply insertion_sort_shift_left_cost. }
      - intros [] g l' _ [Hg _]. lia.
      - intros e g l' _ [Hg _]. lia. }
    apply wpg_bind.
    set (m := n / K + 1).
    assert (n ≤ K * m).
    { pose proof (Nat.mul_succ_div_gt n K ltac:(lia)). unfold m. lia. }
    assert (K * m ≤ 2 * n).
    { pose proof (Nat.mul_div_le n K ltac:(lia)). unfold m. lia. }
    eapply wpg_mono.
    { eapply (wpg_wp _ ans).
      - by intros g q r g' [? _].
      - apply (merge_sort_loop_spec c ans (S n) n l [] l); simpl; try done; [lia|].
        intros ->. simpl in *. lia.
      - apply (merge_sort_loop_runs (S n) n K m l [] l K 0); simpl; try done; [lia|lia|].
        intros ->. simpl in *. lia. }
    - intros runs g l' _ [Hg (_ & _ & ->)]. apply wpg_dassert; [|done].
      simpl. by rewrite Nat.eqb_refl.
    - by intros e g l' _ [Hg _].
  Qed.
  Lemma stable_sort_runs K l :
    0 < K → pieces K l →
    wpg ok (stable_sort c (length l)) (λ _ g _, g ≤ (8 * Nat.log2 K + 70) * length l)
      (λ _ g _, g ≤ (8 * Nat.log2 K + 70) * length l) 0 l.
  Proof.
    intros HK Hpc. destruct (decide (K ≤ length l)) as [Hle|Hgt].
    { by apply stable_sort_runs_le. }
    assert (H : ∀ g, g ≤ (8 * Nat.log2 (length l) + 70) * length l →
                     g ≤ (8 * Nat.log2 K + 70) * length l).
    { intros g Hg. etrans; [exact Hg|]. apply Nat.mul_le_mono_r.
      pose proof (Nat.log2_le_mono (length l) K ltac:(lia)). lia. }
    destruct (decide (l = [])) as [->|Hne].
    - unfold stable_sort, merge_sort. simpl length.
      destruct (zst c) eqn:Hz; [apply wpg_ret; lia|].
      apply wpg_bind, wpg_dassert; [done|]. apply wpg_ret. lia.
    - eapply wpg_mono; [apply (stable_sort_runs_le (length l) l)|intros; by apply H..].
      + destruct l; simpl; [done|lia].
      + done.
      + apply pieces_all.
  Qed.
End runs.

Lemma sort_by_runs {T S} (c : cfg) (cmp : T → T → comparison)
    (o : S → T * T → option comparison * S) s (ls : list (list T)) :
  answers_as cmp o →
  Forall (λ p, sorted_wrt (is_lt cmp) p ∨ StronglySorted (λ a b, is_lt cmp b a = true) p) ls →
  let '(_, (_, tr), _) := run (logged o) (sort_by c (length (concat ls))) (s, []) (concat ls) in
  length tr ≤ (8 * Nat.log2 (length ls) + 70) * length (concat ls).
Proof.
  intros Ho Hls.
  assert (Hpc : pieces (is_lt cmp) (Nat.max 1 (length ls)) (concat ls)).
  { exists ls. repeat split; auto. lia. }
  assert (Ha : ∀ s' q, may_lt (is_lt cmp) q (less_of_compare o s' q).1).
  { intros s' q b Hb'. specialize (Ho s' q). unfold less_of_compare in Hb'.
    destruct (o s' q) as [[r|] s'']; simpl in Ho, Hb'; [|done]. specialize (Ho r eq_refl). subst r.
    unfold is_lt. destruct (cmp q.1 q.2); by injection Hb' as <-. }
  pose proof (wpg_run_compare (may_lt (is_lt cmp)) o _ _ _ s (concat ls) Ha
    (stable_sort_runs c (is_lt cmp) (Nat.max 1 (length ls)) (concat ls) ltac:(lia) Hpc)) as H.
  replace (Nat.log2 (length ls)) with (Nat.log2 (Nat.max 1 (length ls))) by (by destruct ls as [|? []]).
  unfold sort_by. destruct (run _ _ _ _) as [[[a|e| |] [s' tr]] l']; done.
Qed.

Lemma ss_weaken {T} (P Q : T → T → Prop) (l : list T) :
  (∀ a b, P a b → Q a b) → StronglySorted P l → StronglySorted Q l.
Proof.
  intros H. induction 1 as [|x l Hs IH Hf]; constructor; [done|].
  eapply Forall_impl; [exact Hf|]. intros y Hy. by apply H.
Qed.

Lemma sort_by_key_runs {T K S} (c : cfg) (f : T → K) (ltk : K → K → bool)
    (o : S → key_question (T:=T) K → key_answer K * S) s (ls : list (list T)) :
  answers_as_key f ltk o →
  Forall (λ p, sorted_wrt (λ a b, ltk (f a) (f b)) p ∨
               StronglySorted (λ a b, ltk (f b) (f a) = true) p) ls →
  let '(_, (_, tr), _) := run (logged o) (sort_by_key c (length (concat ls))) (s, []) (concat ls) in
  key_calls tr ≤ (16 * Nat.log2 (length ls) + 140) * length (concat ls).
Proof.
  intros Ho Hls. set (cmp := λ a b, if ltk (f a) (f b) then Lt else Gt).
  assert (E : ∀ a b, is_lt cmp a b = ltk (f a) (f b)).
  { intros a b. unfold is_lt, cmp. by destruct (ltk _ _). }
  assert (Hls' : Forall (λ p, sorted_wrt (is_lt cmp) p ∨
                              StronglySorted (λ a b, is_lt cmp b a = true) p) ls).
  { eapply Forall_impl; [exact Hls|]. intros p [Hp|Hp]; [left|right].
    - eapply ss_weaken; [|exact Hp]. intros a b. by rewrite E.
    - eapply ss_weaken; [|exact Hp]. intros a b. by rewrite E. }
  pose proof (by_key_bound o (stable_sort c (length (concat ls))) s (concat ls) _
    (sort_by_runs c cmp (compare_of_key o) s ls (compare_of_key_answers o f ltk Ho) Hls')) as H.
  unfold sort_by_key. destruct (run _ _ _ _) as [[r1 [s1 t1]] l1]. lia.
Qed.

(** Sequences for the examples. *)
Lemma seq_ascending lt a n : (∀ x y, x < y → lt y x = false) → sorted_wrt lt (seq a n).
Proof.
  intros Hlt. unfold sorted_wrt. revert a. induction n as [|n IH]; intros a; simpl; constructor; [apply IH|].
  apply Forall_forall. intros b Hb. apply elem_of_seq in Hb. apply Hlt. lia.
Qed.
Lemma seq_descending (lt : nat → nat → bool) a n :
  (∀ x y, x < y → lt x y = true) → StronglySorted (λ x y, lt y x = true) (rev (seq a n)).
Proof.
  intros Hlt. induction n as [|n IH]; [constructor|].
  rewrite seq_S, rev_app_distr. simpl. constructor; [done|].
  apply Forall_forall. intros b Hb. apply elem_of_list_In, in_rev, in_seq in Hb. apply Hlt. lia.
Qed.
