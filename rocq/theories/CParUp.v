(** * Upper bounds for the parallel unstable sort: number of calls, nesting of joins. *)
From Verif Require Export CQuick PPar ParSpec.
From Coq Require Import NArith.
From stdpp Require Import list.

Lemma wpg_join {T Q R G A B} (ans : G → Q → R → G → Prop) (p1 : prog T Q R A) (p2 : prog T Q R B)
    Φ (E : exn → G → list T → Prop) g l :
  wpg ans p1
    (λ b g1 l1, wpg ans p2 (λ d g2 l2, Φ (b, d) g2 l2) E g1 l1)
    (λ e g1 l1, wpg ans p2 (λ _ g2 l2, E e g2 l2) (λ _ g2 l2, E e g2 l2) g1 l1) g l →
  wpg ans (rayon_join p1 p2) Φ E g l.
Proof. done. Qed.

(** ** Number of calls. *)
Section budget.
  Context {T : Type} (c : cfg) (ans : T * T → option bool → Prop).
  Notation kle := (kle ans).
  Notation klt := (klt ans).
  Implicit Types (l : list T).

  (** The budget also suffices for the two tasks of a join. *)
  Definition fork_budget (J : nat → option T → nat → bool → list T → Prop) : Prop :=
    ∀ b pred limit wb l A p R,
      J b pred limit wb l → 20 < length l → limit ≠ 0 → A ++ p :: R ≡ₚ l →
      parted ans pred A p R → sequential (Nat.max (length A) (length R)) = false →
      ∃ b1 b2, 13 * length l + b1 + b2 ≤ b ∧
        J b1 pred (lim wb limit) true A ∧ J b2 (Some p) (lim wb limit) true R.

  Context (J : nat → option T → nat → bool → list T → Prop) (HJ : budget ans J) (HF : fork_budget J).
  Notation ok := (cnt_ans ans).

  Lemma par_qs_recurse_calls fuel n pred limit wb wp l b k :
    n = length l → n < fuel →
    (∀ p, pred = Some p → Forall (kle p) l) →
    J b pred limit wb l →
    wpg ok (par_qs_recurse c fuel n pred limit wb wp)
      (λ _ g _, g ≤ k + b) (λ _ g _, g ≤ k + b) k l.
  Proof.
    revert n pred limit wb wp l b k.
    induction fuel as [|f IHf]; intros n pred limit wb wp l b k Hn Hf Hpred Hb; [lia|].
    cbn [par_qs_recurse].
    unfold QS_MAX_INSERTION. destruct (Nat.leb_spec n 20) as [Hs|Hs].
    { pose proof (bud_small _ _ HJ _ _ _ _ _ Hb ltac:(lia)) as Hc.
      destruct (Nat.leb_spec 2 n); [|apply wpg_ret; lia].
      assert ((n - 1) * (n - 1) ≤ 20 * n) by (apply Nat.mul_le_mono; lia).
      eapply wpg_known;
        [lia|apply (insertion_sort_shift_left_spec c ans n 1 l); [done|lia]| |].
      { cost_call insertion_sort_shift_left_cost; [lia|]. intros ? ? _ H1. exact H1. }
      simpl. intros; lia. }
    destruct (Nat.eqb_spec limit 0) as [Hl|Hl].
    { subst limit. pose proof (bud_heap _ _ HJ _ _ _ _ Hb) as Hc. rewrite <-Hn in Hc.
      eapply wpg_known; [lia|by apply (heap_sort_spec ans n l)|
        apply heap_sort_cost; lia|simpl; intros; lia]. }
    pose proof (bud_step _ _ HJ _ _ _ _ _ Hb ltac:(lia) Hl) as Hst. rewrite <-Hn in Hst.
    (* break_patterns *)
    apply wpg_bind.
    eapply (wpg_known _ _ (λ r k', r = lim wb limit ∧ k' = k) (λ _ l', l' ≡ₚ l) (upanic ans l));
      [lia| | |].
    { destruct wb; [by apply wp_ret|]. apply wp_bind.
      wp_apply (break_patterns_spec ans c n l (upanic ans l)); [done| |by auto].
      intros [] l' _ Hp. apply wp_usub; [lia|done]. }
    { destruct wb; [by apply costs_ret|]. apply costs_bind.
      eapply costs_mono; [apply costs_silent, break_patterns_silent|]. intros [] k' _ ->.
      apply costs_usub. done. }
    intros limit' k' l1 Hl1 [-> ->] Hp1.
    (* choose_pivot *)
    apply wpg_bind.
    eapply wpg_known; [lia|apply (choose_pivot_spec ans n l1); lia|apply choose_pivot_cost; lia|].
    cbv beta. intros [pivot likely] k2 l2 Hl2 Hk2 [Hp2 Hpiv]. rewrite Hp1 in Hp2.
    (* partial insertion sort *)
    apply wpg_bind.
    eapply (wpg_known _ _ (λ _ k', k' ≤ k2 + 11 * n + 5) (λ b l', l' ≡ₚ l) (upanic ans l));
      [lia| | |].
    { destruct (wb && wp && likely).
      - wp_apply (partial_insertion_sort_spec c ans n l2); [lia| |].
        + intros ? l' _ [Hp Hpi]. by rewrite Hp.
        + intros e l' _ Hu. by eapply upanic_perm.
      - by apply wp_ret. }
    { destruct (wb && wp && likely).
      - apply partial_insertion_sort_cost; lia.
      - apply costs_ret. lia. }
    intros fin k3 l3 Hl3 Hk3 Hp3. destruct fin; [apply wpg_ret; lia|].
    destruct (lookup_lt_is_Some_2 l3 pivot) as [p Hp]; [lia|].
    (* compare with the predecessor *)
    apply wpg_bind.
    eapply (wpg_known _ _ (λ _ k', k' ≤ k3 + 1)
      (λ b l', l' = l3 ∧ if b : bool then ∃ q, pred = Some q ∧ kle p q
        else ∀ q, pred = Some q → klt q p) (upanic ans l)); [lia| | |].
    { destruct pred as [q|]; [|by apply wp_ret].
      apply wp_bind, wp_get; [lia|lia|]. intros x Hx. rewrite Hp in Hx. injection Hx as <-.
      apply wp_bind, wp_is_less; [|intros Hr; by eapply upanic_intro].
      intros r Hr. apply wp_ret. split; [done|]. destruct r; cbn [negb].
      - intros q' [= <-]. by apply ans_true.
      - exists q. split; [done|]. by apply ans_false. }
    { repeat cost_step; lia. }
    intros eq k4 l' _ Hk4 [-> Heq]. destruct eq.
    { (* equal to the predecessor *)
      destruct Heq as (q & -> & Hpq).
      apply wpg_bind.
      eapply wpg_known; [lia|apply (partition_equal_spec ans n pivot l3 p); [lia|done]|
        apply partition_equal_cost; lia|].
      cbv beta. intros mid k5 l4 Hl4 Hk5 (Hp4 & Hmid & Hmid0 & Hlo & Hhi).
      specialize (Hmid0 ltac:(lia)). specialize (Hhi ltac:(lia)).
      apply rng_drop in Hhi; [|lia].
      assert (Hl4' : l4 = take mid l4 ++ drop mid l4 ++ []).
      { by rewrite app_nil_r, take_drop. }
      assert (Hp04 : l4 ≡ₚ l) by (by rewrite Hp4).
      destruct (bud_eq _ _ HJ b q limit wb l l4 p mid) as (b' & Hb' & Hj); try done; try lia.
      { rewrite <-Hp3. by eapply elem_of_list_lookup_2. }
      { by apply Hpred. }
      assert (Hlt : length (take mid l4) = mid) by (rewrite take_length; lia).
      assert (Hld : length (drop mid l4) = n - mid) by (rewrite drop_length; lia).
      rewrite Hl4' at 1.
      apply wpg_slice_app; [done|rewrite Hld; lia|lia|].
      wpg_apply (IHf (length (drop mid l4)) (Some q) (lim wb limit) wb wp (drop mid l4) b' k5);
        [done|lia| |done| |].
      - intros q' [= <-]. apply Forall_drop. rewrite Hp04. by apply Hpred.
      - cbv beta. intros. lia.
      - cbv beta. intros. lia. }
    (* partition *)
    apply wpg_bind.
    eapply wpg_known; [lia|apply (partition_spec c ans n pivot l3 p); [lia|done]|
      apply partition_cost; lia|].
    cbv beta. intros [mid was_p] k5 l4 Hl4 Hk5 (Hp4 & Hmp & Hlo & Hhi).
    pose proof (lookup_lt_Some _ _ _ Hmp) as Hmid.
    apply rng_drop in Hhi; [|lia].
    apply wpg_bind, wpg_usub; [lia|].
    apply wpg_bind.
    eapply (wpg_known _ _ (λ _ k', k' = k5) (λ _ l', l' = l4) (upanic ans l)); [lia| | |].
    { apply wp_slice; [lia|lia|lia|].
      apply wp_slice_check; [lia|lia|rewrite sub_length; lia|]. intros Hls.
      rewrite (drop_ge l4 n) by lia. rewrite app_nil_r.
      rewrite (take_ge (drop mid l4)) by (rewrite drop_length; lia). by rewrite take_drop. }
    { repeat cost_step. done. }
    intros [] k' l' _ -> ->.
    apply wpg_bind, wpg_get; [lia|lia|]. intros p' Hp'. rewrite Hmp in Hp'. injection Hp' as <-.
    assert (Hp04 : l4 ≡ₚ l) by (by rewrite Hp4).
    assert (Hpred4 : ∀ q, pred = Some q → Forall (kle q) l4).
    { intros q Hq. rewrite Hp04. auto. }
    apply rng_take in Hlo. clear Hp4 Hp3 Hp.
    set (A := take mid l4) in *. set (R := drop (S mid) l4) in *.
    assert (Hl4e : l4 = A ++ p :: R) by (by apply bound_split).
    assert (HlA : length A = mid) by (unfold A; rewrite take_length; lia).
    assert (HlR : length R = n - (mid + 1)) by (unfold R; rewrite drop_length; lia).
    assert (Hpart : parted ans pred A p R) by (by split; [|split]).
    clearbody A R. subst l4.
    assert (HpredA : ∀ q, pred = Some q → Forall (kle q) A).
    { intros q Hq. specialize (Hpred4 q Hq). by apply Forall_app in Hpred4 as [? _]. }
    destruct (sequential (Nat.max mid (n - (mid + 1)))) eqn:Hseq.
    2: { (* in parallel *)
      rewrite <-HlR, <-HlA in Hseq.
      destruct (HF b pred limit wb l A p R) as (b1 & b2 & Hbb & HJ1 & HJ2); try done; try lia.
      apply wpg_bind, wpg_join.
      change (A ++ p :: R) with ([] ++ A ++ p :: R).
      apply wpg_slice_app; [done|simpl; lia|lia|].
      wpg_apply (IHf (length A) pred (lim wb limit) true true A b1 k5);
        [done|lia|done|done| |]; cbv beta.
      - intros [] k6 A' HlA' Hk6 _. simpl.
        replace (A' ++ p :: R) with ((A' ++ [p]) ++ R ++ []) by (by rewrite app_nil_r, <-app_assoc).
        assert (HlAp : length (A' ++ [p]) = mid + 1) by (rewrite app_length; simpl; lia).
        apply wpg_slice_app; [done|lia|lia|].
        wpg_apply (IHf (length R) (Some p) (lim wb limit) true true R b2 k6);
          [done|lia| |done| |]; cbv beta; [|intros; apply wpg_ret; lia|intros; lia].
        intros q Hq. by injection Hq as <-.
      - intros e k6 A' HlA' Hk6 _. simpl.
        replace (A' ++ p :: R) with ((A' ++ [p]) ++ R ++ []) by (by rewrite app_nil_r, <-app_assoc).
        assert (HlAp : length (A' ++ [p]) = mid + 1) by (rewrite app_length; simpl; lia).
        apply wpg_slice_app; [done|lia|lia|].
        wpg_apply (IHf (length R) (Some p) (lim wb limit) true true R b2 k6);
          [done|lia| |done| |]; cbv beta; [|intros; lia|intros; lia].
        intros q Hq. by injection Hq as <-. }
    destruct (Nat.ltb_spec mid (n - (mid + 1))).
    - (* recurse left, continue right *)
      destruct (bud_left _ _ HJ _ _ _ _ _ A p R Hb) as (b1 & b2 & Hbb & HJ1 & HJ2);
        try done; try lia.
      apply wpg_bind. change (A ++ p :: R) with ([] ++ A ++ p :: R).
      apply wpg_slice_app; [done|simpl; lia|lia|].
      wpg_apply (IHf (length A) pred (lim wb limit) true true A b1 k5);
        [done|lia|done|done| |cbv beta; intros; lia].
      cbv beta. intros [] k6 A' HlA' Hk6 _. simpl.
      replace (A' ++ p :: R) with ((A' ++ [p]) ++ R ++ []) by (by rewrite app_nil_r, <-app_assoc).
      assert (HlAp : length (A' ++ [p]) = mid + 1) by (rewrite app_length; simpl; lia).
      apply wpg_slice_app; [done|lia|lia|].
      rewrite <-Hn, HlA in HJ2.
      wpg_apply (IHf (length R) (Some p) (lim wb limit) (n / 8 <=? Nat.min mid (n - mid)) was_p R b2 k6);
        [done|lia| |done| |cbv beta; intros; lia].
      + intros q Hq. by injection Hq as <-.
      + cbv beta. intros. lia.
    - (* recurse right, continue left *)
      destruct (bud_right _ _ HJ _ _ _ _ _ A p R Hb) as (b1 & b2 & Hbb & HJ1 & HJ2);
        try done; try lia.
      apply wpg_bind.
      replace (A ++ p :: R) with ((A ++ [p]) ++ R ++ []) by (by rewrite app_nil_r, <-app_assoc).
      assert (HlAp : length (A ++ [p]) = mid + 1) by (rewrite app_length; simpl; lia).
      apply wpg_slice_app; [done|lia|lia|].
      wpg_apply (IHf (length R) (Some p) (lim wb limit) true true R b1 k5);
        [done|lia| |done| |cbv beta; intros; lia].
      { intros q Hq. by injection Hq as <-. }
      cbv beta. intros [] k6 B' HlB' Hk6 _. rewrite app_nil_r, <-app_assoc. simpl.
      change (A ++ p :: B') with ([] ++ A ++ p :: B').
      apply wpg_slice_app; [done|simpl; lia|lia|].
      rewrite <-Hn, HlA in HJ2.
      wpg_apply (IHf (length A) pred (lim wb limit) (n / 8 <=? Nat.min mid (n - mid)) was_p A b2 k6);
        [done|lia|done|done| |cbv beta; intros; lia].
      cbv beta. intros. lia.
  Qed.

  Lemma par_quick_sort_calls n l b :
    n = length l → zst c = false → J b None (bit_length n) true l →
    wpg ok (par_quick_sort c n) (λ _ g _, g ≤ b) (λ _ g _, g ≤ b) 0 l.
  Proof.
    intros Hn Hz Hb. unfold par_quick_sort. rewrite Hz.
    wpg_apply (par_qs_recurse_calls (S n) n None (bit_length n) true true l b 0); try done; lia.
  Qed.
End budget.

Lemma bud_any_fork {T} (ans : T * T → option bool → Prop) : fork_budget ans bud_any.
Proof.
  unfold bud_any. intros b pred limit wb l A p R Hb Hl _ Hp _ _.
  exists (13 * (length A * length A) + 20 * length A),
    (13 * (length R * length R) + 20 * length R). split; [|done].
  apply Permutation_length in Hp. rewrite app_length in Hp. simpl in Hp.
  pose proof (square_split (length A) (length R) (length l)). lia.
Qed.

Lemma par_sort_unstable_by_quadratic {T S} (c : cfg) (o : S → T * T → option comparison * S) s (l : list T) :
  let '(_, (_, tr), _) := run (logged o) (par_sort_unstable_by c (length l)) (s, []) l in
  length tr ≤ 13 * (length l * length l) + 20 * length l.
Proof.
  destruct (zst c) eqn:Hz.
  { unfold par_sort_unstable_by, par_quick_sort. rewrite Hz. simpl. lia. }
  pose proof (wpg_run_compare ans_all o (par_quick_sort c (length l)) _ _ s l ltac:(done)
    (par_quick_sort_calls c ans_all bud_any (bud_any_ok ans_all) (bud_any_fork ans_all) (length l) l _ eq_refl Hz
      (Nat.le_refl _))) as H.
  unfold par_sort_unstable_by. by destruct (run _ _ _ _) as [[[a|e| |] [s' tr]] l'].
Qed.

(** Up to 2001 elements nothing is forked. *)
Definition bud_small_swo {T} (ans : T * T → option bool → Prop) (top b : nat) pred limit wb (l : list T) : Prop :=
  (N.of_nat (length l) <= 2001)%N ∧ bud_swo ans top b pred limit wb l.

Lemma bud_small_swo_ok {T} (ans : T * T → option bool → Prop) lt top :
  strict_weak_order lt → consistent ans lt → budget ans (bud_small_swo ans top).
Proof.
  intros Hs Hc. destruct (bud_swo_ok ans lt Hs Hc top) as [H1 H2 H3 H4 H5 H6].
  split.
  - intros b pred limit wb l [_ H]. by eapply H1.
  - intros b pred wb l [_ H]. by eapply H2.
  - intros b pred limit wb l [_ H]. by eapply H3.
  - intros b q limit wb l l' p mid [Hn H] ? ? Hp ? ? ? ? ? ?.
    destruct (H4 b q limit wb l l' p mid) as (b' & ? & ?); try done.
    exists b'. split; [done|]. split; [|done].
    rewrite drop_length, (Permutation_length Hp). lia.
  - intros b pred limit wb l A p R [Hn H] ? ? Hp ? ?.
    pose proof (Permutation_length Hp) as Hlen. rewrite app_length in Hlen. simpl in Hlen.
    destruct (H5 b pred limit wb l A p R) as (b1 & b2 & ? & ? & ?); try done.
    exists b1, b2. split; [done|]. split; split; try done; lia.
  - intros b pred limit wb l A p R [Hn H] ? ? Hp ? ?.
    pose proof (Permutation_length Hp) as Hlen. rewrite app_length in Hlen. simpl in Hlen.
    destruct (H6 b pred limit wb l A p R) as (b1 & b2 & ? & ? & ?); try done.
    exists b1, b2. split; [done|]. split; split; try done; lia.
Qed.
Lemma bud_small_swo_fork {T} (ans : T * T → option bool → Prop) top :
  fork_budget ans (bud_small_swo ans top).
Proof.
  intros b pred limit wb l A p R [Hn _] _ _ Hp _ Hseq. exfalso.
  apply Permutation_length in Hp. rewrite app_length in Hp. simpl in Hp.
  unfold sequential in Hseq. apply N.leb_gt in Hseq. lia.
Qed.

Lemma par_sort_unstable_by_cost {T S} (c : cfg) (cmp : T → T → comparison)
    (o : S → T * T → option comparison * S) s (l : list T) :
  strict_weak_order (is_lt cmp) → answers_as cmp o → (N.of_nat (length l) <= 2001)%N →
  let '(_, (_, tr), _) := run (logged o) (par_sort_unstable_by c (length l)) (s, []) l in
  length tr ≤ 340 * length l * (Nat.log2 (length l) + 1).
Proof.
  intros Hs Ho Hle. destruct (zst c) eqn:Hz.
  { unfold par_sort_unstable_by, par_quick_sort. rewrite Hz. simpl. lia. }
  set (ans := λ (q : T * T) (r : option bool), ∀ b, r = Some b → b = is_lt cmp q.1 q.2).
  assert (Hc : consistent ans (is_lt cmp)).
  { intros a b r H. by apply H. }
  set (L := Nat.log2 (length l)).
  assert (Hb : bud_small_swo ans (length l) (340 * length l * (L + 1)) None (bit_length (length l)) true l).
  { split; [done|]. split; [done|]. exists true. split; [done|].
    pose proof (psi_bound (length l)) as Hpsi. fold L in Hpsi |- *.
    assert (bit_length (length l) ≤ L + 1).
    { unfold L, bit_length. destruct (length l); lia. }
    rewrite (Nat.mul_comm 340), <-Nat.mul_assoc. apply Nat.mul_le_mono_l.
    unfold levels. simpl. lia. }
  pose proof (wpg_run_compare ans o (par_quick_sort c (length l))
    (λ _ g _, g ≤ 340 * length l * (L + 1)) (λ _ g _, g ≤ 340 * length l * (L + 1)) s l) as H.
  assert (Ha : ∀ s' q, ans q (less_of_compare o s' q).1).
  { intros s' q b Hb'. specialize (Ho s' q). unfold less_of_compare in Hb'.
    destruct (o s' q) as [[r|] s'']; simpl in Ho, Hb'; [|done]. specialize (Ho r eq_refl). subst r.
    unfold is_lt. destruct (cmp q.1 q.2); by injection Hb' as <-. }
  specialize (H Ha
    (par_quick_sort_calls c ans _ (bud_small_swo_ok ans _ _ Hs Hc) (bud_small_swo_fork ans _) (length l) l _ eq_refl Hz Hb)).
  unfold par_sort_unstable_by. fold L. by destruct (run _ _ _ _) as [[[a|e| |] [s' tr]] l'].
Qed.

(** ** Nesting of joins. *)
Section nest.
  Context {T Q R : Type}.
  Notation P A := (prog T Q R A).
  Local Transparent bind focus relocate.
  Local Arguments bind {T Q R A B} !p f.
  Local Arguments relocate {T Q R A} f !p.

  (** At most [d] joins are active at the same time, whatever is read and answered. *)
  Fixpoint nest {A} (d : nat) (p : P A) : Prop :=
    match p with
    | Ret _ | Throw _ | Undef | NoFuel => True
    | Read _ k => ∀ x, nest d (k x)
    | Write _ _ k => nest d k
    | Ask _ k => ∀ r, nest d (k r)
    | Par p1 p2 k => 0 < d ∧ nest (d - 1) p1 ∧ nest (d - 1) p2 ∧ ∀ b e, nest d (k b e)
    end.

  Lemma nest_join_depth {S A} (o : S → Q → R * S) (p : P A) d s l :
    nest d p → join_depth o p s l ≤ d.
  Proof.
    revert d s l.
    induction p as [A a|A e|A i k IH|A i x k IH|A q k IH|A B C p1 IH1 p2 IH2 k IH| |];
      intros d s l Hp; simpl in *; try lia.
    - destruct (l !! i); [|lia]. by apply IH.
    - destruct (decide _); [|lia]. by apply IH.
    - destruct (o s q). by apply IH.
    - destruct Hp as (Hd & H1 & H2 & Hk).
      specialize (IH1 (d - 1) s l H1).
      destruct (run o p1 s l) as [[r1 s1] l1]. specialize (IH2 (d - 1) s1 l1 H2).
      destruct (run o p2 s1 l1) as [[r2 s2] l2].
      destruct (arm_result r1) as [b|], (arm_result r2) as [e|]; try lia.
      specialize (IH b e d s2 l2 (Hk b e)). lia.
  Qed.

  Lemma nest_le {A} (p : P A) d d' : nest d p → d ≤ d' → nest d' p.
  Proof.
    revert d d'.
    induction p as [A a|A e|A i k IH|A i x k IH|A q k IH|A B C p1 IH1 p2 IH2 k IH| |];
      intros d d' Hp Hd; simpl in *; eauto.
    destruct Hp as (H0 & H1 & H2 & Hk). split; [lia|]. split; [|split].
    - eapply IH1; [done|lia].
    - eapply IH2; [done|lia].
    - intros b e. by eapply IH.
  Qed.
  Lemma nest_bind {A B} (p : P A) (f : A → P B) d :
    nest d p → (∀ a, nest d (f a)) → nest d (bind p f).
  Proof.
    intros Hp Hf. revert Hp.
    induction p as [A a|A e|A i k IH|A i x k IH|A q k IH|A B' C p1 IH1 p2 IH2 k IH| |];
      intros Hp; simpl in *; auto.
    destruct Hp as (H0 & H1 & H2 & Hk). split; [done|]. split; [done|]. split; [done|]. auto.
  Qed.
  Lemma nest_relocate {A} g (p : P A) d : nest d p → nest d (relocate g p).
  Proof.
    revert d.
    induction p as [A a|A e|A i k IH|A i x k IH|A q k IH|A B' C p1 IH1 p2 IH2 k IH| |];
      intros d Hp; simpl in *; auto.
    destruct Hp as (H0 & H1 & H2 & Hk). auto.
  Qed.
  Lemma nest_slice {A} n a b (p : nat → P A) d :
    (a ≤ b → b ≤ n → nest d (p (b - a))) → nest d (slice n a b p).
  Proof.
    intros H. unfold slice.
    destruct (Nat.leb_spec a b), (Nat.leb_spec b n); simpl; try done.
    apply nest_relocate. auto.
  Qed.
  Lemma nest_join {A B} (p1 : P A) (p2 : P B) d :
    nest d p1 → nest d p2 → nest (S d) (rayon_join p1 p2).
  Proof.
    intros H1 H2. simpl. rewrite Nat.sub_0_r. split; [lia|]. split; [done|]. split; [done|].
    intros [?|?] [?|?]; done.
  Qed.
End nest.

Local Transparent costs.
Local Arguments costs {T Q R A} !p Φ B k.
Lemma costs_nest {T A} (p : cmp_prog T A) Φ B k : costs p Φ B k → nest 0 p.
Proof.
  revert k.
  induction p as [A a|A e|A i g IH|A i x g IH|A q g IH|A B' C p1 IH1 p2 IH2 g IH| |];
    intros k Hp; simpl in *; auto; try done.
  - intros x. by eapply IH.
  - by eapply IH.
  - intros r. destruct Hp as [_ Hp]. by eapply IH.
Qed.
Lemma costs_nest' {T A} (p : cmp_prog T A) d Φ B k : costs p Φ B k → nest d p.
Proof. intros H. eapply nest_le; [by eapply costs_nest|lia]. Qed.

Section nest_sort.
  Context {T : Type} (c : cfg).

  Lemma nest_get {A} n i (f : T → cmp_prog T A) d :
    (∀ x, i < n → nest d (f x)) → nest d (bind (get n i) f).
  Proof.
    intros H. unfold get. Local Transparent bind. destruct (Nat.ltb_spec i n); simpl; auto.
  Qed.

  Lemma par_qs_recurse_nest fuel n (pred : option T) limit wb wp d :
    (N.of_nat n <= 2001 + N.of_nat d)%N →
    nest d (par_qs_recurse c fuel n pred limit wb wp).
  Proof.
    revert n pred limit wb wp d.
    induction fuel as [|f IHf]; intros n pred limit wb wp d Hn; cbn [par_qs_recurse]; [done|].
    unfold QS_MAX_INSERTION. destruct (Nat.leb_spec n 20) as [Hs|Hs].
    { destruct (Nat.leb_spec 2 n); [|done].
      eapply costs_nest', (insertion_sort_shift_left_cost c n 1 _ 0), le_n. }
    destruct (Nat.eqb_spec limit 0) as [Hl|Hl].
    { eapply costs_nest', (heap_sort_cost n _ 0), le_n. }
    apply nest_bind.
    { destruct wb; [done|]. eapply costs_nest', (costs_bind _ _ _ 0 0), costs_mono;
        [apply costs_silent, break_patterns_silent|]. intros [] k' _ ->.
      by apply costs_usub with (Φ := λ _ _, True). }
    intros limit'. apply nest_bind.
    { eapply costs_nest', (choose_pivot_cost n _ 0), le_n. }
    intros [pivot likely]. apply nest_bind.
    { destruct (_ && _); [|done].
      eapply costs_nest', (partial_insertion_sort_cost c n _ 0), le_n. lia. }
    intros []; [done|]. apply nest_bind.
    { destruct pred as [q|]; [|done]. apply nest_get. intros x _. apply nest_bind; [|done]. intros [[]|]; done. }
    intros []; [apply nest_bind|].
    { eapply costs_nest', (partition_equal_cost n pivot _ 0), le_n. }
    { intros mid. apply nest_slice. intros _ _. apply IHf. lia. }
    apply nest_bind.
    { eapply costs_nest', (partition_cost c n pivot _ 0), le_n. }
    intros [mid was_p]. apply nest_bind.
    { unfold usub. by destruct (_ <=? _). }
    intros nmid. apply nest_bind.
    { apply nest_slice. intros _ _. apply nest_slice. done. }
    intros []. apply nest_get. intros p Hmid.
    destruct (sequential _) eqn:Hseq.
    - destruct (mid <? _); (apply nest_bind; [|intros _]);
        (apply nest_slice; intros _ _; apply IHf; lia).
    - unfold sequential in Hseq. apply N.leb_gt in Hseq.
      destruct d as [|d]; [lia|]. apply nest_bind; [|done].
      apply nest_join; (apply nest_slice; intros _ _; apply IHf; lia).
  Qed.
End nest_sort.

Lemma par_sort_unstable_join_depth {T S} (c : cfg) (o : S → T * T → option bool * S) s (l : list T) :
  join_depth o (par_sort_unstable c (length l)) s l ≤ length l - N.to_nat 2001.
Proof.
  apply nest_join_depth. unfold par_sort_unstable, par_quick_sort. destruct (zst c); [done|].
  apply par_qs_recurse_nest. lia.
Qed.
