(** * Number of calls made by the unstable sort.

    [J b pred limit wb l] says that a budget of [b] calls suffices for the loop of
    [recurse] with these arguments.  The section proves that any such [J] bounds
    the calls; it is then instantiated with a bound for strict weak orders
    (n log n) and one for arbitrary closures (quadratic). *)
From Verif Require Export CLeaves PQuick TSortUnstable.
From Coq Require Import NArith.
From stdpp Require Import list.

Section budget.
  Context {T : Type} (c : cfg) (ans : T * T → option bool → Prop).
  Notation kle := (kle ans).
  Notation klt := (klt ans).
  Implicit Types (l : list T).

  Definition lim (wb : bool) (limit : nat) : nat := if wb then limit else limit - 1.

  (** [p] comes after the predecessor and between [A] and [R]. *)
  Definition parted (pred : option T) (A : list T) (p : T) (R : list T) : Prop :=
    (∀ q, pred = Some q → klt q p) ∧ Forall (λ x, klt x p) A ∧ Forall (kle p) R.

  Record budget (J : nat → option T → nat → bool → list T → Prop) := {
    bud_small b pred limit wb l : J b pred limit wb l → length l ≤ 20 → 20 * length l ≤ b;
    bud_heap b pred wb l : J b pred 0 wb l → 3 * length l * Nat.log2 (length l) ≤ b;
    bud_step b pred limit wb l :
      J b pred limit wb l → 20 < length l → limit ≠ 0 → 13 * length l ≤ b;
    bud_eq b q limit wb l l' p mid :
      J b (Some q) limit wb l → 20 < length l → limit ≠ 0 → l' ≡ₚ l → p ∈ l →
      Forall (kle q) l → kle p q → 0 < mid → mid ≤ length l → Forall (klt p) (drop mid l') →
      ∃ b', 13 * length l + b' ≤ b ∧ J b' (Some q) (lim wb limit) wb (drop mid l');
    bud_left b pred limit wb l A p R :
      J b pred limit wb l → 20 < length l → limit ≠ 0 → A ++ p :: R ≡ₚ l →
      parted pred A p R → length A < length R →
      ∃ b1 b2, 13 * length l + b1 + b2 ≤ b ∧
        J b1 pred (lim wb limit) true A ∧
        J b2 (Some p) (lim wb limit)
          (length l / 8 <=? Nat.min (length A) (length l - length A)) R;
    bud_right b pred limit wb l A p R :
      J b pred limit wb l → 20 < length l → limit ≠ 0 → A ++ p :: R ≡ₚ l →
      parted pred A p R → length R ≤ length A →
      ∃ b1 b2, 13 * length l + b1 + b2 ≤ b ∧
        J b1 (Some p) (lim wb limit) true R ∧
        J b2 pred (lim wb limit)
          (length l / 8 <=? Nat.min (length A) (length l - length A)) A }.

  Context (J : nat → option T → nat → bool → list T → Prop) (HJ : budget J).
  Notation ok := (cnt_ans ans).

  (** A call whose cost and whose effect are known. *)
  Lemma wpg_known {A} (p : cmp_prog T A) Φ Φ' E' (Ψ : A → nat → list T → Prop) B k l :
    k ≤ B → wp ans p Φ' E' l → costs p Φ B k →
    (∀ a g l', length l' = length l → Φ a g → Φ' a l' → Ψ a g l') →
    wpg ok p Ψ (λ _ g _, g ≤ B) k l.
  Proof.
    intros Hk Hwp Hc H. eapply wpg_mono; [eapply costs_wp; eauto| |]; simpl.
    - intros a g l' Hl [H1 H2]. eauto.
    - by intros e g l' _ [? _].
  Qed.

  Lemma qs_recurse_calls depth fuel n pred limit wb wp l b k B :
    n = length l → n < fuel → n < 2 ^ (depth - 1) → 0 < depth →
    (∀ p, pred = Some p → Forall (kle p) l) →
    J b pred limit wb l → k + b ≤ B →
    wpg ok (qs_recurse c depth fuel n pred limit wb wp)
      (λ _ g _, g ≤ k + b) (λ _ g _, g ≤ B) k l.
  Proof.
    revert fuel n pred limit wb wp l b k.
    induction depth as [|d IHd]; intros fuel; [lia|].
    induction fuel as [|f IHf]; intros n pred limit wb wp l b k Hn Hf Hd _ Hpred Hb HB; [lia|].
    rewrite qs_recurse_unfold. replace (S d - 1) with d in Hd by lia.
    unfold QS_MAX_INSERTION. destruct (Nat.leb_spec n 20) as [Hs|Hs].
    { pose proof (bud_small _ HJ _ _ _ _ _ Hb ltac:(lia)) as Hc.
      destruct (Nat.leb_spec 2 n); [|apply wpg_ret; lia].
      assert ((n - 1) * (n - 1) ≤ 20 * n) by (apply Nat.mul_le_mono; lia).
      eapply wpg_known;
        [lia|apply (insertion_sort_shift_left_spec c ans n 1 l); [done|lia]| |].
      { cost_call insertion_sort_shift_left_cost; [lia|]. intros ? ? _ H1. exact H1. }
      simpl. intros; lia. }
    destruct (Nat.eqb_spec limit 0) as [Hl|Hl].
    { subst limit. pose proof (bud_heap _ HJ _ _ _ _ Hb) as Hc. rewrite <-Hn in Hc.
      eapply wpg_known; [lia|by apply (heap_sort_spec ans n l)|
        apply heap_sort_cost; lia|simpl; intros; lia]. }
    pose proof (bud_step _ HJ _ _ _ _ _ Hb ltac:(lia) Hl) as Hst. rewrite <-Hn in Hst.
    (* break_patterns *)
    apply wpg_bind.
    eapply (wpg_known _ (λ r k', r = lim wb limit ∧ k' = k) (λ _ l', l' ≡ₚ l) (upanic ans l));
      [lia| | |].
    { destruct wb; [by apply wp_ret|]. apply wp_bind.
      wp_apply (break_patterns_spec ans c n l (upanic ans l)); [done| |by auto].
      intros [] l' _ Hp. apply wp_usub; [lia|done]. }
    { destruct wb; [by apply costs_ret|]. apply costs_bind.
      eapply costs_mono; [apply costs_silent, break_patterns_silent|]. intros [] k' _ ->.
      apply costs_usub. done. }
    intros limit' k' l1 Hl1 [-> ->] Hp1.
    (* choose_pivot *)
    apply wpg_bind.
    eapply wpg_known; [lia|apply (choose_pivot_spec ans n l1); lia|apply choose_pivot_cost; lia|].
    cbv beta. intros [pivot likely] k2 l2 Hl2 Hk2 [Hp2 Hpiv]. rewrite Hp1 in Hp2.
    (* partial insertion sort *)
    apply wpg_bind.
    eapply (wpg_known _ (λ _ k', k' ≤ k2 + 11 * n + 5) (λ b l', l' ≡ₚ l) (upanic ans l));
      [lia| | |].
    { destruct (wb && wp && likely).
      - wp_apply (partial_insertion_sort_spec c ans n l2); [lia| |].
        + intros ? l' _ [Hp Hpi]. by rewrite Hp.
        + intros e l' _ Hu. by eapply upanic_perm.
      - by apply wp_ret. }
    { destruct (wb && wp && likely).
      - apply partial_insertion_sort_cost; lia.
      - apply costs_ret. lia. }
    intros fin k3 l3 Hl3 Hk3 Hp3. destruct fin; [apply wpg_ret; lia|].
    destruct (lookup_lt_is_Some_2 l3 pivot) as [p Hp]; [lia|].
    (* compare with the predecessor *)
    apply wpg_bind.
    eapply (wpg_known _ (λ _ k', k' ≤ k3 + 1)
      (λ b l', l' = l3 ∧ if b : bool then ∃ q, pred = Some q ∧ kle p q
        else ∀ q, pred = Some q → klt q p) (upanic ans l)); [lia| | |].
    { destruct pred as [q|]; [|by apply wp_ret].
      apply wp_bind, wp_get; [lia|lia|]. intros x Hx. rewrite Hp in Hx. injection Hx as <-.
      apply wp_bind, wp_is_less; [|intros Hr; by eapply upanic_intro].
      intros r Hr. apply wp_ret. split; [done|]. destruct r; cbn [negb].
      - intros q' [= <-]. by apply ans_true.
      - exists q. split; [done|]. by apply ans_false. }
    { repeat cost_step; lia. }
    intros eq k4 l' _ Hk4 [-> Heq]. destruct eq.
    { (* equal to the predecessor *)
      destruct Heq as (q & -> & Hpq).
      apply wpg_bind.
      eapply wpg_known; [lia|apply (partition_equal_spec ans n pivot l3 p); [lia|done]|
        apply partition_equal_cost; lia|].
      cbv beta. intros mid k5 l4 Hl4 Hk5 (Hp4 & Hmid & Hmid0 & Hlo & Hhi).
      specialize (Hmid0 ltac:(lia)). specialize (Hhi ltac:(lia)).
      apply rng_drop in Hhi; [|lia].
      assert (Hl4' : l4 = take mid l4 ++ drop mid l4 ++ []).
      { by rewrite app_nil_r, take_drop. }
      assert (Hp04 : l4 ≡ₚ l) by (by rewrite Hp4).
      destruct (bud_eq _ HJ b q limit wb l l4 p mid) as (b' & Hb' & Hj); try done; try lia.
      { rewrite <-Hp3. by eapply elem_of_list_lookup_2. }
      { by apply Hpred. }
      assert (Hlt : length (take mid l4) = mid) by (rewrite take_length; lia).
      assert (Hld : length (drop mid l4) = n - mid) by (rewrite drop_length; lia).
      rewrite Hl4' at 1.
      apply wpg_slice_app; [done|rewrite Hld; lia|lia|].
      wpg_apply (IHf (length (drop mid l4)) (Some q) (lim wb limit) wb wp (drop mid l4) b' k5);
        [done|lia|rewrite Nat.sub_succ, Nat.sub_0_r; lia|lia| |done|lia| |].
      - intros q' [= <-]. apply Forall_drop. rewrite Hp04. by apply Hpred.
      - simpl. intros. lia.
      - simpl. done. }
    (* partition *)
    apply wpg_bind.
    eapply wpg_known; [lia|apply (partition_spec c ans n pivot l3 p); [lia|done]|
      apply partition_cost; lia|].
    cbv beta. intros [mid was_p] k5 l4 Hl4 Hk5 (Hp4 & Hmp & Hlo & Hhi).
    pose proof (lookup_lt_Some _ _ _ Hmp) as Hmid.
    apply rng_drop in Hhi; [|lia].
    apply wpg_bind, wpg_usub; [lia|].
    apply wpg_bind.
    eapply (wpg_known _ (λ _ k', k' = k5) (λ _ l', l' = l4) (upanic ans l)); [lia| | |].
    { apply wp_slice; [lia|lia|lia|].
      apply wp_slice_check; [lia|lia|rewrite sub_length; lia|]. intros Hls.
      rewrite (drop_ge l4 n) by lia. rewrite app_nil_r.
      rewrite (take_ge (drop mid l4)) by (rewrite drop_length; lia). by rewrite take_drop. }
    { repeat cost_step. done. }
    intros [] k' l' _ -> ->.
    apply wpg_bind, wpg_get; [lia|lia|]. intros p' Hp'. rewrite Hmp in Hp'. injection Hp' as <-.
    assert (Hp04 : l4 ≡ₚ l) by (by rewrite Hp4).
    assert (Hpred4 : ∀ q, pred = Some q → Forall (kle q) l4).
    { intros q Hq. rewrite Hp04. auto. }
    apply rng_take in Hlo. clear Hp4 Hp3 Hp.
    set (A := take mid l4) in *. set (R := drop (S mid) l4) in *.
    assert (Hl4e : l4 = A ++ p :: R) by (by apply bound_split).
    assert (HlA : length A = mid) by (unfold A; rewrite take_length; lia).
    assert (HlR : length R = n - (mid + 1)) by (unfold R; rewrite drop_length; lia).
    assert (Hpart : parted pred A p R) by (by split; [|split]).
    clearbody A R. subst l4.
    assert (HpredA : ∀ q, pred = Some q → Forall (kle q) A).
    { intros q Hq. specialize (Hpred4 q Hq). by apply Forall_app in Hpred4 as [? _]. }
    assert (Hd' : d ≠ 0) by (intros ->; simpl in Hd; lia).
    assert (Hpow : 2 ^ d = 2 * 2 ^ (d - 1)).
    { replace d with (S (d - 1)) at 1 by lia. by rewrite Nat.pow_succ_r'. }
    destruct (Nat.ltb_spec mid (n - (mid + 1))).
    - (* recurse left, continue right *)
      destruct (bud_left _ HJ _ _ _ _ _ A p R Hb) as (b1 & b2 & Hbb & HJ1 & HJ2);
        try done; try lia.
      apply wpg_bind. change (A ++ p :: R) with ([] ++ A ++ p :: R).
      apply wpg_slice_app; [done|simpl; lia|lia|].
      wpg_apply (IHd (S (length A)) (length A) pred (lim wb limit) true true A b1 k5);
        [done|lia|lia|lia|done|done|lia| |by auto].
      cbv beta. intros [] k6 A' HlA' Hk6 _. simpl.
      replace (A' ++ p :: R) with ((A' ++ [p]) ++ R ++ []) by (by rewrite app_nil_r, <-app_assoc).
      assert (HlAp : length (A' ++ [p]) = mid + 1) by (rewrite app_length; simpl; lia).
      apply wpg_slice_app; [done|lia|lia|].
      rewrite <-Hn, HlA in HJ2.
      wpg_apply (IHf (length R) (Some p) (lim wb limit) (n / 8 <=? Nat.min mid (n - mid)) was_p R b2 k6);
        [done|lia|rewrite Nat.sub_succ, Nat.sub_0_r; lia|lia| |done|lia| |by auto].
      + intros q Hq. by injection Hq as <-.
      + cbv beta. intros. lia.
    - (* recurse right, continue left *)
      destruct (bud_right _ HJ _ _ _ _ _ A p R Hb) as (b1 & b2 & Hbb & HJ1 & HJ2);
        try done; try lia.
      apply wpg_bind.
      replace (A ++ p :: R) with ((A ++ [p]) ++ R ++ []) by (by rewrite app_nil_r, <-app_assoc).
      assert (HlAp : length (A ++ [p]) = mid + 1) by (rewrite app_length; simpl; lia).
      apply wpg_slice_app; [done|lia|lia|].
      wpg_apply (IHd (S (length R)) (length R) (Some p) (lim wb limit) true true R b1 k5);
        [done|lia|lia|lia| |done|lia| |by auto].
      { intros q Hq. by injection Hq as <-. }
      cbv beta. intros [] k6 B' HlB' Hk6 _. rewrite app_nil_r, <-app_assoc. simpl.
      change (A ++ p :: B') with ([] ++ A ++ p :: B').
      apply wpg_slice_app; [done|simpl; lia|lia|].
      rewrite <-Hn, HlA in HJ2.
      wpg_apply (IHf (length A) pred (lim wb limit) (n / 8 <=? Nat.min mid (n - mid)) was_p A b2 k6);
        [done|lia|rewrite Nat.sub_succ, Nat.sub_0_r; lia|lia|done|done|lia| |by auto].
      cbv beta. intros. lia.
  Qed.

  Lemma quick_sort_calls n l b :
    n = length l → zst c = false → J b None (bit_length n) true l →
    wpg ok (quick_sort c n) (λ _ g _, g ≤ b) (λ _ g _, g ≤ b) 0 l.
  Proof.
    intros Hn Hz Hb. unfold quick_sort. rewrite Hz.
    wpg_apply (qs_recurse_calls (S (bit_length n)) (S n) n None (bit_length n) true true l b 0 b);
      try done; try lia; auto.
    replace (S (bit_length n) - 1) with (bit_length n) by lia. apply bit_length_spec.
  Qed.
End budget.

(** ** Arbitrary closures. *)
Section quadratic.
  Context {T : Type} (ans : T * T → option bool → Prop).

  Definition bud_any (b : nat) (_ : option T) (_ : nat) (_ : bool) (l : list T) : Prop :=
    13 * (length l * length l) + 20 * length l ≤ b.
  Lemma square_split a r n :
    a + r < n → n + (a * a + r * r) ≤ n * n.
  Proof.
    intros H. destruct n as [|n]; [lia|].
    assert (a * a + r * r ≤ (a + r) * (a + r)) by lia.
    assert ((a + r) * (a + r) ≤ n * n) by (apply Nat.mul_le_mono; lia). lia.
  Qed.
  Lemma bud_any_ok : budget ans bud_any.
  Proof.
    unfold bud_any. split.
    - intros b pred limit wb l Hb Hl. lia.
    - intros b pred wb l Hb. pose proof (Nat.log2_le_lin (length l) (Nat.le_0_l _)).
      assert (length l * Nat.log2 (length l) ≤ length l * length l)
        by (by apply Nat.mul_le_mono_l). lia.
    - intros b pred limit wb l Hb Hl _.
      assert (length l * 1 ≤ length l * length l) by (apply Nat.mul_le_mono_l; lia). lia.
    - intros b q limit wb l l' p mid Hb Hl _ Hp _ _ _ H0 Hm _.
      exists (13 * (length (drop mid l') * length (drop mid l')) + 20 * length (drop mid l')).
      split; [|done].
      assert (length (drop mid l') < length l).
      { rewrite drop_length, (Permutation_length Hp). lia. }
      pose proof (square_split (length (drop mid l')) 0 (length l)). lia.
    - intros b pred limit wb l A p R Hb Hl _ Hp _ _.
      exists (13 * (length A * length A) + 20 * length A),
        (13 * (length R * length R) + 20 * length R). split; [|done].
      apply Permutation_length in Hp. rewrite app_length in Hp. simpl in Hp.
      pose proof (square_split (length A) (length R) (length l)). lia.
    - intros b pred limit wb l A p R Hb Hl _ Hp _ _.
      exists (13 * (length R * length R) + 20 * length R),
        (13 * (length A * length A) + 20 * length A). split; [|done].
      apply Permutation_length in Hp. rewrite app_length in Hp. simpl in Hp.
      pose proof (square_split (length A) (length R) (length l)). lia.
  Qed.
End quadratic.

(** ** Strict weak orders. *)
(** [log2 (n^8)]: drops by one if [n] drops by a factor 11/12. *)
Definition psi (n : nat) : nat := N.to_nat (N.log2 (N.of_nat n ^ 8)).
Lemma psi_mono m n : m ≤ n → psi m ≤ psi n.
Proof.
  intros H. unfold psi.
  assert (N.log2 (N.of_nat m ^ 8) <= N.log2 (N.of_nat n ^ 8))%N; [|lia].
  apply N.log2_le_mono, N.pow_le_mono_l. lia.
Qed.
Lemma psi_drop m n : 12 * m ≤ 11 * n → 1 < n → psi m + 1 ≤ psi n.
Proof.
  intros H H1. unfold psi.
  assert (N.succ (N.log2 (N.of_nat m ^ 8)) <= N.log2 (N.of_nat n ^ 8))%N; [|lia].
  set (x := N.of_nat m). set (y := N.of_nat n).
  assert (Hxy : (12 * x <= 11 * y)%N) by lia.
  assert (Hy : (2 <= y)%N) by lia.
  destruct (N.eq_dec x 0) as [->|Hx].
  { change (N.log2 (0 ^ 8)) with 0%N. apply N.log2_le_pow2; [|].
    - assert (0 < y ^ 8)%N; [apply N.neq_0_lt_0, N.pow_nonzero; lia|lia].
    - change (2 ^ N.succ 0)%N with (2 ^ 1)%N.
      transitivity (y ^ 1)%N; [by apply N.pow_le_mono_l|]. apply N.pow_le_mono_r; lia. }
  rewrite <-N.log2_double by (apply N.neq_0_lt_0, N.pow_nonzero; lia).
  apply N.log2_le_mono.
  assert (H8 : ((12 * x) ^ 8 <= (11 * y) ^ 8)%N) by (by apply N.pow_le_mono_l).
  rewrite !N.pow_mul_l in H8.
  assert (Hc : (2 * 11 ^ 8 <= 12 ^ 8)%N) by (vm_compute; discriminate).
  set (X := (x ^ 8)%N) in *. set (Y := (y ^ 8)%N) in *.
  change (11 ^ 8)%N with 214358881%N in *. change (12 ^ 8)%N with 429981696%N in *. lia.
Qed.
Lemma psi_bound n : psi n ≤ 8 * Nat.log2 n + 8.
Proof.
  destruct n as [|n]; [vm_compute; lia|]. set (m := S n).
  unfold psi. set (L := Nat.log2 m).
  assert (N.log2 (N.of_nat m ^ 8) < 8 * N.of_nat L + 8)%N; [|lia].
  apply N.log2_lt_pow2; [apply N.neq_0_lt_0, N.pow_nonzero; unfold m; lia|].
  assert (H : m < 2 ^ S L) by (apply Nat.log2_spec; unfold m; lia).
  assert (H' : (N.of_nat m < 2 ^ N.of_nat (S L))%N).
  { change 2%N with (N.of_nat 2). rewrite <-Nat2N.inj_pow. lia. }
  replace (8 * N.of_nat L + 8)%N with (N.of_nat (S L) * 8)%N by lia.
  rewrite N.pow_mul_r. by apply N.pow_lt_mono_l.
Qed.

Section swo.
  Context {T : Type} (ans : T * T → option bool → Prop) (lt : T → T → bool).
  Context (Hswo : strict_weak_order lt) (Hcons : consistent ans lt) (top : nat).
  Implicit Types (l : list T).

  (** The number of partitioning levels that may follow; [s]: all elements are
      greater than the predecessor. *)
  Definition levels (limit : nat) (wb : bool) (n : nat) (s : bool) : nat :=
    2 * (2 * limit + Nat.b2n wb + psi n) + Nat.b2n (negb s).
  Definition bud_swo (b : nat) (pred : option T) (limit : nat) (wb : bool) (l : list T) : Prop :=
    length l ≤ top ∧
    ∃ s, (s = true → ∀ q, pred = Some q → Forall (klt ans q) l) ∧
      length l * (13 * levels limit wb (length l) s + (3 * Nat.log2 top + 22)) ≤ b.

  Lemma bud_split a r n P P1 P2 H :
    a + r ≤ n → P1 + 1 ≤ P → P2 + 1 ≤ P →
    13 * n + a * (13 * P1 + H) + r * (13 * P2 + H) ≤ n * (13 * P + H).
  Proof.
    intros Ha H1 H2. destruct P as [|P]; [lia|].
    assert (a * (13 * P1 + H) ≤ a * (13 * P + H)) by (apply Nat.mul_le_mono_l; lia).
    assert (r * (13 * P2 + H) ≤ r * (13 * P + H)) by (apply Nat.mul_le_mono_l; lia).
    assert ((a + r) * (13 * P + H) ≤ n * (13 * P + H)) by (by apply Nat.mul_le_mono_r). lia.
  Qed.

  Lemma levels_loop limit wb n m s s' bal :
    limit ≠ 0 → 20 < n → m ≤ n → (bal = true → 12 * m ≤ 11 * n) →
    levels (lim wb limit) bal m s' + 1 ≤ levels limit wb n s.
  Proof.
    intros Hl Hn Hm Hb. unfold levels, lim. pose proof (psi_mono m n Hm).
    destruct bal; [pose proof (psi_drop m n (Hb eq_refl) ltac:(lia))|];
      destruct wb, s, s'; simpl; lia.
  Qed.
  Lemma bal_bound n a : 20 < n → (n / 8 <=? Nat.min a (n - a)) = true →
    12 * (n - a) ≤ 11 * n + 12 ∧ 12 * a ≤ 11 * n.
  Proof.
    intros Hn H. apply Nat.leb_le in H.
    pose proof (Nat.div_mod n 8 ltac:(lia)). pose proof (Nat.mod_upper_bound n 8 ltac:(lia)). lia.
  Qed.

  Lemma bud_swo_ok : budget ans bud_swo.
  Proof.
    unfold bud_swo. split.
    - intros b pred limit wb l (Ht & s & Hs & Hb) Hl.
      etransitivity; [|exact Hb]. rewrite (Nat.mul_comm 20). apply Nat.mul_le_mono_l. lia.
    - intros b pred wb l (Ht & s & Hs & Hb). etransitivity; [|exact Hb].
      rewrite (Nat.mul_comm 3), <-Nat.mul_assoc. apply Nat.mul_le_mono_l.
      pose proof (Nat.log2_le_mono _ _ Ht). lia.
    - intros b pred limit wb l (Ht & s & Hs & Hb) Hl _.
      etransitivity; [|exact Hb]. rewrite (Nat.mul_comm 13). apply Nat.mul_le_mono_l. lia.
    - intros b q limit wb l l' p mid (Ht & s & Hs & Hb) Hl Hlim Hp Hpl Hq Hpq H0 Hm Hd.
      eexists. split; [|split].
      2: { rewrite drop_length, (Permutation_length Hp). lia. }
      2: { exists true. split; [|reflexivity]. intros _ q' [= <-].
           eapply Forall_impl; [exact Hd|]. intros x Hx. eapply kle_klt_trans; [|exact Hx].
           by eapply (proj1 (Forall_forall _ _) Hq). }
      etransitivity; [|exact Hb].
      assert (Hlen : length (drop mid l') ≤ length l).
      { rewrite drop_length, (Permutation_length Hp). lia. }
      assert (s = false) as ->.
      { destruct s; [|done]. specialize (Hs eq_refl q eq_refl).
        specialize (Hpq lt Hswo Hcons).
        pose proof (proj1 (Forall_forall _ _) Hs p Hpl lt Hswo Hcons). congruence. }
      pose proof (bud_split (length (drop mid l')) 0 (length l)
        (levels limit wb (length l) false) (levels (lim wb limit) wb (length (drop mid l')) true)
        (levels (lim wb limit) wb (length (drop mid l')) true) (3 * Nat.log2 top + 22)) as Hx.
      assert (levels (lim wb limit) wb (length (drop mid l')) true + 1
              ≤ levels limit wb (length l) false).
      { unfold levels, lim. pose proof (psi_mono _ _ Hlen). destruct wb; simpl; lia. }
      lia.
    - intros b pred limit wb l A p R (Ht & s & Hs & Hb) Hl Hlim Hp _ HAR.
      pose proof (Permutation_length Hp) as Hlen. rewrite app_length in Hlen. simpl in Hlen.
      set (bal := length l / 8 <=? Nat.min (length A) (length l - length A)).
      eexists _, _. split; [|split; (split; [lia|])].
      2: { exists s. split; [|reflexivity]. intros -> q Hq. specialize (Hs eq_refl q Hq).
           rewrite <-Hp in Hs. by apply Forall_app in Hs as [? _]. }
      2: { exists false. split; [done|reflexivity]. }
      etransitivity; [|exact Hb]. apply bud_split; [lia| |].
      + apply levels_loop; lia.
      + apply levels_loop; try lia. intros Hbal.
        destruct (bal_bound (length l) (length A)); [lia|done|]. lia.
    - intros b pred limit wb l A p R (Ht & s & Hs & Hb) Hl Hlim Hp _ HAR.
      pose proof (Permutation_length Hp) as Hlen. rewrite app_length in Hlen. simpl in Hlen.
      set (bal := length l / 8 <=? Nat.min (length A) (length l - length A)).
      eexists _, _. split; [|split; (split; [lia|])].
      2: { exists false. split; [done|reflexivity]. }
      2: { exists s. split; [|reflexivity]. intros -> q Hq. specialize (Hs eq_refl q Hq).
           rewrite <-Hp in Hs. by apply Forall_app in Hs as [? _]. }
      etransitivity; [|exact Hb]. apply bud_split; [lia| |].
      + apply levels_loop; lia.
      + apply levels_loop; try lia. intros Hbal.
        destruct (bal_bound (length l) (length A)); [lia|done|]. lia.
  Qed.
End swo.

Lemma sort_unstable_by_quadratic {T S} (c : cfg) (o : S → T * T → option comparison * S) s (l : list T) :
  let '(_, (_, tr), _) := run (logged o) (sort_unstable_by c (length l)) (s, []) l in
  length tr ≤ 13 * (length l * length l) + 20 * length l.
Proof.
  destruct (zst c) eqn:Hz.
  { unfold sort_unstable_by, quick_sort. rewrite Hz. simpl. lia. }
  pose proof (wpg_run_compare ans_all o (quick_sort c (length l)) _ _ s l ltac:(done)
    (quick_sort_calls c ans_all bud_any (bud_any_ok ans_all) (length l) l _ eq_refl Hz
      (Nat.le_refl _))) as H.
  unfold sort_unstable_by. by destruct (run _ _ _ _) as [[[a|e| |] [s' tr]] l'].
Qed.

(** [o] answers as [cmp] does, or panics. *)
Definition answers_as {T S} (cmp : T → T → comparison) (o : S → T * T → option comparison * S) :=
  ∀ s q r, (o s q).1 = Some r → r = cmp q.1 q.2.

Lemma sort_unstable_by_cost {T S} (c : cfg) (cmp : T → T → comparison)
    (o : S → T * T → option comparison * S) s (l : list T) :
  strict_weak_order (is_lt cmp) → answers_as cmp o →
  let '(_, (_, tr), _) := run (logged o) (sort_unstable_by c (length l)) (s, []) l in
  length tr ≤ 340 * length l * (Nat.log2 (length l) + 1).
Proof.
  intros Hs Ho. destruct (zst c) eqn:Hz.
  { unfold sort_unstable_by, quick_sort. rewrite Hz. simpl. lia. }
  set (ans := λ (q : T * T) (r : option bool), ∀ b, r = Some b → b = is_lt cmp q.1 q.2).
  assert (Hc : consistent ans (is_lt cmp)).
  { intros a b r H. by apply H. }
  set (L := Nat.log2 (length l)).
  assert (Hb : bud_swo ans (length l) (340 * length l * (L + 1)) None (bit_length (length l)) true l).
  { split; [done|]. exists true. split; [done|].
    pose proof (psi_bound (length l)) as Hpsi. fold L in Hpsi |- *.
    assert (bit_length (length l) ≤ L + 1).
    { unfold L, bit_length. destruct (length l); lia. }
    rewrite (Nat.mul_comm 340), <-Nat.mul_assoc. apply Nat.mul_le_mono_l.
    unfold levels. simpl. lia. }
  pose proof (wpg_run_compare ans o (quick_sort c (length l))
    (λ _ g _, g ≤ 340 * length l * (L + 1)) (λ _ g _, g ≤ 340 * length l * (L + 1)) s l) as H.
  assert (Ha : ∀ s' q, ans q (less_of_compare o s' q).1).
  { intros s' q b Hb'. specialize (Ho s' q). unfold less_of_compare in Hb'.
    destruct (o s' q) as [[r|] s'']; simpl in Ho, Hb'; [|done]. specialize (Ho r eq_refl). subst r.
    unfold is_lt. destruct (cmp q.1 q.2); by injection Hb' as <-. }
  specialize (H Ha
    (quick_sort_calls c ans _ (bud_swo_ok ans _ Hs Hc (length l)) (length l) l _ eq_refl Hz Hb)).
  unfold sort_unstable_by. fold L. by destruct (run _ _ _ _) as [[[a|e| |] [s' tr]] l'].
Qed.
