(** * Number of calls made by the unstable sorts on arrays with few values.

    Each value is the pivot of at most two partitions in a row: the second one compares
    equal to the predecessor and takes all elements of this value away. *)
From Verif Require Export CSched FewSpec.
From stdpp Require Import list.

Lemma split_values {T} (f : T → bool) (values : list T) :
  ∃ yes no, values ≡ₚ yes ++ no ∧ Forall (λ v, f v = true) yes ∧ Forall (λ v, f v = false) no.
Proof.
  induction values as [|v values (yes & no & Hp & Hy & Hn)].
  { exists [], []. by repeat split; constructor. }
  destruct (f v) eqn:Hv.
  - exists (v :: yes), no. split; [by rewrite Hp|]. split; [by constructor|done].
  - exists yes, (v :: no). split; [rewrite Hp; apply Permutation_middle|]. split; [done|by constructor].
Qed.

Section few.
  Context {T : Type} (ans : T * T → option bool → Prop) (lt : T → T → bool).
  Hypothesis (Hswo : strict_weak_order lt) (Hcons : consistent ans lt).
  Implicit Types (l A R values : list T).

  Definition same (x y : T) : Prop := lt x y = false ∧ lt y x = false.
  Definition covers values l : Prop := Forall (λ x, ∃ v, v ∈ values ∧ same x v) l.
  (** At most [m] partitions may follow each other. *)
  Definition chain (m : nat) (pred : option T) l : Prop :=
    ∃ values, covers values l ∧
      (2 * length values ≤ m ∨
       2 * length values ≤ m + 1 ∧ ∃ q v, pred = Some q ∧ v ∈ values ∧ same q v).

  Lemma same_less x v p : same x v → lt x p = lt v p.
  Proof.
    intros [H1 H2]. destruct (lt x p) eqn:E1, (lt v p) eqn:E2; try done; exfalso.
    - pose proof (swo_negtrans _ Hswo _ _ _ H1 E2). congruence.
    - pose proof (swo_negtrans _ Hswo _ _ _ H2 E1). congruence.
  Qed.
  Lemma same_greater x v p : same x v → lt p x = lt p v.
  Proof.
    intros [H1 H2]. destruct (lt p x) eqn:E1, (lt p v) eqn:E2; try done; exfalso.
    - pose proof (swo_negtrans _ Hswo _ _ _ E2 H2). congruence.
    - pose proof (swo_negtrans _ Hswo _ _ _ E1 H1). congruence.
  Qed.

  Lemma chain_nonempty m pred l : chain m pred l → l ≠ [] → 0 < m.
  Proof.
    intros (values & Hc & Hm) Hl. destruct l as [|x l]; [done|].
    apply Forall_cons in Hc as [(v & Hv & _) _]. destruct values; [by apply elem_of_nil in Hv|].
    simpl in Hm. lia.
  Qed.

  Lemma chain_split m pred l A p R :
    chain m pred l → A ++ p :: R ≡ₚ l → parted ans pred A p R →
    chain (m - 1) pred A ∧ chain (m - 1) (Some p) R.
  Proof.
    intros (values & Hc & Hm) Hp (Hq & HA & HR).
    assert (Hq' : ∀ q, pred = Some q → lt q p = true) by (intros; by apply (Hq _ H lt)).
    destruct (split_values (λ v, lt v p) values) as (yes & no & Hv & Hy & Hn).
    pose proof (Permutation_length Hv) as Hlen. rewrite app_length in Hlen.
    unfold covers in Hc. rewrite <-Hp in Hc. apply Forall_app in Hc as [HcA HcR].
    apply Forall_cons in HcR as [(w & Hw & Hpw) HcR].
    rewrite Forall_forall in Hy, Hn.
    assert (Hno : ∀ x v, v ∈ values → same x v → lt x p = false → v ∈ no).
    { intros x v Hin Hxv Hx. rewrite Hv in Hin. apply elem_of_app in Hin as [Hin|]; [|done].
      specialize (Hy v Hin). cbv beta in Hy. rewrite (same_less x v p Hxv) in Hx. congruence. }
    assert (Hyes : ∀ x v, v ∈ values → same x v → lt x p = true → v ∈ yes).
    { intros x v Hin Hxv Hx. rewrite Hv in Hin. apply elem_of_app in Hin as [|Hin]; [done|].
      specialize (Hn v Hin). cbv beta in Hn. rewrite (same_less x v p Hxv) in Hx. congruence. }
    assert (Hwno : w ∈ no) by (apply (Hno p); [done|done|apply (swo_irrefl _ Hswo)]).
    split.
    - exists yes. split.
      + apply Forall_forall. intros x Hx. rewrite Forall_forall in HcA, HA.
        destruct (HcA x Hx) as (v & Hin & Hxv). exists v. split; [|done].
        apply (Hyes x); [done|done|]. by apply (HA x Hx lt).
      + left. destruct no; [by apply elem_of_nil in Hwno|]. simpl in *. lia.
    - exists no. split.
      + apply Forall_forall. intros x Hx. rewrite Forall_forall in HcR, HR.
        destruct (HcR x Hx) as (v & Hin & Hxv). exists v. split; [|done].
        apply (Hno x); [done|done|]. by apply (HR x Hx lt).
      + right. split; [|by exists p, w].
        destruct Hm as [Hm|[Hm (q & v & Hpq & Hin & Hqv)]].
        { destruct no; [by apply elem_of_nil in Hwno|]. simpl in *. lia. }
        assert (v ∈ yes) as Hvy by (apply (Hyes q); [done|done|by apply Hq']).
        destruct yes; [by apply elem_of_nil in Hvy|]. simpl in *. lia.
  Qed.

  Lemma chain_equal m q q' l l' p mid :
    chain m (Some q) l → l' ≡ₚ l → p ∈ l → Forall (klt ans p) (drop mid l') →
    chain (m - 1) q' (drop mid l').
  Proof.
    intros (values & Hc & Hm) Hp Hpl Hd.
    destruct (split_values (λ v, lt p v) values) as (yes & no & Hv & Hy & Hn).
    pose proof (Permutation_length Hv) as Hlen. rewrite app_length in Hlen.
    assert (Hin : ∀ x, x ∈ drop mid l' → x ∈ l).
    { intros x Hx. rewrite <-Hp. rewrite <-(take_drop mid l'). apply elem_of_app. by right. }
    unfold covers in Hc. rewrite Forall_forall in Hc, Hd, Hy, Hn.
    exists yes. split.
    - apply Forall_forall. intros x Hx. destruct (Hc x (Hin x Hx)) as (v & Hvv & Hxv).
      exists v. split; [|done]. rewrite Hv in Hvv. apply elem_of_app in Hvv as [|Hvv]; [done|].
      specialize (Hn v Hvv). cbv beta in Hn. rewrite <-(same_greater x v p Hxv) in Hn.
      pose proof (Hd x Hx lt Hswo Hcons). congruence.
    - left. destruct (Hc p Hpl) as (w & Hw & Hpw).
      assert (w ∈ no) as Hwn.
      { rewrite Hv in Hw. apply elem_of_app in Hw as [Hw|]; [|done].
        specialize (Hy w Hw). cbv beta in Hy. destruct Hpw. congruence. }
      destruct no; [by apply elem_of_nil in Hwn|]. simpl in *. lia.
  Qed.

  Lemma few_values_chain k l : few_values lt k l → chain (2 * k) None l.
  Proof.
    intros (values & Hk & Hv). exists values. split; [|left; lia]. exact Hv.
  Qed.

  (** With [strict], the number of partitions is bounded by [limit], so there is no
      heapsort; otherwise [extra] pays for one. *)
  Context (top extra : nat) (strict : bool).
  Hypothesis Hextra : 20 ≤ extra.
  Hypothesis Hheap : strict = false → 3 * Nat.log2 top ≤ extra.
  Definition bud_few (b : nat) (pred : option T) (limit : nat) (wb : bool) l : Prop :=
    length l ≤ top ∧ ∃ m, chain m pred l ∧ (strict = true → m ≤ limit) ∧
      length l * (13 * m + extra) ≤ b.

  Lemma bud_few_two b pred limit wb l A p R wbA wbR :
    bud_few b pred limit wb l → 20 < length l → limit ≠ 0 → A ++ p :: R ≡ₚ l →
    parted ans pred A p R →
    ∃ b1 b2, 13 * length l + b1 + b2 ≤ b ∧
      bud_few b1 pred (lim wb limit) wbA A ∧ bud_few b2 (Some p) (lim wb limit) wbR R.
  Proof.
    intros (Ht & m & Hf & Hs & Hb) Hl Hl0 Hp Hpart.
    destruct (chain_split _ _ _ _ _ _ Hf Hp Hpart) as [HfA HfR].
    pose proof (chain_nonempty _ _ _ Hf ltac:(by intros ->; simpl in Hl; lia)) as Hm.
    apply Permutation_length in Hp. rewrite app_length in Hp. simpl in Hp.
    exists (length A * (13 * (m - 1) + extra)), (length R * (13 * (m - 1) + extra)).
    split; [etransitivity; [|exact Hb]; apply bud_split; lia|].
    split; (split; [lia|]); exists (m - 1); (split; [done|]); (split; [|done]);
      intros E; specialize (Hs E); unfold lim; destruct wb; lia.
  Qed.

  Lemma bud_few_ok : budget ans bud_few.
  Proof.
    split.
    - intros b pred limit wb l (Ht & m & Hf & Hs & Hb) Hl. etransitivity; [|exact Hb].
      rewrite (Nat.mul_comm 20). apply Nat.mul_le_mono_l. lia.
    - intros b pred wb l (Ht & m & Hf & Hs & Hb). etransitivity; [|exact Hb].
      rewrite (Nat.mul_comm 3), <-Nat.mul_assoc.
      destruct (decide (l = [])) as [->|Hl]; [done|]. apply chain_nonempty in Hf; [|done].
      apply Nat.mul_le_mono_l. destruct strict; [specialize (Hs eq_refl); lia|].
      specialize (Hheap eq_refl). pose proof (Nat.log2_le_mono _ _ Ht). lia.
    - intros b pred limit wb l (Ht & m & Hf & Hs & Hb) Hl _. etransitivity; [|exact Hb].
      rewrite (Nat.mul_comm 13). apply Nat.mul_le_mono_l. lia.
    - intros b q limit wb l l' p mid (Ht & m & Hf & Hs & Hb) Hl Hl0 Hp Hpl _ _ Hmid0 Hmid Hd.
      pose proof (chain_equal _ _ (Some q) _ _ _ _ Hf Hp Hpl Hd) as Hf'.
      pose proof (chain_nonempty _ _ _ Hf ltac:(by intros ->; simpl in Hl; lia)) as Hm.
      assert (length (drop mid l') ≤ length l).
      { rewrite drop_length, (Permutation_length Hp). lia. }
      exists (length (drop mid l') * (13 * (m - 1) + extra)). split.
      + etransitivity; [|exact Hb].
        pose proof (bud_split (length (drop mid l')) 0 (length l) m (m - 1) (m - 1) extra). lia.
      + split; [lia|]. exists (m - 1). split; [done|]. split; [|done].
        intros E. specialize (Hs E). unfold lim. destruct wb; lia.
    - intros b pred limit wb l A p R Hb Hl Hl0 Hp Hpart _.
      by apply (bud_few_two b pred limit wb l A p R).
    - intros b pred limit wb l A p R Hb Hl Hl0 Hp Hpart _.
      destruct (bud_few_two b pred limit wb l A p R
        (length l / 8 <=? Nat.min (length A) (length l - length A)) true) as (b1 & b2 & ? & ? & ?); try done.
      exists b2, b1. split; [lia|]. done.
  Qed.
  Lemma bud_few_fork : fork_budget ans bud_few.
  Proof.
    intros b pred limit wb l A p R Hb Hl Hl0 Hp Hpart _. by apply (bud_few_two b pred limit wb l A p R).
  Qed.
End few.

Lemma few_values_pos {T} (lt : T → T → bool) k l : few_values lt k l → l ≠ [] → 0 < k.
Proof.
  intros (values & Hk & Hv) Hl. destruct l as [|x l]; [done|].
  apply Forall_cons in Hv as [(v & Hin & _) _]. destruct values; [by apply elem_of_nil in Hin|].
  simpl in Hk. lia.
Qed.

Lemma sort_unstable_by_few {T S} (c : cfg) (cmp : T → T → comparison)
    (o : S → T * T → option comparison * S) s (l : list T) (k : nat) :
  strict_weak_order (is_lt cmp) → answers_as cmp o → few_values (is_lt cmp) k l →
  let '(_, (_, tr), _) := run (logged o) (sort_unstable_by c (length l)) (s, []) l in
  length tr ≤ 680 * length l * k.
Proof.
  intros Hs Ho Hfew. destruct (zst c) eqn:Hz.
  { unfold sort_unstable_by, quick_sort. rewrite Hz. simpl. lia. }
  destruct (decide (l = [])) as [->|Hne].
  { pose proof (sort_unstable_by_cost c cmp o s [] Hs Ho) as H. cbn [length] in *.
    destruct (run _ _ _ _) as [[? [? tr]] ?]. lia. }
  pose proof (few_values_pos _ _ _ Hfew Hne) as Hk.
  assert (Hbl : bit_length (length l) = Nat.log2 (length l) + 1).
  { unfold bit_length. destruct (length l) eqn:E; [by apply nil_length_inv in E|lia]. }
  destruct (decide (2 * k ≤ bit_length (length l))) as [H2|H2].
  2: { pose proof (sort_unstable_by_cost c cmp o s l Hs Ho) as H.
       destruct (run _ _ _ _) as [[? [? tr]] ?]. etransitivity; [exact H|].
       rewrite !(Nat.mul_comm _ (length l)), <-!Nat.mul_assoc. apply Nat.mul_le_mono_l. lia. }
  set (ans := λ (q : T * T) (r : option bool), ∀ b, r = Some b → b = is_lt cmp q.1 q.2).
  assert (Hc : consistent ans (is_lt cmp)).
  { intros a b r H. by apply H. }
  set (b := length l * (13 * (2 * k) + 20)).
  assert (Hb : bud_few (is_lt cmp) (length l) 20 true b None (bit_length (length l)) true l).
  { split; [done|]. exists (2 * k). split; [by apply few_values_chain|]. done. }
  pose proof (wpg_run_compare ans o (quick_sort c (length l)) (λ _ g _, g ≤ b) (λ _ g _, g ≤ b) s l) as H.
  assert (Ha : ∀ s' q, ans q (less_of_compare o s' q).1).
  { intros s' q r Hr. specialize (Ho s' q). unfold less_of_compare in Hr.
    destruct (o s' q) as [[r'|] s'']; simpl in Ho, Hr; [|done]. specialize (Ho r' eq_refl). subst r'.
    unfold is_lt. destruct (cmp q.1 q.2); by injection Hr as <-. }
  specialize (H Ha
    (quick_sort_calls c ans _ (bud_few_ok ans _ Hs Hc (length l) 20 true (le_n _) ltac:(done))
      (length l) l _ eq_refl Hz Hb)).
  assert (b ≤ 680 * length l * k).
  { unfold b. rewrite (Nat.mul_comm 680), <-Nat.mul_assoc. apply Nat.mul_le_mono_l. lia. }
  unfold sort_unstable_by. destruct (run _ _ _ _) as [[[a|e| |] [s' tr]] l']; try done; simpl in *; lia.
Qed.

Section schedules.
  Context {T : Type} (c : cfg).
  Implicit Types (l : list T).

  (** [ans] answers like [cmp] or panics. *)
  Lemma par_sort_unstable_by_few cmp ans l k m c' :
    strict_weak_order (is_lt cmp) → (∀ q, ∃ r, ans q r) →
    (∀ x y r, ans (x, y) (Some r) → r = cmp x y) → few_values (is_lt cmp) k l →
    calls_made ans m (par_sort_unstable_by c (length l), l) c' →
    m ≤ length l * (26 * k + 3 * Nat.log2 (length l) + 20) ∧
    (2 * k ≤ Nat.log2 (length l) → m ≤ 46 * length l * k).
  Proof.
    intros Hs Ht Ha Hfew Hm.
    assert (Hc : consistent (less_ans ans) (is_lt cmp)).
    { intros x y r (r0 & Hr & Hr0). destruct r0 as [r0|]; [|done]. apply Ha in Hr as ->.
      unfold is_lt. destruct (cmp x y); congruence. }
    assert (Hgen : ∀ extra strict, 20 ≤ extra → (strict = false → 3 * Nat.log2 (length l) ≤ extra) →
      (strict = true → 2 * k ≤ bit_length (length l)) → m ≤ length l * (26 * k + extra)).
    { intros extra strict H20 Hx Hst. revert Hm.
      eapply calls_made_bound; [done|apply within_by_compare, within_par_quick_sort|].
      apply wpg_by_compare. destruct (zst c) eqn:Hz.
      { unfold par_quick_sort. rewrite Hz. apply wpg_ret. lia. }
      apply (par_quick_sort_calls c _ _
        (bud_few_ok (less_ans ans) _ Hs Hc (length l) extra strict H20 Hx)
        (bud_few_fork (less_ans ans) _ Hs Hc (length l) extra strict H20 Hx)); [done|done|].
      split; [done|]. exists (2 * k). split; [by apply few_values_chain|]. split; [done|].
      apply Nat.mul_le_mono_l. lia. }
    split.
    - etransitivity; [apply (Hgen (3 * Nat.log2 (length l) + 20) false); [lia|lia|done]|].
      apply Nat.mul_le_mono_l. lia.
    - intros Hk. destruct (decide (l = [])) as [->|Hne].
      { change (2 * k ≤ 0) in Hk. specialize (Hgen 20 true ltac:(lia) ltac:(done) ltac:(lia)). simpl in *. lia. }
      pose proof (few_values_pos _ _ _ Hfew Hne).
      assert (Hbl : bit_length (length l) = Nat.log2 (length l) + 1).
      { unfold bit_length. destruct (length l) eqn:E; [by apply nil_length_inv in E|lia]. }
      etransitivity; [apply (Hgen 20 true); [lia|done|lia]|].
      rewrite (Nat.mul_comm 46), <-Nat.mul_assoc. apply Nat.mul_le_mono_l. lia.
  Qed.
End schedules.
