(** * Number of calls made by the selection of many indices. *)
From Verif Require Export CAdv CSelect CParUp PIndices.
From Coq Require Import NArith.
From stdpp Require Import list.

Local Transparent wpg.
Local Arguments wpg {T Q R G A} ans !p Φ E g l.
(** Counting may start anywhere. *)
Lemma wpg_shift {T Q R A} (ans : Q → R → Prop) (p : prog T Q R A) :
  ∀ Φ E k g l, wpg (cnt_ans ans) p Φ E g l →
  wpg (cnt_ans ans) p (λ a g' l', ∃ g1, g' = k + g1 ∧ Φ a g1 l')
    (λ e g' l', ∃ g1, g' = k + g1 ∧ E e g1 l') (k + g) l.
Proof.
  induction p as [A a|A e|A i f IH|A i x f IH|A q f IH|A B' C p1 IH1 p2 IH2 f IH| |];
    intros Φ E k g l Hwp; simpl in *; eauto.
  - destruct (l !! i) as [x|]; [|done]. auto.
  - destruct Hwp. auto.
  - intros r g' [Hr ->]. replace (S (k + g)) with (k + S g) by lia. apply IH, Hwp. by split.
  - eapply wpg_mono; [apply (IH1 _ _ k g l Hwp)| |]; simpl; intros b g1 l1 Hl1 (g1' & -> & H1);
      (eapply wpg_mono; [apply (IH2 _ _ k g1' l1 H1)| |]; simpl; intros d g2 l2 Hl2 (g2' & -> & H2);
       by apply IH).
Qed.
Global Opaque wpg.

Section many.
  Context {T : Type} (c : cfg) (ans : T * T → option bool → Prop) (K : nat) (P : list T → Prop).
  Notation ok := (cnt_ans ans).
  Implicit Types (l : list T).
  Context (HP : ∀ l l', l ≡ₚ l' → P l → P l') (HPl : ∀ l1 l2, P (l1 ++ l2) → P l1)
    (HPr : ∀ l1 l2, P (l1 ++ l2) → P l2).
  Context (HK : ∀ index l, P l → wpg ok (partition_at_index c (length l) index)
    (λ _ g _, g ≤ K * length l) (λ _ g _, g ≤ K * length l) 0 l).

  (** One selection: its cost and the two parts that are left. *)
  Lemma partition_at_index_counted n index l k :
    n = length l → P l →
    wpg ok (partition_at_index c n index)
      (λ r g l', g ≤ k + K * n ∧ r = parts n index ∧
         ∃ A p B, l' = A ++ p :: B ∧ length A = index ∧ length B = n - (index + 1) ∧
           index < n ∧ P A ∧ P B)
      (λ _ g _, g ≤ k + K * n) k l.
  Proof.
    intros -> HPl0.
    pose proof (wpg_shift ans _ _ _ k _ _ (HK index l HPl0)) as H. rewrite Nat.add_0_r in H.
    eapply wpg_wp in H; [|by intros ? ? ? ? [Hr _]|apply (partition_at_index_spec c ans (length l) index l eq_refl)].
    eapply wpg_mono; [exact H| |]; cbv beta.
    - intros r g l' Hl [(g1 & -> & Hg) (Hp & Hi & -> & _)]. split; [lia|]. split; [done|].
      destruct (lookup_lt_is_Some_2 l' index) as [p Hpl]; [lia|].
      apply take_drop_middle in Hpl. symmetry in Hp. apply HP in Hp; [|done].
      exists (take index l'), p, (drop (S index) l'). rewrite Hpl.
      rewrite take_length, drop_length. repeat (split; [lia || done|]).
      rewrite <-Hpl in Hp. split; [by eapply HPl|].
      apply HPr in Hp. change (p :: drop (S index) l') with ([p] ++ drop (S index) l') in Hp.
      by apply HPr in Hp.
    - intros e g l' Hl [(g1 & -> & Hg) _]. lia.
  Qed.

  Lemma halves (inds : list nat) e :
    0 < length inds → length inds < 2 ^ S e →
    ∃ linds pivot rinds, take (length inds / 2) inds = linds ∧
      drop (length inds / 2) inds = pivot :: rinds ∧ length linds = length inds / 2 ∧
      length linds < 2 ^ e ∧ length rinds < 2 ^ e ∧ length rinds < length inds.
  Proof.
    intros H0 He. rewrite Nat.pow_succ_r' in He. set (at_ := length inds / 2).
    assert (Hat : at_ < length inds) by (apply Nat.div_lt; lia).
    assert (Hat2 : 2 * at_ ≤ length inds) by (apply Nat.mul_div_le; lia).
    assert (Hat3 : length inds ≤ 2 * at_ + 1).
    { unfold at_. pose proof (Nat.div_mod (length inds) 2).
      pose proof (Nat.mod_upper_bound (length inds) 2). lia. }
    clearbody at_. pose proof (drop_length inds at_) as Hd.
    destruct (drop at_ inds) as [|pivot rinds]; simpl in Hd; [lia|].
    exists (take at_ inds), pivot, rinds. rewrite take_length. repeat split; lia.
  Qed.
  Lemma rel_index_wpg n pivot offset (Φ : nat → nat → list T → Prop)
      (E : exn → nat → list T → Prop) k l :
    (∀ i, Φ i k l) → (∀ e, E e k l) → wpg ok (rel_index c n pivot offset) Φ E k l.
  Proof.
    intros HΦ HE. unfold rel_index. destruct (_ <=? _); [by apply wpg_ret|].
    destruct (ovf c); [by apply wpg_throw|by apply wpg_ret].
  Qed.
  Lemma step_bound e n a b : a + b ≤ n → K * n + K * a * e + K * b * e ≤ K * n * S e.
  Proof.
    intros H. assert (K * (a + b) * e ≤ K * n * e); [|lia].
    apply Nat.mul_le_mono_r, Nat.mul_le_mono_l. lia.
  Qed.

  Lemma partition_at_indices_calls e d fuel n base offset inds l k :
    n = length l → P l → length inds < fuel → length inds < 2 ^ e → e ≤ d →
    wpg ok (partition_at_indices c (S d) fuel n base offset inds)
      (λ _ g _, g ≤ k + K * n * e) (λ _ g _, g ≤ k + K * n * e) k l.
  Proof.
    revert d fuel n base offset inds l k.
    induction e as [|e IH]; intros d fuel n base offset inds l k Hn HPl0 Hf He Hd.
    { destruct inds; [|simpl in He; lia]. destruct fuel; [lia|]. cbn. apply wpg_ret. lia. }
    destruct fuel as [|f]; [lia|]. destruct inds as [|i0 inds0].
    { cbn. apply wpg_ret. lia. }
    rewrite partition_at_indices_unfold. remember (i0 :: inds0) as inds eqn:Hinds.
    destruct (halves inds e) as (linds & pivot & rinds & Ht & Hdr & Hll & Hle & Hre & Hrl);
      [subst; simpl; lia|done|]. clear Hinds i0 inds0.
    cbv zeta. rewrite Ht, Hdr. clear Ht Hdr.
    apply wpg_bind, rel_index_wpg; [|intros; lia]. intros i.
    apply wpg_bind. eapply wpg_mono; [by apply partition_at_index_counted| |cbv beta; intros; lia].
    cbv beta. intros r g1 l1 Hl1 (Hg1 & -> & A & p & B & -> & HlA & HlB & Hin & HPA & HPB).
    unfold parts. cbn [fst snd]. destruct d as [|d]; [lia|].
    pose proof (step_bound e n (length A) (length B) ltac:(lia)) as Hs.
    apply wpg_bind. change (A ++ p :: B) with ([] ++ A ++ p :: B).
    apply wpg_slice_app; [done|simpl; lia|lia|].
    eapply wpg_mono; [apply (IH d _ (length A) _ _ linds A g1); [done|done|lia|done|lia]| |];
      cbv beta; [|intros; lia].
    intros ls g2 A' HlA' Hg2 _. cbn [app].
    apply wpg_bind.
    replace (A' ++ p :: B) with ((A' ++ [p]) ++ B ++ []) by (by rewrite app_nil_r, <-app_assoc).
    apply wpg_slice_app; [rewrite app_length; simpl; lia|lia|lia|].
    eapply wpg_mono; [apply (IH (S d) _ (length B) _ _ rinds B g2); [done|done|lia|done|lia]| |];
      cbv beta; [|intros; lia].
    intros rs g3 B' HlB' Hg3 _. apply wpg_ret. lia.
  Qed.

  Lemma par_partition_at_indices_calls e fuel n base offset vlen inds l k :
    n = length l → P l → e < fuel → length inds < 2 ^ e →
    wpg ok (par_partition_at_indices c fuel n base offset vlen inds)
      (λ _ g _, g ≤ k + K * n * e) (λ _ g _, g ≤ k + K * n * e) k l.
  Proof.
    revert fuel n base offset vlen inds l k.
    induction e as [|e IH]; intros fuel n base offset vlen inds l k Hn HPl0 Hf He.
    { destruct inds; [|simpl in He; lia]. destruct fuel; [lia|]. cbn. apply wpg_ret. lia. }
    destruct fuel as [|f]; [lia|]. destruct inds as [|i0 inds0].
    { cbn. apply wpg_ret. lia. }
    cbn [par_partition_at_indices]. remember (i0 :: inds0) as inds eqn:Hinds.
    destruct (halves inds e) as (linds & pivot & rinds & Ht & Hdr & Hll & Hle & Hre & Hrl);
      [subst; simpl; lia|done|]. clear Hinds i0 inds0.
    cbv zeta. rewrite Ht, Hdr. clear Ht Hdr.
    apply wpg_bind, rel_index_wpg; [|intros; lia]. intros i.
    apply wpg_bind. eapply wpg_mono; [by apply partition_at_index_counted| |cbv beta; intros; lia].
    cbv beta. intros r g1 l1 Hl1 (Hg1 & -> & A & p & B & -> & HlA & HlB & Hin & HPA & HPB).
    unfold parts. cbn [fst snd]. destruct (_ <=? _); [apply wpg_throw; lia|].
    pose proof (step_bound e n (length A) (length B) ltac:(lia)) as Hs.
    assert (Hr : ∀ off vl base' (Φ : list (option nat) → nat → list T → Prop)
        (E : exn → nat → list T → Prop) g A',
      length A' = length A → g ≤ k + K * n + K * length A * e →
      (∀ r g' l', g' ≤ k + K * n * S e → Φ r g' l') →
      (∀ r g' l', g' ≤ k + K * n * S e → E r g' l') →
      wpg ok (slice n (i + 1) (i + 1 + (n - (i + 1))) (λ m,
        par_partition_at_indices c f m base' off vl rinds)) Φ E g (A' ++ p :: B)).
    { intros off vl base' Φ E g A' HlA' Hg HΦ HE.
      replace (A' ++ p :: B) with ((A' ++ [p]) ++ B ++ []) by (by rewrite app_nil_r, <-app_assoc).
      apply wpg_slice_app; [rewrite app_length; simpl; lia|lia|lia|].
      eapply wpg_mono; [apply (IH f (length B) _ _ _ rinds B g); [done|done|lia|done]| |];
        cbv beta; intros; [apply HΦ|apply HE]; lia. }
    assert (Hl : ∀ off vl base' (Φ : list (option nat) → nat → list T → Prop)
        (E : exn → nat → list T → Prop),
      (∀ r g' A', length A' = length A → g' ≤ k + K * n + K * length A * e → Φ r g' (A' ++ p :: B)) →
      (∀ r g' A', length A' = length A → g' ≤ k + K * n + K * length A * e → E r g' (A' ++ p :: B)) →
      wpg ok (slice n 0 (0 + i) (λ m,
        par_partition_at_indices c f m base' off vl linds)) Φ E g1 (A ++ p :: B)).
    { intros off vl base' Φ E HΦ HE.
      change (A ++ p :: B) with ([] ++ A ++ p :: B).
      apply wpg_slice_app; [done|simpl; lia|lia|].
      eapply wpg_mono; [apply (IH f (length A) _ _ _ linds A g1); [done|done|lia|done]| |];
        cbv beta; intros; cbn [app]; [apply HΦ|apply HE]; lia. }
    apply wpg_bind.
    eapply (wpg_mono _ _ (λ _ g _, g ≤ k + K * n * S e) _ (λ _ g _, g ≤ k + K * n * S e)); [| |by auto].
    - destruct (_ || _).
      + apply wpg_bind, Hl; [|intros; lia]. intros ls g2 A' HlA' Hg2.
        apply wpg_bind, Hr; [done|done| |by auto]. intros. by apply wpg_ret.
      + apply wpg_join, Hl; intros ls g2 A' HlA' Hg2; apply Hr; auto.
    - cbv beta. intros [ls rs] g l' _ Hg. by apply wpg_ret.
  Qed.
End many.

(** ** The statements about [run]. *)
Lemma select_constant (c : cfg) (M : nat) :
  ∃ K, ∀ (T : Type) (lt : T → T → bool), strict_weak_order lt →
    ∀ index l, few lt M l → wpg (cnt_ans (ans_lt lt)) (partition_at_index c (length l) index)
      (λ _ g _, g ≤ K * length l) (λ _ g _, g ≤ K * length l) 0 l.
Proof.
  assert (∃ small_n lin_c, 1024 * (2 * M + 4) ≤ small_n ∧ 6 * 1024 ≤ lin_c ∧
    ∀ n, n ≤ small_n → 9 * 4 ^ n ≤ lin_c) as (N0 & C & HN0 & HC6 & HC).
  { assert (∃ N0, 1024 * (2 * M + 4) ≤ N0) as [N0 HN0] by (eexists; reflexivity).
    exists N0, (6 * 1024 + 9 * 4 ^ N0). split; [done|]. split; [apply Nat.le_add_r|].
    intros n Hn. etrans; [|apply Nat.le_add_l].
    apply Nat.mul_le_mono_l, Nat.pow_le_mono_r; lia. }
  exists (300 + 2 * C). intros T lt Hs index l Hfew.
  destruct (decide (length l = 0)) as [H0|H0].
  { rewrite H0. unfold partition_at_index. destruct (Nat.leb_spec 0 index); [|lia]. apply wpg_throw. lia. }
  assert (Hle : 300 * length l + lin_f N0 C (length l) ≤ (300 + 2 * C) * length l).
  { assert (lin_f N0 C (length l) ≤ C * (length l + 1)) by (eapply lin_f_le; eassumption).
    assert (C * (length l + 1) ≤ C * (2 * length l)) by (apply Nat.mul_le_mono_l; lia). lia. }
  eapply wpg_mono; [apply (partition_at_index_calls c (ans_lt lt) true lt (λ _, Hs) (λ _, ans_lt_consistent _) M
       (lin_f N0 C) ltac:(eapply lin_f_9; eassumption) ltac:(intros n m H1 H2 H3; eapply lin_f_step; eauto)
       ltac:(eapply lin_f_mono; eassumption)
       (length l) index l eq_refl Hfew)|..]; cbv beta; intros; lia.
Qed.

Lemma many_log m : m < 2 ^ S (Nat.log2 m) ∧ (m ≠ 0 → S (Nat.log2 m) ≤ bit_length m) ∧
  (m ≠ 0 → S (Nat.log2 m) < S m).
Proof.
  destruct (decide (m = 0)) as [->|Hm]; [by simpl; auto with lia|].
  pose proof (Nat.log2_spec m ltac:(lia)) as [_ H]. split; [done|].
  split; [|intros _; pose proof (Nat.log2_lt_lin m); lia].
  intros _. destruct (Nat.le_gt_cases (S (Nat.log2 m)) (bit_length m)) as [|Hlt]; [done|exfalso].
  pose proof (bit_length_spec m). pose proof (Nat.log2_spec m ltac:(lia)) as [H1 _].
  assert (2 ^ bit_length m ≤ 2 ^ Nat.log2 m) by (apply Nat.pow_le_mono_r; lia). lia.
Qed.

Section few_of.
  Context {T : Type} (lt : T → T → bool) (M : nat).
  Lemma few_of_filter l :
    (∀ x, In x l → length (List.filter (λ y, negb (lt x y) && negb (lt y x)) l) ≤ M) → few lt M l.
  Proof. intros Hf x Hx. rewrite cntf_filter. apply Hf. by apply elem_of_list_In. Qed.
End few_of.

Lemma select_many_n_log_m (c : cfg) (M : nat) :
  ∃ K, ∀ (T : Type) (cmp : T → T → comparison) (l : list T) (indices : list nat),
    strict_weak_order (is_lt cmp) →
    (∀ x, In x l → length (List.filter (λ y, negb (is_lt cmp x y) && negb (is_lt cmp y x)) l) ≤ M) →
    let '(_, (_, tr), _) :=
      run (logged (pure_compare cmp)) (select_many_nth_unstable_by c (length l) indices) (tt, []) l in
    length tr ≤ K * length l * (Nat.log2 (length indices) + 1).
Proof.
  destruct (select_constant c M) as [K HK]. exists K. intros T cmp l inds Hs Hf.
  apply few_of_filter in Hf. destruct (decide (inds = [])) as [->|Hne]; [simpl; lia|].
  destruct (many_log (length inds)) as (H1 & H2 & _). specialize (H2 ltac:(by destruct inds)).
  pose proof (wpg_run_compare (ans_lt (is_lt cmp)) (pure_compare cmp) _ _ _ tt l
    ltac:(intros ? [a b]; by rewrite less_of_pure_compare)
    (partition_at_indices_calls c (ans_lt (is_lt cmp)) K (few (is_lt cmp) M)
       (λ l l', few_perm _ M l l') (few_app_l _ M) (few_app_r _ M) (HK T (is_lt cmp) Hs)
       (S (Nat.log2 (length inds))) (bit_length (length inds)) (S (length inds)) (length l) 0 0 inds l 0
       eq_refl Hf ltac:(lia) H1 H2)) as H.
  unfold select_many_nth_unstable_by, select_many.
  destruct (run _ _ _ _) as [[[?|e| |] [? tr]] l']; try done; lia.
Qed.

Lemma par_select_many_n_log_m (c : cfg) (M : nat) :
  ∃ K, ∀ (T : Type) (cmp : T → T → comparison) (l : list T) (vlen : nat) (indices : list nat),
    strict_weak_order (is_lt cmp) →
    (∀ x, In x l → length (List.filter (λ y, negb (is_lt cmp x y) && negb (is_lt cmp y x)) l) ≤ M) →
    let '(_, (_, tr), _) :=
      run (logged (pure_compare cmp)) (par_select_many_nth_unstable_by c (length l) vlen indices) (tt, []) l in
    length tr ≤ K * length l * (Nat.log2 (length indices) + 1).
Proof.
  destruct (select_constant c M) as [K HK]. exists K. intros T cmp l vlen inds Hs Hf.
  apply few_of_filter in Hf.
  assert (Hw : wpg (cnt_ans (ans_lt (is_lt cmp))) (par_select_many c (length l) vlen inds)
    (λ _ g _, g ≤ K * length l * S (Nat.log2 (length inds)))
    (λ _ g _, g ≤ K * length l * S (Nat.log2 (length inds))) 0 l).
  { unfold par_select_many. apply wpg_bind.
    destruct (decide (inds = [])) as [->|Hne]; [apply wpg_ret, wpg_ret; lia|].
    destruct (many_log (length inds)) as (H1 & _ & H2). specialize (H2 ltac:(by destruct inds)).
    eapply wpg_mono; [apply (par_partition_at_indices_calls c (ans_lt (is_lt cmp)) K (few (is_lt cmp) M)
       (λ l l', few_perm _ M l l') (few_app_l _ M) (few_app_r _ M) (HK T (is_lt cmp) Hs)
       (S (Nat.log2 (length inds))) (S (length inds)) (length l) 0 0 vlen inds l 0
       eq_refl Hf H2 H1)|..]; cbv beta; [|done]. intros ? ? ? ? ?. by apply wpg_ret. }
  pose proof (wpg_run_compare (ans_lt (is_lt cmp)) (pure_compare cmp) _ _ _ tt l
    ltac:(intros ? [a b]; by rewrite less_of_pure_compare) Hw) as H.
  unfold par_select_many_nth_unstable_by.
  destruct (run _ _ _ _) as [[[?|e| |] [? tr]] l']; try done; lia.
Qed.

(** ** A single index: at least the calls of the selection. *)
Lemma less_of_logged_grows {T S A} (o : S → T * T → option comparison * S) (p : cmp_prog T A) :
  ∀ st l, length st.2 ≤ length (run (less_of_compare (logged o)) p st l).1.2.2.
Proof.
  induction p as [A a|A e|A i f IH|A i x f IH|A q f IH|A B' C p1 IH1 p2 IH2 f IH| |];
    intros [s tr] l; simpl; try lia.
  - destruct (l !! i) as [x|]; [apply (IH x (s, tr))|simpl; lia].
  - destruct (decide _); [apply (IH (s, tr))|simpl; lia].
  - destruct (less_of_compare (logged o) (s, tr) q) as [r0 st0] eqn:Hq.
    assert (Hst : length tr < length st0.2).
    { unfold less_of_compare, logged in Hq. destruct (o s q) as [r s']. injection Hq as _ <-.
      simpl. rewrite app_length. simpl. lia. }
    pose proof (IH r0 st0 l). lia.
  - pose proof (IH1 (s, tr) l) as H1. destruct (run _ p1 _ _) as [[[b|e| |] st1] l1]; simpl in *; try lia.
    all: pose proof (IH2 st1 l1) as H2; destruct (run _ p2 _ _) as [[[d|e'| |] st2] l2]; simpl in *; try lia.
    all: (etrans; [|apply IH]); lia.
Qed.

Lemma select_many_refuted (c : cfg) :
  dbg c = false → zst c = false →
  ∀ K d : nat, ∃ (cmp : nat → nat → comparison) (l : list nat) (index : nat),
    strict_weak_order (is_lt cmp) ∧ index < length l ∧
    let '(_, (_, tr), _) :=
      run (logged (pure_compare cmp)) (select_many_nth_unstable_by c (length l) [index]) (tt, []) l in
    K * length l ^ d < length tr.
Proof.
  intros Hd Hz K d. destruct (select_superpolynomial c Hd Hz K d) as (cmp & l & index & Hs & Hi & H).
  exists cmp, l, index. split; [done|]. split; [done|].
  unfold select_nth_unstable_by in H. unfold select_many_nth_unstable_by.
  rewrite run_by_compare in H. rewrite run_by_compare.
  change (select_many c (length l) [index]) with
    (partition_at_indices (T:=nat) c 2 2 (length l) 0 0 [index]).
  rewrite partition_at_indices_unfold. cbv zeta. change (drop (length [index] / 2) [index]) with [index].
  cbv iota. rewrite run_bind. unfold rel_index. destruct (Nat.leb_spec 0 index); [|lia].
  cbn [run]. rewrite Nat.sub_0_r, run_bind.
  destruct (run _ (partition_at_index _ _ _) _ _) as [[[a|e| |] [s tr]] l']; try done.
  match goal with |- context [run ?o ?p (s, tr) ?l0] =>
    pose proof (less_of_logged_grows (pure_compare cmp) p (s, tr) l0) as Hg;
    destruct (run o p (s, tr) l0) as [[? [? tr2]] ?] end.
  cbn [fst snd] in Hg. lia.
Qed.
