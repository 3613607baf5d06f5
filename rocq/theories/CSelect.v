(** * CSelect: the selection makes a linear number of calls if the array has few
      equal elements. *)
From Verif Require Export CNinther.
From stdpp Require Import list.

Section counts.
  Context {T : Type} (ans : T * T → option bool → Prop).
  Context (lt : T → T → bool) (Hs : strict_weak_order lt) (Hc : consistent ans lt) (M : nat).
  Implicit Types (l : list T).
  Notation kle := (kle ans).
  Notation klt := (klt ans).

  (** No element has more than [M] equivalent elements (itself included). *)
  Definition few l : Prop :=
    ∀ x, x ∈ l → cntf (λ y, negb (lt x y) && negb (lt y x)) l ≤ M.
  Lemma few_perm l l' : l ≡ₚ l' → few l → few l'.
  Proof. intros Hp H x Hx. rewrite <-(cntf_perm _ _ _ Hp). apply H. by rewrite Hp. Qed.
  Lemma few_app_l l1 l2 : few (l1 ++ l2) → few l1.
  Proof.
    intros H x Hx. etrans; [|apply (H x); apply elem_of_app; by left].
    rewrite cntf_app. lia.
  Qed.
  Lemma few_app_r l1 l2 : few (l1 ++ l2) → few l2.
  Proof.
    intros H x Hx. etrans; [|apply (H x); apply elem_of_app; by right].
    rewrite cntf_app. lia.
  Qed.

  (** Elements on each side of a selected element. *)
  Lemma selected_counts l k x :
    selected ans l k → l !! k = Some x →
    k + 1 ≤ cntf (λ y, negb (lt x y)) l ∧ length l - k ≤ cntf (λ y, negb (lt y x)) l.
  Proof.
    intros (A & p & B & -> & <- & HA & HB)%selected_inv Hx.
    rewrite lookup_app_r, Nat.sub_diag in Hx by lia. injection Hx as <-.
    rewrite !cntf_app, !app_length. cbn [cntf length].
    rewrite (swo_irrefl _ Hs p). cbn [negb ind].
    rewrite (cntf_all (λ y, negb (lt p y)) A).
    2: { eapply Forall_impl; [exact HA|]. intros y Hy. by rewrite (Hy lt Hs Hc). }
    rewrite (cntf_all (λ y, negb (lt y p)) B).
    2: { eapply Forall_impl; [exact HB|]. intros y Hy. by rewrite (Hy lt Hs Hc). }
    lia.
  Qed.
  (** Sizes of the parts around a partitioned pivot. *)
  Lemma parted_counts A x B :
    few (A ++ x :: B) → Forall (λ y, klt y x) A → Forall (kle x) B →
    cntf (λ y, negb (lt x y)) (A ++ x :: B) ≤ length A + M ∧
    cntf (λ y, negb (lt y x)) (A ++ x :: B) ≤ 1 + length B.
  Proof.
    intros Hf HA HB. specialize (Hf x ltac:(set_solver)). revert Hf.
    rewrite !cntf_app. cbn [cntf].
    rewrite (swo_irrefl _ Hs x). cbn [negb andb ind].
    rewrite (cntf_none (λ y, negb (lt y x)) A).
    2: { eapply Forall_impl; [exact HA|]. intros y Hy. by rewrite (Hy lt Hs Hc). }
    pose proof (cntf_le (λ y, negb (lt x y)) A). pose proof (cntf_le (λ y, negb (lt y x)) B).
    assert (cntf (λ y, negb (lt x y)) B = cntf (λ y, negb (lt x y) && negb (lt y x)) B) as ->.
    { clear -Hs Hc HB. induction HB as [|y B Hy HB IH]; cbn [cntf]; [done|].
      rewrite (Hy lt Hs Hc), IH. by rewrite andb_true_r. }
    lia.
  Qed.

End counts.

(** [ord]: the comparator answers according to [lt]. *)
Section select_cost.
  Context {T : Type} (c : cfg) (ans : T * T → option bool → Prop) (ord : bool).
  Context (lt : T → T → bool) (Hs : ord = true → strict_weak_order lt)
    (Hc : ord = true → consistent ans lt) (M : nat).
  Implicit Types (l : list T).
  Notation ok := (cnt_ans ans).
  Notation kle := (kle ans).
  Notation klt := (klt ans).
  Notation few := (few lt M).

  Lemma median_of_ninthers_calls (rec : nat → nat → cmp_prog T unit) n l R k B :
    n = length l → 10 < n → few l →
    (∀ m k', length m = ninther_frac n → few m → k' + R ≤ B →
       wpg ok (rec (length m) (ninther_frac n / 2))
         (λ _ g m', g ≤ k' + R ∧ m' ≡ₚ m ∧ (0 < ninther_frac n → selected ans m' (ninther_frac n / 2)))
         (λ _ g _, g ≤ B) k' m) →
    k + R + 3 * n ≤ B →
    wpg ok (median_of_ninthers c rec n)
      (λ p g l', g ≤ k + R + 3 * n ∧ l' ≡ₚ l ∧ ∃ A x D, l' = A ++ x :: D ∧ length A = p ∧
         (ord = true → 1024 < n → 2 * ninther_frac n ≤ p + M ∧ p + 2 * ninther_frac n ≤ n))
      (λ _ g _, g ≤ B) k l.
  Proof.
    intros Hn H10 Hfew Hrec HB. unfold median_of_ninthers.
    pose proof (ninther_frac_le n) as Hfrac.
    assert (Hgap : 1024 < n → ninther_frac n ≤ (n - 9 * ninther_frac n) / 4).
    { intros Hb. apply Nat.div_le_lower_bound; [lia|].
      assert (13 * ninther_frac n ≤ n); [|lia]. unfold ninther_frac.
      rewrite (proj2 (Nat.leb_gt n 1024)) by done. destruct (_ <=? _)%N.
      - pose proof (Nat.mul_div_le n 64). lia.
      - pose proof (Nat.mul_div_le n 1024). lia. }
    set (frac := ninther_frac n) in *.
    destruct (ninthers_arith n frac Hfrac) as (H1 & H2 & H3 & H4 & H5).
    apply wpg_bind, wpg_usub; [done|]. set (lo := n / 2 - frac / 2) in *.
    apply wpg_bind, wpg_usub; [done|]. set (gap := (n - 9 * frac) / 4) in *.
    apply wpg_bind, wpg_usub; [done|].
    apply wpg_bind, wpg_usub; [done|].
    assert (Hlo : lo + frac / 2 < n).
    { unfold lo. pose proof (Nat.div_lt n 2). lia. }
    assert (Hf2 : 0 < frac → frac / 2 < frac) by (intros; apply Nat.div_lt; lia).
    clearbody lo gap frac.
    apply wpg_bind.
    assert (Hk : k ≤ B) by lia.
    eapply (wpg_known ans _ _ (λ _ l', l' ≡ₚ l ∧ (ord = true → 1024 < n → rich lt l' lo frac))
              (upanic ans l)); [exact Hk| |apply ninthers_loop_cost; lia|].
    { destruct (decide (ord = true ∧ 1024 < n)) as [[Ho Hb]|Hb].
      - specialize (Hgap Hb).
        eapply wp_mono; [apply (ninthers_loop_good ans lt (Hs Ho) (Hc Ho) n frac lo (frac + lo - lo)
          (lo - 4 * frac - gap) (frac + lo + gap) l l); [lia|done|lia..]| |auto].
        cbv beta. intros [] l' Hl' (Hp & Hg & _). split; [done|]. intros _ _.
        eapply (good_rich lt n frac lo (lo - 4 * frac - gap) (frac + lo + gap)); [lia..|]. intros j Hj. apply Hg. lia.
      - eapply wp_mono; [apply (ninthers_loop_spec ans n frac lo (frac + lo - lo)
          (lo - 4 * frac - gap) (frac + lo + gap) l l); [lia|done|lia..]| |auto].
        cbv beta. intros [] l' Hl' Hp. split; [done|]. intros. exfalso. auto. }
    cbv beta. intros [] k1 l1 Hl1 Hk1 (Hp1 & Hrich).
    apply wpg_bind, wpg_slice; [lia|lia|lia|].
    replace (lo + frac - lo) with frac by lia.
    pose proof (sub_length l1 lo frac ltac:(lia)) as Hsub.
    rewrite <-Hsub at 1.
    eapply wpg_mono; [apply Hrec; [exact Hsub| |lia]|..].
    { apply (few_perm _ _ l l1) in Hfew; [|done].
      rewrite (take_drop_mid l1 lo frac) in Hfew by lia. by eapply few_app_l, few_app_r. }
    2: { cbv beta. intros; lia. }
    cbv beta. intros [] k2 m Hm (Hk2 & Hpm & Hsel) _.
    rewrite Hsub in Hm.
    assert (Hp2 : take lo l1 ++ m ++ drop (lo + frac) l1 ≡ₚ l).
    { rewrite perm_mid; [done|lia|done]. }
    assert (Hl2 : length (take lo l1 ++ m ++ drop (lo + frac) l1) = n).
    { apply Permutation_length in Hp2. lia. }
    assert (Hlook : 0 < frac → (take lo l1 ++ m ++ drop (lo + frac) l1) !! (lo + frac / 2) = m !! (frac / 2)).
    { intros H0. specialize (Hf2 H0). rewrite lookup_app_r by (rewrite take_length; lia).
      rewrite take_length, lookup_app_l by lia. f_equal. lia. }
    set (l2 := take lo l1 ++ m ++ drop (lo + frac) l1) in *. clearbody l2.
    destruct (lookup_lt_is_Some_2 l2 (lo + frac / 2)) as [x Hx]; [lia|].
    apply wpg_bind.
    eapply wpg_known; [|apply (partition_spec c ans n (lo + frac / 2) l2 x); [lia|done]|
      apply partition_cost|]; [lia|lia|].
    cbv beta. intros [mid was] k3 l3 Hl3 Hk3 (Hp3 & Hmx & Hlo3 & Hhi3). apply wpg_ret.
    split; [lia|]. rewrite Hp2 in Hp3. split; [done|].
    pose proof (lookup_lt_Some _ _ _ Hmx) as Hmid.
    apply rng_take in Hlo3. apply rng_drop in Hhi3; [|lia].
    exists (take mid l3), x, (drop (S mid) l3).
    assert (Hl3e : l3 = take mid l3 ++ x :: drop (S mid) l3) by (by apply bound_split).
    split; [exact Hl3e|]. split; [rewrite take_length; lia|].
    intros Ho Hb. specialize (Hs Ho). specialize (Hc Ho).
    destruct (decide (frac = 0)) as [->|H0]; [lia|].
    specialize (Hsel ltac:(lia)). specialize (Hlook ltac:(lia)). rewrite Hx in Hlook.
    destruct (selected_counts ans lt Hs Hc m (frac / 2) x Hsel (eq_sym Hlook)) as [C1 C2].
    destruct (parted_counts ans lt Hs Hc M (take mid l3) x (drop (S mid) l3)) as [C3 C4]; [|done|done|].
    { rewrite <-Hl3e. eapply few_perm; [symmetry; exact Hp3|done]. }
    rewrite <-Hl3e in C3, C4. rewrite take_length in C3. rewrite drop_length in C4.
    specialize (Hrich Ho Hb).
    rewrite (cntf_perm _ _ _ Hpm) in C1. rewrite (cntf_perm _ _ _ Hpm) in C2.
    rewrite (cntf_perm _ _ _ Hp3), <-(cntf_perm _ _ _ Hp1) in C3.
    rewrite (cntf_perm _ _ _ Hp3), <-(cntf_perm _ _ _ Hp1) in C4.
    pose proof (Hrich (λ y, negb (lt x y))) as R1. pose proof (Hrich (λ y, negb (lt y x))) as R2.
    specialize (R1 ltac:(left; intros y z Hy Hzy; apply negb_true_iff in Hy; apply negb_true_iff; exact (swo_negtrans _ Hs _ _ _ Hy Hzy))).
    specialize (R2 ltac:(right; intros y z Hy Hzy; apply negb_true_iff in Hy; apply negb_true_iff; exact (swo_negtrans _ Hs _ _ _ Hzy Hy))).
    pose proof (Nat.div_mod frac 2). pose proof (Nat.mod_upper_bound frac 2). lia.
  Qed.

  Lemma max_index_cost n B k :
    k + n ≤ B → costs (max_index (T:=T) n) (λ _ k', k' ≤ k + n) B k.
  Proof.
    intros Hk. unfold max_index. repeat cost_step.
    assert (∀ acc i cnt k, k + cnt ≤ B →
      costs (max_by_loop (T:=T) n acc i cnt) (λ _ k', k' ≤ k + cnt) B k) as Hl.
    { clear. intros acc i cnt. revert acc i.
      induction cnt as [|cnt IH]; intros acc i k Hk; cbn [max_by_loop]; repeat cost_step; try lia.
      cost_call IH; [lia|]. cost_fin. }
    cost_call Hl; [lia|]. cost_fin.
  Qed.
  Lemma min_index_cost n B k :
    k + n ≤ B → costs (min_index (T:=T) n) (λ _ k', k' ≤ k + n) B k.
  Proof.
    intros Hk. unfold min_index. repeat cost_step.
    assert (∀ acc i cnt k, k + cnt ≤ B →
      costs (min_by_loop (T:=T) n acc i cnt) (λ _ k', k' ≤ k + cnt) B k) as Hl.
    { clear. intros acc i cnt. revert acc i.
      induction cnt as [|cnt IH]; intros acc i k Hk; cbn [min_by_loop]; repeat cost_step; try lia.
      cost_call IH; [lia|]. cost_fin. }
    cost_call Hl; [lia|]. cost_fin.
  Qed.

  Lemma max_select_cost n j B k :
    k + n ≤ B →
    costs (bind (max_index (T:=T) n) (λ m, swap n m j)) (λ _ k', k' ≤ k + n) B k.
  Proof.
    intros Hk. cost_step. cost_call max_index_cost; [lia|]. cbv beta. intros m k1 _ Hk1.
    by cost_step.
  Qed.
  Lemma min_select_cost n j B k :
    k + n ≤ B →
    costs (bind (min_index (T:=T) n) (λ m, swap n m j)) (λ _ k', k' ≤ k + n) B k.
  Proof.
    intros Hk. cost_step. cost_call min_index_cost; [lia|]. cbv beta. intros m k1 _ Hk1.
    by cost_step.
  Qed.

  (** [F n] calls suffice for [median_of_medians] on [n] elements. *)
  Context (F : nat → nat).
  Context (HF9 : ∀ n, 9 * n ≤ F n).
  Context (HF : ∀ n m, 10 < n → m < n → (ord = true → 1024 < n → m + 2 * ninther_frac n ≤ n + M) →
    F (ninther_frac n) + F m + 3 * n ≤ F n).

  Lemma mom_loop_calls rec fuel n j l k B :
    n = length l → n < fuel → (j < n ∨ n ≤ SEL_MAX_INSERTION) → few l →
    (∀ m j' k', length m ≤ n / 12 → (j' < length m ∨ length m = 0) → few m → k' + F (length m) ≤ B →
       wpg ok (rec (length m) j')
         (λ _ g m', g ≤ k' + F (length m) ∧ m' ≡ₚ m ∧ (j' < length m → selected ans m' j'))
         (λ _ g _, g ≤ B) k' m) →
    k + F n ≤ B →
    wpg ok (mom_loop c rec fuel n j) (λ _ g _, g ≤ k + F n) (λ _ g _, g ≤ B) k l.
  Proof.
    revert n j l k. induction fuel as [|f IH]; intros n j l k Hn Hf Hj Hfew Hrec HB; [lia|].
    cbn [mom_loop]. fold (mom_loop c rec). unfold SEL_MAX_INSERTION in *.
    pose proof (HF9 n) as Hn9.
    destruct (Nat.leb_spec n 10).
    { destruct (Nat.ltb_spec 1 n); [|apply wpg_ret; lia].
      assert ((n - 1) * (n - 1) ≤ 9 * n) by (apply Nat.mul_le_mono; lia).
      eapply wpg_known;
        [lia|apply (insertion_sort_shift_left_spec c ans n 1 l); [done|lia]| |].
      { cost_call insertion_sort_shift_left_cost; [lia|]. intros ? ? _ Hcost. exact Hcost. }
      cbv beta. intros; lia. }
    destruct (Nat.eqb_spec j (n - 1)).
    { eapply wpg_known; [|apply (max_select_spec ans n j l); [done|lia|done]|
        apply max_select_cost; lia|]; [lia|]. cbv beta. intros; lia. }
    destruct (Nat.eqb_spec j 0) as [->|].
    { eapply wpg_known; [|apply (min_select_spec ans n l); [done|lia]|
        apply min_select_cost; lia|]; [lia|]. cbv beta. intros; lia. }
    pose proof (ninther_frac_le n) as Hfrac.
    assert (Hstep : F (ninther_frac n) + 3 * n ≤ F n).
    { specialize (HF n 0 ltac:(lia) ltac:(lia)).
      assert (ord = true → 1024 < n → 0 + 2 * ninther_frac n ≤ n + M) by lia. specialize (HF H0). lia. }
    apply wpg_bind.
    eapply wpg_mono; [apply (median_of_ninthers_calls rec n l (F (ninther_frac n)) k B);
      [done|lia|done| |lia]|..].
    { intros m k' Hm Hfm Hk'. rewrite <-Hm in Hk'.
      assert (ninther_frac n / 2 < length m ∨ length m = 0).
      { destruct (decide (length m = 0)); [lia|]. left. rewrite <-Hm. apply Nat.div_lt; lia. }
      eapply wpg_mono; [apply Hrec; try done|..].
      - rewrite Hm. apply Nat.div_le_lower_bound; lia.
      - cbv beta. intros [] g m' _ (Hg & Hp & Hsel). rewrite Hm in Hg.
        split; [done|]. split; [done|]. intros Hpos. apply Hsel. lia.
      - done. }
    2: done.
    cbv beta. intros p k1 l1 Hl1 (Hk1 & Hp1 & A & x & D & -> & HlA & Hq).
    apply (few_perm _ _ _ (A ++ x :: D)) in Hfew; [|done].
    rewrite app_length in Hl1. simpl in Hl1.
    destruct (Nat.compare_spec p j) as [->|Hpk|Hpk].
    - apply wpg_ret. lia.
    - apply wpg_bind, wpg_usub; [lia|].
      replace (A ++ x :: D) with ((A ++ [x]) ++ D ++ []) by (by rewrite app_nil_r, <-app_assoc).
      specialize (HF n (length D) ltac:(lia) ltac:(lia)). specialize (HF ltac:(intros Ho Hb; specialize (Hq Ho Hb); lia)).
      apply wpg_slice_app; [rewrite app_length; simpl; lia|lia|lia|].
      eapply wpg_mono; [apply (IH (length D) (j - (p + 1)) D k1); [done|lia|lia| | |lia]|..].
      + change (x :: D) with ([x] ++ D) in Hfew. by do 2 apply few_app_r in Hfew.
      + intros m j' k' Hm Hj' Hfm Hk'. apply Hrec; try done.
        etrans; [exact Hm|]. apply Nat.div_le_mono; lia.
      + cbv beta. intros; lia.
      + done.
    - change (A ++ x :: D) with ([] ++ A ++ x :: D).
      specialize (HF n (length A) ltac:(lia) ltac:(lia)). specialize (HF ltac:(intros Ho Hb; specialize (Hq Ho Hb); lia)).
      apply wpg_slice_app; [done|simpl; lia|lia|].
      eapply wpg_mono; [apply (IH (length A) j A k1); [done|lia|lia| | |lia]|..].
      + by apply few_app_l in Hfew.
      + intros m j' k' Hm Hj' Hfm Hk'. apply Hrec; try done.
        etrans; [exact Hm|]. apply Nat.div_le_mono; lia.
      + cbv beta. intros; lia.
      + done.
  Qed.

  Lemma median_of_medians_calls d n j l k B :
    n = length l → n < 2 ^ d → (j < n ∨ n = 0) → zst c = false → few l → k + F n ≤ B →
    wpg ok (median_of_medians c (S d) n j) (λ _ g _, g ≤ k + F n) (λ _ g _, g ≤ B) k l.
  Proof.
    revert n j l k. induction d as [|d IH]; intros n j l k Hn Hd Hj Hz Hfew HB.
    - simpl in Hd. rewrite median_of_medians_unfold. unfold dassert.
      apply wpg_bind. destruct (dbg c && _); [apply wpg_throw; lia|].
      apply wpg_ret, wpg_bind. destruct (dbg c && _); [apply wpg_throw; lia|]. apply wpg_ret.
      replace n with 0 in * by lia. apply wpg_ret. lia.
    - rewrite median_of_medians_unfold. unfold dassert.
      apply wpg_bind. destruct (dbg c && _); [apply wpg_throw; lia|].
      apply wpg_ret, wpg_bind. destruct (dbg c && _); [apply wpg_throw; lia|]. apply wpg_ret.
      apply mom_loop_calls; [done|lia|unfold SEL_MAX_INSERTION; lia|done| |done].
      intros m j' k' Hm Hj' Hfm Hk'.
      assert (length m < 2 ^ d).
      { assert (n / 12 < 2 ^ d); [|lia].
        apply Nat.div_lt_upper_bound; [lia|]. simpl in Hd. lia. }
      eapply wpg_mono; [eapply (wpg_wp _ ans);
        [|apply (median_of_medians_spec c ans d (length m) j' m); done|by apply IH]|..].
      + intros g q r g' [? _]. done.
      + cbv beta. intros [] g m' _ (Hg & Hp & Hsel). done.
      + cbv beta. intros e g m' _ [? _]. done.
  Qed.

  (** Calls of [pai_loop] in units of [3 * n], besides those of the fallback. *)
  Definition units (pred : option T) (limit : nat) (wb : bool) : nat :=
    32 + 2 * limit + (if pred then 1 else 0) + (if wb then 2 else 0).
  Lemma units_balanced n n' X Y :
    10 < n → n' + n / 8 ≤ n → Y ≤ X + 1 → 32 ≤ X → n' * Y + n ≤ n * X.
  Proof.
    intros H10 Hn' HY HX.
    pose proof (Nat.div_mod n 8). pose proof (Nat.mod_upper_bound n 8).
    set (q := n / 8) in *. assert (1 ≤ q) by (apply Nat.div_le_lower_bound; lia). clearbody q.
    assert (n' * Y ≤ (n - q) * (X + 1)) by (apply Nat.mul_le_mono; lia).
    assert (q * 33 ≤ q * (X + 1)) by (apply Nat.mul_le_mono; lia).
    assert ((n - q) * (X + 1) + q * (X + 1) = n * (X + 1)).
    { rewrite <-Nat.mul_add_distr_r. f_equal. lia. }
    lia.
  Qed.
  Lemma units_less n n' X Y : n' ≤ n → Y + 1 ≤ X → n' * Y + n ≤ n * X.
  Proof.
    intros Hn HY. assert (n' * Y ≤ n * Y) by (apply Nat.mul_le_mono; lia).
    assert (n * (Y + 1) ≤ n * X) by (apply Nat.mul_le_mono; lia). lia.
  Qed.

  Context (HFm : ∀ m n, m ≤ n → F m ≤ F n).

  Lemma pai_loop_calls fuel n index pred limit wb l k B :
    n = length l → n < fuel → index < n → zst c = false → few l →
    k + 3 * (n * units pred limit wb) + F n ≤ B →
    wpg ok (pai_loop c fuel n index pred limit wb)
      (λ _ g _, g ≤ k + 3 * (n * units pred limit wb) + F n) (λ _ g _, g ≤ B) k l.
  Proof.
    intros Hn Hf Hi Hz. revert n index pred limit wb l k Hn Hf Hi.
    induction fuel as [|f IH]; intros n index pred limit wb l k Hn Hf Hi Hfew HB; [lia|].
    cbn [pai_loop]. unfold SEL_MAX_INSERTION. pose proof (HF9 n) as Hn9.
    destruct (Nat.leb_spec n 10).
    { destruct (Nat.eqb_spec n 0); [lia|]. cbn [negb].
      assert ((n - 1) * (n - 1) ≤ 9 * n) by (apply Nat.mul_le_mono; lia).
      eapply wpg_known;
        [lia|apply (insertion_sort_shift_left_spec c ans n 1 l); [done|lia]| |].
      { cost_call insertion_sort_shift_left_cost; [lia|]. intros ? ? _ Hcost. exact Hcost. }
      cbv beta. intros; lia. }
    destruct (Nat.eqb_spec limit 0) as [Hl0|Hl0].
    { eapply wpg_mono; [apply (median_of_medians_calls (bit_length n) n index l k B);
        [done|apply bit_length_spec|lia|done|done|lia]|..]; cbv beta; intros; lia. }
    assert (Hun : n * 1 ≤ n * units pred limit wb).
    { apply Nat.mul_le_mono_l. unfold units. lia. }
    (* break_patterns *)
    apply wpg_bind.
    eapply (wpg_known _ _ (λ r k', r = lim wb limit ∧ k' = k) (λ _ l', l' ≡ₚ l) (upanic ans l));
      [lia| | |].
    { destruct wb; [by apply wp_ret|]. apply wp_bind.
      wp_apply (break_patterns_spec ans c n l (upanic ans l)); [done| |by auto].
      intros [] l' _ Hp. apply wp_usub; [lia|done]. }
    { destruct wb; [by apply costs_ret|]. apply costs_bind.
      eapply costs_mono; [apply costs_silent, break_patterns_silent|]. intros [] k' _ ->.
      apply costs_usub. done. }
    intros limit' k' l1 Hl1 [-> ->] Hp1.
    (* choose_pivot *)
    apply wpg_bind.
    eapply wpg_known; [|apply (choose_pivot_spec ans n l1); lia|apply choose_pivot_cost; lia|]; [lia|].
    cbv beta. intros [pivot likely] k2 l2 Hl2 Hk2 [Hp2 Hpiv]. rewrite Hp1 in Hp2.
    destruct (lookup_lt_is_Some_2 l2 pivot) as [p Hp]; [lia|].
    (* compare with the predecessor *)
    apply wpg_bind.
    eapply (wpg_known _ _ (λ _ k', k' ≤ k2 + 1)
      (λ b l', l' = l2 ∧ (b = true → pred ≠ None)) (upanic ans l)); [lia| | |].
    { destruct pred as [q|]; [|by apply wp_ret].
      apply wp_bind, wp_get; [lia|lia|]. intros x Hx.
      apply wp_bind, wp_is_less; [|intros Hr; by eapply upanic_intro].
      intros r Hr. apply wp_ret. done. }
    { repeat cost_step; lia. }
    intros eq k3 l' _ Hk3 [-> Heq]. destruct eq.
    { specialize (Heq eq_refl). destruct pred as [q|]; [|done].
      apply wpg_bind.
      eapply wpg_known; [|apply (partition_equal_spec ans n pivot l2 p); [lia|done]|
        apply partition_equal_cost; lia|]; [lia|].
      cbv beta. intros mid k4 l3 Hl3 Hk4 (Hp3 & Hmid & Hmid0 & _).
      specialize (Hmid0 ltac:(lia)).
      assert (Hl3' : l3 = take mid l3 ++ drop mid l3 ++ []).
      { by rewrite app_nil_r, take_drop. }
      destruct (Nat.ltb_spec index mid); [apply wpg_ret; lia|].
      apply wpg_bind, wpg_usub; [done|].
      assert (Hlt : length (take mid l3) = mid) by (rewrite take_length; lia).
      assert (Hld : length (drop mid l3) = n - mid) by (rewrite drop_length; lia).
      assert (Hfd : few (drop mid l3)).
      { apply (few_app_r _ _ (take mid l3)). rewrite take_drop. eapply few_perm; [|exact Hfew].
        by rewrite Hp3. }
      rewrite Hl3' at 1.
      apply wpg_slice_app; [done|rewrite Hld; lia|lia|].
      pose proof (units_less n (length (drop mid l3)) (units (Some q) limit wb)
        (units None (lim wb limit) wb) ltac:(lia)) as Hu.
      specialize (Hu ltac:(unfold units, lim; destruct wb; lia)).
      pose proof (HFm (length (drop mid l3)) n ltac:(lia)).
      eapply wpg_mono; [apply (IH (length (drop mid l3)) (index - mid) None (lim wb limit) wb
        (drop mid l3) k4); [done|lia|lia|done|lia]|..]; cbv beta; intros; lia. }
    (* partition *)
    apply wpg_bind.
    eapply wpg_known; [|apply (partition_spec c ans n pivot l2 p); [lia|done]|
      apply partition_cost; lia|]; [lia|].
    cbv beta. intros [mid was_p] k4 l3 Hl3 Hk4 (Hp3 & Hmp & _ & _).
    pose proof (lookup_lt_Some _ _ _ Hmp) as Hmid.
    apply wpg_bind, wpg_usub; [lia|].
    apply wpg_bind.
    eapply (wpg_known _ _ (λ _ k', k' = k4) (λ _ l', l' = l3) (upanic ans l)); [lia| | |].
    { apply wp_slice; [lia|lia|lia|].
      apply wp_slice_check; [lia|lia|rewrite sub_length; lia|]. intros Hls.
      rewrite (drop_ge l3 n) by lia. rewrite app_nil_r.
      rewrite (take_ge (drop mid l3)) by (rewrite drop_length; lia). by rewrite take_drop. }
    { repeat cost_step. done. }
    intros [] k' l' _ -> ->.
    apply wpg_bind, wpg_get; [lia|lia|]. intros p' Hp'. rewrite Hmp in Hp'. injection Hp' as <-.
    assert (Hp03 : l3 ≡ₚ l) by (by rewrite Hp3).
    clear Hp3 Heq Hp.
    set (A := take mid l3) in *. set (D := drop (S mid) l3) in *.
    assert (Hl3e : l3 = A ++ p :: D) by (by apply bound_split).
    assert (HlA : length A = mid) by (unfold A; rewrite take_length; lia).
    assert (HlD : length D = n - (mid + 1)) by (unfold D; rewrite drop_length; lia).
    clearbody A D. subst l3.
    apply (few_perm _ _ _ (A ++ p :: D)) in Hfew; [|done].
    assert (Hstep : ∀ n' pred', n' ≤ Nat.max mid (n - mid) →
      n' * units pred' (lim wb limit) (n / 8 <=? Nat.min mid (n - mid)) + n
        ≤ n * units pred limit wb).
    { intros n' pred' Hn'. destruct (Nat.leb_spec (n / 8) (Nat.min mid (n - mid))).
      - apply units_balanced; [lia|lia| |unfold units; lia].
        unfold units, lim. destruct wb, pred, pred'; lia.
      - apply units_less; [lia|]. unfold units, lim. destruct wb, pred, pred'; lia. }
    destruct (Nat.compare_spec mid index) as [->|Hmi|Hmi].
    - apply wpg_ret. lia.
    - apply wpg_bind, wpg_usub; [lia|].
      replace (A ++ p :: D) with ((A ++ [p]) ++ D ++ []) by (by rewrite app_nil_r, <-app_assoc).
      apply wpg_slice_app; [rewrite app_length; simpl; lia|lia|lia|].
      pose proof (Hstep (length D) (Some p) ltac:(lia)).
      pose proof (HFm (length D) n ltac:(lia)).
      eapply wpg_mono; [apply (IH (length D) (index - (mid + 1)) (Some p) (lim wb limit)
                  (n / 8 <=? Nat.min mid (n - mid)) D k4); [done|lia|lia| |lia]|..];
        [|cbv beta; intros; lia|done].
      change (p :: D) with ([p] ++ D) in Hfew. by do 2 apply few_app_r in Hfew.
    - change (A ++ p :: D) with ([] ++ A ++ p :: D).
      apply wpg_slice_app; [done|simpl; lia|lia|].
      pose proof (Hstep (length A) pred ltac:(lia)).
      pose proof (HFm (length A) n ltac:(lia)).
      eapply wpg_mono; [apply (IH (length A) index pred (lim wb limit)
                  (n / 8 <=? Nat.min mid (n - mid)) A k4); [done|lia|lia| |lia]|..];
        [|cbv beta; intros; lia|done].
      by apply few_app_l in Hfew.
  Qed.

  Lemma partition_at_index_calls n index l :
    n = length l → few l →
    wpg ok (partition_at_index c n index)
      (λ _ g _, g ≤ 300 * n + F n) (λ _ g _, g ≤ 300 * n + F n) 0 l.
  Proof.
    intros Hn Hfew. unfold partition_at_index. destruct (Nat.leb_spec n index) as [Hni|Hni].
    { apply wpg_throw. lia. }
    pose proof (HF9 n) as Hn9.
    apply wpg_bind.
    eapply (wpg_mono _ _ (λ _ g l', g ≤ 300 * n + F n) _ (λ _ g _, g ≤ 300 * n + F n)); [| |by auto].
    { destruct (zst c) eqn:Hz; [apply wpg_ret; lia|].
      destruct (Nat.eqb_spec index (n - 1)).
      { eapply wpg_known; [|apply (max_select_spec ans n index l); [done|lia|done]|
          apply max_select_cost; lia|]; [lia|]. cbv beta. intros; lia. }
      destruct (Nat.eqb_spec index 0) as [->|].
      { eapply wpg_known; [|apply (min_select_spec ans n l); [done|lia]|
          apply min_select_cost; lia|]; [lia|]. cbv beta. intros; lia. }
      unfold partition_at_index_loop.
      assert (Hu : units None SEL_LIMIT true = 66) by done.
      eapply wpg_mono; [apply (pai_loop_calls (S n) n index None SEL_LIMIT true l 0
        (300 * n + F n)); [done|lia|done|done|done|rewrite Hu; lia]|..]; rewrite ?Hu; cbv beta; intros; lia. }
    cbv beta. intros [] g l1 Hl1 Hg.
    unfold split_at, index0. simpl.
    rewrite (proj2 (Nat.leb_le index n)) by lia. apply wpg_bind, wpg_ret. simpl.
    rewrite (proj2 (Nat.leb_le 1 (n - index))) by lia. apply wpg_bind, wpg_ret. simpl.
    destruct (Nat.eqb_spec 1 0); [lia|]. by apply wpg_bind, wpg_ret, wpg_ret.
  Qed.
End select_cost.

(** ** A linear bound. *)
Section linear.
  Context (M small_n lin_c : nat).
  Context (Hsmall : 1024 * (2 * M + 4) ≤ small_n) (H6 : 6 * 1024 ≤ lin_c).
  Context (Hc : ∀ n, n ≤ small_n → 9 * 4 ^ n ≤ lin_c).
  Definition lin_f (n : nat) : nat := if n <=? small_n then 9 * 4 ^ n else lin_c * (n + 1).

  Lemma lin_f_le n : lin_f n ≤ lin_c * (n + 1).
  Proof.
    unfold lin_f. destruct (Nat.leb_spec n small_n); [|done].
    specialize (Hc n ltac:(done)). set (X := 9 * 4 ^ n) in *. clearbody X.
    assert (lin_c * 1 ≤ lin_c * (n + 1)) by (apply Nat.mul_le_mono_l; lia). lia.
  Qed.
  Lemma lin_f_mono m n : m ≤ n → lin_f m ≤ lin_f n.
  Proof.
    intros H. unfold lin_f.
    destruct (Nat.leb_spec n small_n).
    - rewrite (proj2 (Nat.leb_le m small_n)) by lia.
      apply Nat.mul_le_mono_l, Nat.pow_le_mono_r; lia.
    - etrans; [apply lin_f_le|]. apply Nat.mul_le_mono_l. lia.
  Qed.
  Lemma lin_f_9 n : 9 * n ≤ lin_f n.
  Proof.
    unfold lin_f. destruct (Nat.leb_spec n small_n).
    - pose proof (Nat.pow_gt_lin_r 4 n). lia.
    - assert (9 * (n + 1) ≤ lin_c * (n + 1)); [|lia].
      apply Nat.mul_le_mono_r. lia.
  Qed.
  Lemma ninther_frac_ge n : 1024 < n → n < 1024 * (ninther_frac n + 1).
  Proof.
    intros H. unfold ninther_frac. rewrite (proj2 (Nat.leb_gt n 1024)) by done.
    destruct (_ <=? _)%N.
    - pose proof (Nat.div_mod n 64). pose proof (Nat.mod_upper_bound n 64). lia.
    - pose proof (Nat.div_mod n 1024). pose proof (Nat.mod_upper_bound n 1024). lia.
  Qed.
  Lemma lin_f_step n m :
    10 < n → m < n → (1024 < n → m + 2 * ninther_frac n ≤ n + M) →
    lin_f (ninther_frac n) + lin_f m + 3 * n ≤ lin_f n.
  Proof.
    intros H10 Hm Hq. pose proof (ninther_frac_le n) as Hfr.
    destruct (Nat.leb_spec n small_n) as [Hs|Hs].
    - unfold lin_f. rewrite !(proj2 (Nat.leb_le _ small_n)) by lia.
      assert (4 ^ ninther_frac n ≤ 4 ^ (n - 1)) by (apply Nat.pow_le_mono_r; lia).
      assert (4 ^ m ≤ 4 ^ (n - 1)) by (apply Nat.pow_le_mono_r; lia).
      pose proof (Nat.pow_gt_lin_r 4 (n - 1)).
      assert (4 ^ n = 4 * 4 ^ (n - 1)).
      { replace n with (S (n - 1)) at 1 by lia. by rewrite Nat.pow_succ_r'. }
      lia.
    - assert (lin_f n = lin_c * (n + 1)) as ->.
      { unfold lin_f. by rewrite (proj2 (Nat.leb_gt n small_n)) by done. }
      pose proof (lin_f_le (ninther_frac n)). pose proof (lin_f_le m).
      assert (1024 < n) as Hb by (lia).
      specialize (Hq Hb). pose proof (ninther_frac_ge n Hb) as Hge.
      set (f := ninther_frac n) in *. clearbody f.
      assert (Hf : 2 * M + 4 < f + 1) by (lia).
      assert (lin_f f + lin_f m ≤ lin_c * (f + m + 2)) by lia.
      assert (lin_c * (f + m + 2) + lin_c * (f - M - 1) ≤ lin_c * (n + 1)).
      { rewrite <-Nat.mul_add_distr_l. apply Nat.mul_le_mono_l. lia. }
      assert (6 * 1024 * (f - M - 1) ≤ lin_c * (f - M - 1)) by (by apply Nat.mul_le_mono_r).
      lia.
  Qed.
End linear.

Lemma cntf_filter {T} (f : T → bool) l : cntf f l = length (List.filter f l).
Proof. induction l as [|y l IH]; simpl; [done|]. destruct (f y); simpl; lia. Qed.

Lemma select_linear (c : cfg) (M : nat) :
  ∃ K, ∀ (T : Type) (cmp : T → T → comparison) (l : list T) (index : nat),
    strict_weak_order (is_lt cmp) →
    (∀ x, In x l → length (List.filter (λ y, negb (is_lt cmp x y) && negb (is_lt cmp y x)) l) ≤ M) →
    let '(_, (_, tr), _) :=
      run (logged (pure_compare cmp)) (select_nth_unstable_by c (length l) index) (tt, []) l in
    length tr ≤ K * length l.
Proof.
  assert (∃ small_n lin_c, 1024 * (2 * M + 4) ≤ small_n ∧ 6 * 1024 ≤ lin_c ∧
    ∀ n, n ≤ small_n → 9 * 4 ^ n ≤ lin_c) as (N0 & C & HN0 & HC6 & HC).
  { assert (∃ N0, 1024 * (2 * M + 4) ≤ N0) as [N0 HN0] by (eexists; reflexivity).
    exists N0, (6 * 1024 + 9 * 4 ^ N0). split; [done|]. split; [apply Nat.le_add_r|].
    intros n Hn. etrans; [|apply Nat.le_add_l].
    apply Nat.mul_le_mono_l, Nat.pow_le_mono_r; lia. }
  exists (300 + 2 * C). intros T cmp l index Hs Hf.
  assert (Hfew : few (is_lt cmp) M l).
  { intros x Hx. rewrite cntf_filter. apply Hf. by apply elem_of_list_In. }
  destruct (decide (length l = 0)) as [H0|H0].
  { destruct l; [|done]. unfold select_nth_unstable_by. simpl. lia. }
  assert (Hle : 300 * length l + lin_f N0 C (length l) ≤ (300 + 2 * C) * length l).
  { assert (lin_f N0 C (length l) ≤ C * (length l + 1)) by (eapply lin_f_le; eassumption).
    assert (C * (length l + 1) ≤ C * (2 * length l)) by (apply Nat.mul_le_mono_l; lia). lia. }
  pose proof (wpg_run_compare (ans_lt (is_lt cmp)) (pure_compare cmp) _ _ _ tt l
    ltac:(intros ? [a b]; by rewrite less_of_pure_compare)
    (partition_at_index_calls c (ans_lt (is_lt cmp)) true (is_lt cmp) (λ _, Hs)
       (λ _, ans_lt_consistent _) M
       (lin_f N0 C) ltac:(eapply lin_f_9; eassumption) ltac:(intros n m H1 H2 H3; eapply lin_f_step; eauto)
       ltac:(eapply lin_f_mono; eassumption)
       (length l) index l eq_refl Hfew)) as H.
  unfold select_nth_unstable_by.
  destruct (run _ _ _ _) as [[[?|e| |] [? tr]] l']; try done; lia.
Qed.
