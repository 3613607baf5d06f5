(** * CLow: lower bounds on the number of calls made by the linear-time fallback
    of the selection, on arrays in which almost all elements are equal.

    [partition] moves all elements equal to the pivot to the right, so if almost
    all elements are equal [median_of_medians] drops one element per iteration,
    and each iteration calls it recursively on a similar subarray. *)
From Verif Require Export CRefute PSelect.
From stdpp Require Import list.

(** ** A lower bound that holds whatever the closure answers. *)
Section least.
  Context {T Q R : Type}.
  Notation P A := (prog T Q R A).
  Local Transparent bind wp wpg.
  Local Arguments bind {T Q R A B} !p f.
  Local Arguments wp {T Q R A} ans !p Φ E l.
  Local Arguments wpg {T Q R G A} ans !p Φ E g l.

  (** [p] returns only after at least [b] calls. *)
  Fixpoint least {A} (p : P A) (b : nat) : Prop :=
    match p with
    | Ret _ => b = 0
    | Throw _ | Undef | NoFuel => True
    | Read _ k => ∀ x, least (k x) b
    | Write _ _ k => least k b
    | Ask _ k => ∀ r, least (k r) (b - 1)
    | Par _ _ k => ∀ r1 r2, least (k r1 r2) b
    end.
  Lemma least_mono {A} (p : P A) b b' : b' ≤ b → least p b → least p b'.
  Proof.
    revert b b'.
    induction p as [A a|A e|A i k IH|A i x k IH|A q k IH|A B C p1 IH1 p2 IH2 k IH| |];
      intros b b' Hb H; simpl in *; eauto; try lia.
    intros r. eapply IH; [|apply H]. lia.
  Qed.
  Lemma least_0 {A} (p : P A) : least p 0.
  Proof.
    induction p as [A a|A e|A i k IH|A i x k IH|A q k IH|A B C p1 IH1 p2 IH2 k IH| |];
      simpl; auto.
  Qed.
  Lemma least_bind {A B} (p : P A) (f : A → P B) b1 b2 :
    least p b1 → (∀ a, least (f a) b2) → least (bind p f) (b1 + b2).
  Proof.
    revert B f b1.
    induction p as [A a|A e|A i k IH|A i x k IH|A q k IH|A B' C p1 IH1 p2 IH2 k IH| |];
      intros B f b1 H Hf; simpl in *; eauto.
    - by subst b1.
    - intros r. eapply least_mono; [|apply (IH r B f _ (H r) Hf)]. lia.
  Qed.
  Lemma least_wp {A} (ans : Q → R → Prop) (p : P A) b Φ E k l :
    least p b → wp ans p Φ E l →
    wpg (cnt_ans ans) p (λ a g l', k + b ≤ g ∧ Φ a l') (λ e g l', k ≤ g ∧ E e l') k l.
  Proof.
    revert b Φ E k l.
    induction p as [A a|A e|A i f IH|A i x f IH|A q f IH|A B' C p1 IH1 p2 IH2 f IH| |];
      intros b Φ E k l Hb Hwp; simpl in *; auto.
    - split; [lia|done].
    - destruct (l !! i) as [x|]; [|done]. auto.
    - destruct Hwp. auto.
    - intros r g' [Hr ->]. eapply wpg_mono; [by apply IH; [apply Hb|apply Hwp]| |]; simpl.
      + intros a g l' _ [? ?]. split; [lia|done].
      + intros e g l' _ [? ?]. split; [lia|done].
    - assert (∀ r1 r2 g l, k ≤ g → wp ans (f r1 r2) Φ E l →
        wpg (cnt_ans ans) (f r1 r2) (λ a g l', k + b ≤ g ∧ Φ a l')
          (λ e g l', k ≤ g ∧ E e l') g l) as Hf.
      { intros r1 r2 g l0 Hg H.
        eapply wpg_mono; [apply (IH r1 r2 b Φ E g l0 (Hb r1 r2) H)| |]; simpl.
        - intros a g' l' _ [? ?]. split; [lia|done].
        - intros e g' l' _ [? ?]. split; [lia|done]. }
      eapply wpg_mono; [apply (IH1 0 _ _ k l (least_0 _) Hwp)| |]; simpl.
      + intros x g1 l1 _ [Hg1 H1].
        eapply wpg_mono; [apply (IH2 0 _ _ g1 l1 (least_0 _) H1)| |]; simpl.
        * intros y g2 l2 _ [Hg2 H2]. apply Hf; [lia|done].
        * intros e g2 l2 _ [Hg2 H2]. apply Hf; [lia|done].
      + intros e1 g1 l1 _ [Hg1 H1].
        eapply wpg_mono; [apply (IH2 0 _ _ g1 l1 (least_0 _) H1)| |]; simpl.
        * intros y g2 l2 _ [Hg2 H2]. apply Hf; [lia|done].
        * intros e g2 l2 _ [Hg2 H2]. apply Hf; [lia|done].
  Qed.
End least.

Section least_ops.
  Context {T : Type}.
  Notation P A := (cmp_prog T A).
  Local Transparent bind.
  Local Arguments bind {T Q R A B} !p f.

  Lemma least_after {A B} (p : P A) (f : A → P B) b :
    (∀ a, least (f a) b) → least (bind p f) b.
  Proof. intros H. apply (least_bind p f 0 b); [apply least_0|done]. Qed.
  Lemma least_before {A B} (p : P A) (f : A → P B) b :
    least p b → least (bind p f) b.
  Proof.
    intros H. replace b with (b + 0) by lia. apply least_bind; [done|intros; apply least_0].
  Qed.
  Lemma least_is_less (x y : T) : least (is_less x y : P bool) 1.
  Proof. unfold is_less. simpl. intros [?|]; simpl; done. Qed.
  Lemma ninther_least n a b d0 d e f g h i : least (ninther (T:=T) n a b d0 d e f g h i) 1.
  Proof.
    unfold ninther, median_idx.
    apply least_before. apply least_after. intros ?. apply least_after. intros ?.
    apply least_before. apply least_is_less.
  Qed.
  Lemma ninthers_least n frac i cnt a b : least (ninthers_loop (T:=T) n frac i cnt a b) cnt.
  Proof.
    revert i a b. induction cnt as [|cnt IH]; intros i a b; [done|]. cbn [ninthers_loop].
    apply least_after. intros im. apply (least_bind _ _ 1 cnt); [apply ninther_least|].
    intros []. apply IH.
  Qed.
End least_ops.

Definition D4 : nat := 8 * 2048.
Fixpoint level_const (F j : nat) : nat :=
  match j with
  | 0 => 2048
  | S j => 2 * level_const F j * D4 ^ (S (S j)) + D4 * (level_const F j + F + 12) + 96
  end.
Local Opaque D4.
Lemma level_const_pos F j : 1 ≤ level_const F j.
Proof. destruct j; simpl; lia. Qed.

(** ** The fallback on arrays of almost only equal elements. *)
Section low.
  Context {T : Type} (c : cfg) (Hdbg : dbg c = false) (Hzst : zst c = false).
  Context (lt : T → T → bool) (Hlt : strict_weak_order lt) (gas : T → bool).
  (** The elements of [gas] are equal to each other and less than all others. *)
  Context (Hgas : ∀ x y, gas x = true → gas y = true → lt x y = false).
  Context (Hfro : ∀ x y, gas x = true → gas y = false → lt x y = true).
  Notation ans := (ans_lt lt).
  Notation ok := (cnt_ans ans).
  Notation E0 := (λ (_ : exn) (_ : nat) (_ : list T), False).
  Implicit Types (l A B : list T).

  Definition gs l : nat := length (filter (λ x, gas x = true) l).
  Definition fz l : nat := length (filter (λ x, gas x = false) l).
  Lemma gs_perm l l' : l ≡ₚ l' → gs l = gs l'.
  Proof. intros H. unfold gs. by rewrite H. Qed.
  Lemma fz_perm l l' : l ≡ₚ l' → fz l = fz l'.
  Proof. intros H. unfold fz. by rewrite H. Qed.
  Lemma gs_app l l' : gs (l ++ l') = gs l + gs l'.
  Proof. unfold gs. by rewrite filter_app, app_length. Qed.
  Lemma fz_app l l' : fz (l ++ l') = fz l + fz l'.
  Proof. unfold fz. by rewrite filter_app, app_length. Qed.
  Lemma gs_fz l : gs l + fz l = length l.
  Proof.
    unfold gs, fz. induction l as [|x l IH]; [done|]. rewrite !filter_cons. simpl.
    destruct (gas x); simpl; repeat case_decide; simpl; try done; lia.
  Qed.
  Lemma fz_cons x l : fz (x :: l) = (if gas x then 0 else 1) + fz l.
  Proof. unfold fz. rewrite filter_cons. destruct (gas x); case_decide; simpl; done. Qed.
  Lemma gs_cons x l : gs (x :: l) = (if gas x then 1 else 0) + gs l.
  Proof. unfold gs. rewrite filter_cons. destruct (gas x); case_decide; simpl; done. Qed.

  Lemma ans_lt_consistent : consistent ans lt.
  Proof. intros a b r [= ->]. done. Qed.
  Lemma spanic_none l e l' : spanic c ans l e l' → False.
  Proof. intros [_ [[_ [q Hq]]|[_ H]]]; [done|congruence]. Qed.
  Lemma upanic_none l e l' : upanic ans l e l' → False.
  Proof. intros (_ & (q & Hq) & _). done. Qed.

  (** The pivot that [median_of_ninthers] returns splits the array strictly. *)
  Definition splits l (p : nat) l' : Prop :=
    l' ≡ₚ l ∧ ∃ A x B, l' = A ++ x :: B ∧ length A = p ∧
      Forall (λ y, lt y x = true) A ∧ Forall (λ y, lt y x = false) B.

  Lemma mon_low (rec : nat → nat → cmp_prog T unit) n l W k0 :
    n = length l → 10 < n →
    (∀ m k, length m = ninther_frac n → fz m ≤ fz l →
       wpg ok (rec (length m) (ninther_frac n / 2))
         (λ _ g m', k + W ≤ g ∧ m' ≡ₚ m) E0 k m) →
    wpg ok (median_of_ninthers c rec n)
      (λ p g l', k0 + (ninther_frac n + W) ≤ g ∧ splits l p l') E0 k0 l.
  Proof.
    intros Hn H10 Hrec. unfold median_of_ninthers.
    pose proof (ninther_frac_le n) as Hfrac. set (frac := ninther_frac n) in *.
    destruct (ninthers_arith n frac Hfrac) as (H1 & H2 & H3 & H4 & H5).
    apply wpg_bind, wpg_usub; [done|]. set (lo := n / 2 - frac / 2) in *.
    apply wpg_bind, wpg_usub; [done|]. set (gap := (n - 9 * frac) / 4) in *.
    apply wpg_bind, wpg_usub; [done|].
    apply wpg_bind, wpg_usub; [done|].
    assert (Hlo : lo + frac / 2 < n).
    { unfold lo. pose proof (Nat.div_lt n 2). lia. }
    clearbody lo gap frac.
    apply wpg_bind.
    eapply wpg_mono; [eapply (least_wp ans); [apply ninthers_least|];
      apply (ninthers_loop_spec ans n frac lo (frac + lo - lo) (lo - 4 * frac - gap)
                (frac + lo + gap) l l); [lia|done|lia|lia|lia|lia]| |]; cbv beta.
    2: { intros e g l' _ [_ Hu]. by eapply upanic_none. }
    intros [] g1 l1 Hl1 [Hg1 Hp1].
    apply wpg_bind, wpg_slice; [lia|lia|lia|].
    replace (lo + frac - lo) with frac by lia.
    pose proof (sub_length l1 lo frac) as Hsub.
    rewrite <-Hsub at 1 by lia.
    eapply wpg_mono; [apply (Hrec _ g1); [apply Hsub; lia|]| |]; cbv beta.
    { rewrite <-(fz_perm _ _ Hp1). rewrite (take_drop_mid l1 lo frac) at 2 by lia.
      rewrite !fz_app. lia. }
    2: done.
    intros [] g2 m Hm [Hg2 Hpm] _.
    rewrite Hsub in Hm by lia.
    assert (Hp2 : take lo l1 ++ m ++ drop (lo + frac) l1 ≡ₚ l).
    { rewrite perm_mid; [done|lia|done]. }
    assert (Hl2 : length (take lo l1 ++ m ++ drop (lo + frac) l1) = n).
    { apply Permutation_length in Hp2. lia. }
    set (l2 := take lo l1 ++ m ++ drop (lo + frac) l1) in *. clearbody l2.
    destruct (lookup_lt_is_Some_2 l2 (lo + frac / 2)) as [x Hx]; [lia|].
    apply wpg_bind.
    eapply wpg_mono; [eapply (wpg_grow ans); [apply le_n|apply (partition_spec c ans n (lo + frac / 2) l2 x); [lia|done]]| |]; cbv beta.
    2: { intros e g l' _ [_ Hu]. by eapply upanic_none. }
    intros [mid was] g3 l3 Hl3 [Hg3 (Hp3 & Hmx & Hlo3 & Hhi3)]. apply wpg_ret.
    split; [lia|]. split; [by rewrite Hp3|].
    pose proof (lookup_lt_Some _ _ _ Hmx) as Hmid.
    exists (take mid l3), x, (drop (S mid) l3).
    split; [by apply bound_split|]. split; [rewrite take_length; lia|].
    apply rng_take in Hlo3. apply rng_drop in Hhi3; [|lia].
    split.
    - eapply Forall_impl; [exact Hlo3|]. intros y Hy. exact (Hy lt Hlt ans_lt_consistent).
    - eapply Forall_impl; [exact Hhi3|]. intros y Hy. exact (Hy lt Hlt ans_lt_consistent).
  Qed.

  Lemma mom_low rec fuel n k l s W F k0 :
    n = length l → n < fuel → 10 < s → k + s ≤ gs l → fz l ≤ F →
    (∀ m k', length m ≤ n / 12 → (k' < length m ∨ length m = 0) →
       wp ans (rec (length m) k') (λ _ m', m' ≡ₚ m) (spanic c ans m) m) →
    (∀ m g, s ≤ length m → length m ≤ n → fz m ≤ F →
       wpg ok (median_of_ninthers c rec (length m))
         (λ p g' m', g + W ≤ g' ∧ splits m p m') E0 g m) →
    wpg ok (mom_loop c rec fuel n k) (λ _ g l', k0 + k * W ≤ g ∧ l' ≡ₚ l) E0 k0 l.
  Proof.
    revert n k l k0. induction fuel as [|f IH]; intros n k l k0 Hn Hf Hs Hk HF Hrec Hmon; [lia|].
    pose proof (gs_fz l) as Hgf.
    destruct (decide (k = 0)) as [->|Hk0].
    { eapply wpg_mono; [eapply (wpg_grow ans); [apply le_n|apply (mom_loop_spec c ans rec (S f) n 0 l); [done|lia|lia|]]| |]; cbv beta.
      { intros m k' n' Hn' Hm Hk'. apply Hrec; [|done]. pose proof (ninther_frac_le n').
        rewrite Hm. apply Nat.div_le_lower_bound; lia. }
      - intros [] g l' _ (Hg & Hp & _). split; [lia|done].
      - intros e g l' _ [_ H]. by eapply spanic_none. }
    cbn [mom_loop]. fold (mom_loop c rec). unfold SEL_MAX_INSERTION in *.
    destruct (Nat.leb_spec n 10); [lia|].
    destruct (Nat.eqb_spec k (n - 1)); [lia|].
    destruct (Nat.eqb_spec k 0); [lia|].
    apply wpg_bind. subst n.
    eapply wpg_mono; [apply (Hmon l k0); lia| |done]; cbv beta.
    intros p g1 l1 Hl1 (Hg1 & Hp1 & A & x & B & -> & HlA & HA & HB).
    rewrite app_length in Hl1. simpl in Hl1.
    pose proof (gs_perm _ _ Hp1) as Hgs. pose proof (fz_perm _ _ Hp1) as Hfz.
    rewrite gs_app, gs_cons in Hgs. rewrite fz_app, fz_cons in Hfz.
    destruct (gas x) eqn:Hx.
    - destruct A as [|y A].
      2: { exfalso. apply Forall_cons in HA as [Hy _]. destruct (gas y) eqn:Hgy.
           - by rewrite Hgas in Hy.
           - rewrite (swo_asym lt x y) in Hy; auto; done. }
      simpl in HlA. subst p. simpl in *.
      destruct (Nat.compare_spec 0 k); [lia| |lia].
      apply wpg_bind, wpg_usub; [lia|].
      change (x :: B) with ([x] ++ B). rewrite <-(app_nil_r B) at 1.
      apply wpg_slice_app; [done|simpl; lia|lia|].
      eapply wpg_mono; [apply (IH (length B) (k - 1) B g1); [done|lia|lia| |lia| | ]| |]; cbv beta.
      + change (gs []) with 0 in Hgs. lia.
      + intros m k' Hm Hk'. apply Hrec; [|done]. etrans; [exact Hm|]. apply Nat.div_le_mono; lia.
      + intros m g Hm1 Hm2 Hm3. apply Hmon; [lia|lia|lia].
      + intros [] g B' HlB' [Hg HpB] _. rewrite app_nil_r. simpl. split.
        * destruct k; [lia|]. simpl in *. rewrite Nat.sub_0_r in Hg. lia.
        * rewrite <-Hp1. by rewrite HpB.
      + done.
    - assert (gs B = 0) as HgB.
      { unfold gs. destruct (filter _ B) as [|y B'] eqn:HfB; [done|]. exfalso.
        assert (y ∈ filter (λ x, gas x = true) B) as Hy by (rewrite HfB; left).
        apply elem_of_list_filter in Hy as [Hgy HyB].
        pose proof (proj1 (Forall_forall _ _) HB y HyB) as Hl. simpl in Hl.
        by rewrite Hfro in Hl. }
      pose proof (gs_fz A) as HgfA.
      destruct (Nat.compare_spec p k); [lia|lia|].
      change (A ++ x :: B) with ([] ++ A ++ x :: B).
      apply wpg_slice_app; [done|simpl; lia|lia|].
      eapply wpg_mono; [apply (IH (length A) k A g1); [done|lia|lia|lia|lia| | ]| |]; cbv beta.
      + intros m k' Hm Hk'. apply Hrec; [|done]. etrans; [exact Hm|]. apply Nat.div_le_mono; lia.
      + intros m g Hm1 Hm2 Hm3. apply Hmon; [lia|lia|lia].
      + intros [] g A' HlA' [Hg HpA] _. simpl. split; [lia|].
        rewrite <-Hp1. by rewrite HpA.
      + done.
  Qed.

  Lemma frac_pos n : 12 ≤ n → n ≤ 2048 * ninther_frac n.
  Proof.
    intros Hn. unfold ninther_frac.
    destruct (Nat.leb_spec n 1024); [|destruct (N.leb_spec (N.of_nat n) 131072)].
    - pose proof (Nat.div_mod n 12). pose proof (Nat.mod_upper_bound n 12). lia.
    - pose proof (Nat.div_mod n 64). pose proof (Nat.mod_upper_bound n 64). lia.
    - pose proof (Nat.div_mod n 1024). pose proof (Nat.mod_upper_bound n 1024). lia.
  Qed.
  Lemma frac_quarter n : 96 ≤ n → n ≤ D4 * (ninther_frac n / 4).
  Proof.
    Local Transparent D4. intros Hn. unfold D4. pose proof (frac_pos n).
    Local Opaque D4.
    assert (8 ≤ ninther_frac n).
    { unfold ninther_frac.
      destruct (Nat.leb_spec n 1024); [|destruct (N.leb_spec (N.of_nat n) 131072)];
        apply Nat.div_le_lower_bound; lia. }
    pose proof (Nat.div_mod (ninther_frac n) 4). pose proof (Nat.mod_upper_bound (ninther_frac n) 4).
    lia.
  Qed.

  Lemma mom_spec d m k :
    length m < 2 ^ d → (k < length m ∨ length m = 0) →
    wp ans (median_of_medians c (S d) (length m) k) (λ _ m', m' ≡ₚ m) (spanic c ans m) m.
  Proof.
    intros. eapply wp_mono; [by apply (median_of_medians_spec c ans d (length m) k m)| |]; simpl.
    - by intros [] ? _ [? _].
    - auto.
  Qed.

  (** What one level of recursion makes of a lower bound. *)
  Definition level F (j C : nat) : Prop :=
    ∀ d l k0, C ≤ length l → length l / 12 < 2 ^ d → fz l ≤ F →
      wpg ok (median_of_ninthers c (median_of_medians c (S d)) (length l))
        (λ p g l', length l ^ (S j) ≤ C * (g - k0) ∧ k0 ≤ g ∧ splits l p l') E0 k0 l.

  Lemma level_0 F : level F 0 2048.
  Proof.
    intros d l k0 HC Hd HF.
    eapply wpg_mono; [apply (mon_low _ (length l) l 0 k0 eq_refl)| |done]; cbv beta.
    - lia.
    - intros m k Hm Hfz.
      pose proof (ninther_frac_le (length l)) as Hfr.
      assert (length m ≤ length l / 12) by (rewrite Hm; apply Nat.div_le_lower_bound; lia).
      eapply wpg_mono; [eapply (wpg_grow ans); [apply le_n|apply (mom_spec d m)]| |]; cbv beta.
      + lia.
      + destruct (decide (length m = 0)); [lia|]. left. rewrite <-Hm. apply Nat.div_lt; lia.
      + intros [] g m' _ [? ?]. split; [lia|done].
      + intros e g m' _ [_ Hs]. by eapply spanic_none.
    - intros p g l' _ [Hg Hs]. split; [|split; [lia|done]].
      pose proof (frac_pos (length l)). rewrite Nat.pow_1_r. nia.
  Qed.

  Lemma level_S F j C : level F j C → 1 ≤ C →
    level F (S j) (2 * C * D4 ^ (S (S j)) + D4 * (C + F + 12) + 96).
  Proof.
    intros HL HC d l k0 Hn Hd HF.
    set (C' := 2 * C * D4 ^ (S (S j)) + D4 * (C + F + 12) + 96) in *.
    set (n := length l) in *. set (s := ninther_frac n / 4).
    assert (Hns : n ≤ D4 * s) by (apply frac_quarter; lia).
    assert (Hs : C + F + 12 ≤ s).
    { assert (D4 * (C + F + 12) ≤ D4 * s) by lia. by eapply Nat.mul_le_mono_pos_l; [|eassumption];
        destruct D4; [lia|lia]. }
    pose proof (ninther_frac_le n) as Hfr.
    assert (Hs4 : 4 * s ≤ ninther_frac n < 4 * s + 4).
    { unfold s. pose proof (Nat.div_mod (ninther_frac n) 4).
      pose proof (Nat.mod_upper_bound (ninther_frac n) 4). lia. }
    set (W := s ^ (S j) / C).
    eapply wpg_mono; [apply (mon_low _ n l (s * W) k0 eq_refl)| |done]; cbv beta.
    - lia.
    - intros m k Hm Hfz. fold n in Hm. set (f := ninther_frac n) in *.
      assert (Hf12 : f ≤ n / 12) by (apply Nat.div_le_lower_bound; lia).
      destruct d as [|d]; [simpl in Hd; lia|].
      rewrite median_of_medians_unfold. unfold dassert. rewrite Hdbg, Hzst. cbn [andb negb].
      apply wpg_bind, wpg_ret, wpg_bind, wpg_ret.
      pose proof (gs_fz m). clearbody s f.
      assert (f / 2 ≤ 2 * s + 1 ∧ s ≤ f / 2) as [Hf2 Hf2'].
      { pose proof (Nat.div_mod f 2). pose proof (Nat.mod_upper_bound f 2). lia. }
      eapply wpg_mono; [apply (mom_low _ _ (length m) (f / 2) m s W F k eq_refl)| |done]; cbv beta.
      + lia.
      + lia.
      + lia.
      + lia.
      + intros m' k' Hm' Hk'. apply mom_spec; [|done].
        pose proof (Nat.div_mod (length m) 12). pose proof (Nat.mod_upper_bound (length m) 12).
        simpl in Hd. lia.
      + intros m' g Hm1 Hm2 Hm3.
        eapply wpg_mono; [apply (HL d m' g)| |done]; cbv beta.
        * lia.
        * pose proof (Nat.div_mod (length m') 12). pose proof (Nat.mod_upper_bound (length m') 12).
          simpl in Hd. lia.
        * done.
        * intros p g' l' _ (Hg & Hgg & Hsp). split; [|done].
          assert (W ≤ g' - g); [|lia]. unfold W.
          apply Nat.div_le_upper_bound; [lia|]. etrans; [|exact Hg].
          by apply Nat.pow_le_mono_l.
      + intros [] g m' _ [Hg Hp]. split; [|done]. nia.
    - intros p g l' _ [Hg Hsp]. split; [|split; [lia|done]].
      assert (HW : s ^ S j ≤ 2 * C * W).
      { unfold W. pose proof (Nat.div_mod (s ^ S j) C) as H1.
        pose proof (Nat.mod_upper_bound (s ^ S j) C) as H2.
        assert (C ≤ s ^ S j).
        { etrans; [|apply (Nat.pow_le_mono_r s 1 (S j)); lia]. rewrite Nat.pow_1_r. lia. }
        assert (1 ≤ s ^ S j / C) by (apply Nat.div_le_lower_bound; lia). nia. }
      assert (H1 : n ^ S (S j) ≤ D4 ^ S (S j) * s ^ S (S j)).
      { rewrite <-Nat.pow_mul_l. by apply Nat.pow_le_mono_l. }
      assert (H2 : s ^ S (S j) ≤ 2 * C * (g - k0)).
      { change (s ^ S (S j)) with (s * s ^ S j).
        assert (s * s ^ S j ≤ s * (2 * C * W)) by (by apply Nat.mul_le_mono_l).
        assert (s * W ≤ g - k0) by lia.
        assert (2 * C * (s * W) ≤ 2 * C * (g - k0)) by (by apply Nat.mul_le_mono_l). lia. }
      assert (H3 : D4 ^ S (S j) * s ^ S (S j) ≤ D4 ^ S (S j) * (2 * C * (g - k0)))
        by (by apply Nat.mul_le_mono_l).
      assert (H4 : 2 * C * D4 ^ S (S j) * (g - k0) ≤ C' * (g - k0)).
      { apply Nat.mul_le_mono_r. unfold C'. lia. }
      lia.
  Qed.

  Lemma levels F j : level F j (level_const F j).
  Proof.
    induction j as [|j IH].
    - apply level_0.
    - apply level_S; [done|apply level_const_pos].
  Qed.
End low.
