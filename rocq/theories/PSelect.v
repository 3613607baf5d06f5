(** * Proofs about selection (MSelect.v). *)
From Verif Require Export MSelect PInsertion PPivot PQuick.
From stdpp Require Import list.

Section selected.
  Context {T : Type} (ans : T * T → option bool → Prop).
  Notation kle := (kle ans).
  Notation klt := (klt ans).
  Notation ksorted := (ksorted ans).
  Implicit Types (l A B : list T).

  (** Position [k] holds an element with nothing greater before and nothing
      smaller after it. *)
  Definition selected l (k : nat) : Prop :=
    ∃ p, l !! k = Some p ∧ Forall (λ x, kle x p) (take k l) ∧ Forall (kle p) (drop (S k) l).

  Lemma selected_app A p B :
    Forall (λ x, kle x p) A → Forall (kle p) B → selected (A ++ p :: B) (length A).
  Proof.
    intros HA HB. exists p. rewrite lookup_middle. split; [done|].
    rewrite take_app, drop_app_ge by lia.
    by replace (S (length A) - length A) with 1 by lia.
  Qed.
  Lemma selected_inv l k :
    selected l k → ∃ A p B, l = A ++ p :: B ∧ length A = k ∧
      Forall (λ x, kle x p) A ∧ Forall (kle p) B.
  Proof.
    intros (p & Hp & HA & HB). exists (take k l), p, (drop (S k) l).
    split; [by rewrite take_drop_middle|]. split; [|done].
    apply lookup_lt_Some in Hp. rewrite take_length. lia.
  Qed.
  Lemma selected_lt l k : selected l k → k < length l.
  Proof. intros (p & Hp & _). by eapply lookup_lt_Some. Qed.
  Lemma selected_sorted l k : ksorted l → k < length l → selected l k.
  Proof.
    intros Hs Hk. destruct (lookup_lt_is_Some_2 l k Hk) as [p Hp].
    exists p. split; [done|].
    rewrite <-(take_drop_middle l k p Hp) in Hs.
    apply ksorted_app in Hs as (_ & Hs & Hlo).
    apply StronglySorted_inv in Hs as [_ Hs]. split; [|done].
    apply Forall_forall. intros x Hx. apply Hlo; [done|]. left.
  Qed.
  Lemma selected_left A p B k :
    Forall (λ x, kle x p) A → Forall (kle p) B → selected A k → selected (A ++ p :: B) k.
  Proof.
    intros HA HB (A1 & q & A2 & -> & <- & H1 & H2)%selected_inv.
    rewrite <-app_assoc. simpl. apply selected_app; [done|].
    apply Forall_app in HA as [_ HA]. apply Forall_cons in HA as [Hq HA].
    apply Forall_app. split; [done|]. constructor; [done|].
    eapply Forall_impl; [exact HB|]. intros x. by apply kle_trans.
  Qed.
  Lemma selected_right A p B k :
    Forall (λ x, kle x p) A → Forall (kle p) B → selected B k →
    selected (A ++ p :: B) (length A + 1 + k).
  Proof.
    intros HA HB (B1 & q & B2 & -> & <- & H1 & H2)%selected_inv.
    replace (A ++ p :: B1 ++ q :: B2) with ((A ++ p :: B1) ++ q :: B2)
      by (by rewrite <-app_assoc).
    replace (length A + 1 + length B1) with (length (A ++ p :: B1))
      by (rewrite app_length; simpl; lia).
    apply Forall_app in HB as [_ HB]. apply Forall_cons in HB as [Hq HB].
    apply selected_app; [|done].
    apply Forall_app. split; [|by constructor].
    eapply Forall_impl; [exact HA|]. intros x Hx. by apply (kle_trans ans _ p).
  Qed.
End selected.

Section select.
  Context {T : Type} (c : cfg) (ans : T * T → option bool → Prop).
  Notation kle := (kle ans).
  Notation klt := (klt ans).
  Notation ksorted := (ksorted ans).
  Notation selected := (selected ans).
  Implicit Types (l A B : list T).

  Lemma max_by_loop_spec n acc i cnt l :
    n = length l → acc < i → i + cnt = n →
    (∃ p, l !! acc = Some p ∧ rng (λ x, kle x p) l 0 i) →
    wp ans (max_by_loop n acc i cnt)
      (λ m l', l' = l ∧ ∃ p, l !! m = Some p ∧ rng (λ x, kle x p) l 0 n) (upanic ans l) l.
  Proof.
    intros Hn. revert acc i. induction cnt as [|cnt IH]; intros acc i Hacc Hi (p & Hp & Hr).
    - apply wp_ret. split; [done|]. exists p. split; [done|].
      by replace n with i by lia.
    - cbn [max_by_loop]. apply wp_bind, wp_get; [lia|lia|]. intros p' Hp'.
      rewrite Hp in Hp'. injection Hp' as <-.
      apply wp_bind, wp_get; [lia|lia|]. intros x Hx.
      apply wp_bind, wp_is_less; [|intros; by eapply upanic_intro].
      intros r Hans. apply IH; [destruct r; lia|lia|]. destruct r.
      + exists x. split; [done|]. apply ans_true in Hans.
        intros j y Hj Hy. destruct (decide (j = i)) as [->|].
        * replace y with x by congruence. apply kle_refl.
        * apply (kle_trans ans _ p); [apply (Hr j); [lia|done]|by apply klt_kle].
      + exists p. split; [done|]. apply ans_false in Hans.
        intros j y Hj Hy. destruct (decide (j = i)) as [->|].
        * by replace y with x by congruence.
        * apply (Hr j); [lia|done].
  Qed.
  Lemma min_by_loop_spec n acc i cnt l :
    n = length l → acc < i → i + cnt = n →
    (∃ p, l !! acc = Some p ∧ rng (λ x, kle p x) l 0 i) →
    wp ans (min_by_loop n acc i cnt)
      (λ m l', l' = l ∧ ∃ p, l !! m = Some p ∧ rng (λ x, kle p x) l 0 n) (upanic ans l) l.
  Proof.
    intros Hn. revert acc i. induction cnt as [|cnt IH]; intros acc i Hacc Hi (p & Hp & Hr).
    - apply wp_ret. split; [done|]. exists p. split; [done|].
      by replace n with i by lia.
    - cbn [min_by_loop]. apply wp_bind, wp_get; [lia|lia|]. intros p' Hp'.
      rewrite Hp in Hp'. injection Hp' as <-.
      apply wp_bind, wp_get; [lia|lia|]. intros x Hx.
      apply wp_bind, wp_is_less; [|intros; by eapply upanic_intro].
      intros r Hans. apply IH; [destruct r; lia|lia|]. destruct r.
      + exists p. split; [done|]. apply ans_true in Hans.
        intros j y Hj Hy. destruct (decide (j = i)) as [->|].
        * replace y with x by congruence. by apply klt_kle.
        * apply (Hr j); [lia|done].
      + exists x. split; [done|]. apply ans_false in Hans.
        intros j y Hj Hy. destruct (decide (j = i)) as [->|].
        * replace y with x by congruence. apply kle_refl.
        * apply (kle_trans ans _ p); [done|]. apply (Hr j); [lia|done].
  Qed.
  Lemma rng_zero l (P : T → Prop) : (∀ x, l !! 0 = Some x → P x) → rng P l 0 1.
  Proof. intros H i x Hi Hx. replace i with 0 in Hx by lia. auto. Qed.

  Lemma selected_swap_last l m k p :
    length l = S k → l !! m = Some p → rng (λ x, kle x p) l 0 (S k) →
    selected (swapl m k l) k.
  Proof.
    intros Hl Hm Hr. pose proof (lookup_lt_Some _ _ _ Hm) as Hmk.
    exists p. split; [|split].
    - rewrite lookup_swapl by lia. case_decide; [by subst|]. by rewrite decide_True.
    - apply rng_take. intros i x Hi Hx. apply elem_of_list_lookup_2 in Hx.
      rewrite (swapl_perm m k l) in Hx by lia.
      apply elem_of_list_lookup_1 in Hx as [j Hj]. apply (Hr j); [|done].
      apply lookup_lt_Some in Hj. lia.
    - rewrite drop_ge by (rewrite swapl_length; lia). constructor.
  Qed.
  Lemma selected_swap_first l m p n :
    length l = n → l !! m = Some p → rng (λ x, kle p x) l 0 n →
    selected (swapl m 0 l) 0.
  Proof.
    intros Hl Hm Hr. pose proof (lookup_lt_Some _ _ _ Hm) as Hmk.
    exists p. split; [|split].
    - rewrite lookup_swapl by lia. case_decide; [by subst|]. by rewrite decide_True.
    - constructor.
    - apply (rng_drop _ _ _ n); [rewrite swapl_length; lia|].
      intros i x Hi Hx. apply elem_of_list_lookup_2 in Hx.
      rewrite (swapl_perm m 0 l) in Hx by lia.
      apply elem_of_list_lookup_1 in Hx as [j Hj]. apply (Hr j); [|done].
      apply lookup_lt_Some in Hj. lia.
  Qed.

  Lemma max_select_spec n k l :
    n = length l → 0 < n → k = n - 1 →
    wp ans (bind (max_index n) (λ m, swap n m k))
      (λ _ l', l' ≡ₚ l ∧ selected l' k) (upanic ans l) l.
  Proof.
    intros Hn Hpos ->. unfold max_index. destruct (Nat.eqb_spec n 0); [lia|].
    apply wp_bind. destruct (lookup_lt_is_Some_2 l 0) as [x Hx]; [lia|].
    wp_apply (max_by_loop_spec n 0 1 (n - 1) l); [done|lia|lia| | |by auto].
    { exists x. split; [done|]. apply rng_zero. intros y Hy.
      replace y with x by congruence. apply kle_refl. }
    intros m l' _ (-> & p & Hp & Hr).
    pose proof (lookup_lt_Some _ _ _ Hp).
    apply wp_swap; [lia..|]. split; [apply swapl_perm; lia|].
    apply selected_swap_last with p; [lia|done|].
    by replace (S (n - 1)) with n by lia.
  Qed.
  Lemma min_select_spec n l :
    n = length l → 0 < n →
    wp ans (bind (min_index n) (λ m, swap n m 0))
      (λ _ l', l' ≡ₚ l ∧ selected l' 0) (upanic ans l) l.
  Proof.
    intros Hn Hpos. unfold min_index. destruct (Nat.eqb_spec n 0); [lia|].
    apply wp_bind. destruct (lookup_lt_is_Some_2 l 0) as [x Hx]; [lia|].
    wp_apply (min_by_loop_spec n 0 1 (n - 1) l); [done|lia|lia| | |by auto].
    { exists x. split; [done|]. apply rng_zero. intros y Hy.
      replace y with x by congruence. apply kle_refl. }
    intros m l' _ (-> & p & Hp & Hr).
    pose proof (lookup_lt_Some _ _ _ Hp).
    apply wp_swap; [lia..|]. split; [apply swapl_perm; lia|].
    by apply selected_swap_first with p n.
  Qed.

  Lemma wp_less_at n i j (Φ : bool → list T → Prop) (E : exn → list T → Prop) l :
    i < n → j < n → n = length l →
    (∀ r, Φ r l) → (∀ q, ans q None → E UserPanic l) →
    wp ans (less_at n i j) Φ E l.
  Proof.
    intros. unfold less_at. apply wp_bind, wp_get; [lia|lia|]. intros.
    apply wp_bind, wp_get; [lia|lia|]. intros. apply wp_is_less; eauto.
  Qed.

  Lemma median_idx_spec n a b d l :
    n = length l → a < n → b < n → d < n →
    wp ans (median_idx n a b d) (λ m l', l' = l ∧ m < n) (upanic ans l) l.
  Proof.
    intros Hn Ha Hb Hd. unfold median_idx.
    apply wp_bind, wp_get; [lia|lia|]. intros x1 _.
    apply wp_bind, wp_get; [lia|lia|]. intros x2 _.
    apply wp_bind, wp_is_less; [|intros; by eapply upanic_intro].
    intros r _.
    assert (∀ a d, a < n → d < n → wp ans
      (bind (get n d) (λ vd, bind (get n b) (λ vb, bind (is_less vd vb) (λ r : bool,
         if r then Ret d
         else bind (get n b) (λ vb, bind (get n a) (λ va,
              bind (is_less vb va) (λ r : bool, if r then Ret a else Ret b)))))))
      (λ m l', l' = l ∧ m < n) (upanic ans l) l) as Hk.
    { clear a d Ha Hd r. intros a d Ha Hd.
      apply wp_bind, wp_get; [lia|lia|]. intros y1 _.
      apply wp_bind, wp_get; [lia|lia|]. intros y2 _.
      apply wp_bind, wp_is_less; [|intros; by eapply upanic_intro].
      intros [] _; [by apply wp_ret|].
      apply wp_bind, wp_get; [lia|lia|]. intros y3 _.
      apply wp_bind, wp_get; [lia|lia|]. intros y4 _.
      apply wp_bind, wp_is_less; [|intros; by eapply upanic_intro].
      intros [] _; by apply wp_ret. }
    destruct r; apply Hk; done.
  Qed.

  Lemma ninther_spec n a b d0 d e f g h i l :
    n = length l → a < n → b < n → d0 < n → d < n → e < n → f < n → g < n → h < n → i < n →
    wp ans (ninther n a b d0 d e f g h i) (λ _ l', l' ≡ₚ l) (upanic ans l) l.
  Proof.
    intros Hn Ha Hb Hd0 Hd He Hf Hg Hh Hi. unfold ninther.
    apply wp_bind. wp_apply (median_idx_spec n a b d0 l); [lia..| |by auto].
    clear b Hb. intros b l' _ [-> Hb].
    apply wp_bind. wp_apply (median_idx_spec n g h i l); [lia..| |by auto].
    clear h Hh. intros h l' _ [-> Hh].
    assert (Hpan : ∀ q, ans q None → upanic ans l UserPanic l).
    { intros q Hq. repeat split; eauto. }
    apply wp_bind, wp_less_at; [lia..| |by auto]. intros r.
    assert (∃ b' h', (if r then (h, b) else (b, h)) = (b', h') ∧ b' < n ∧ h' < n)
      as (b' & h' & -> & Hb' & Hh') by (destruct r; eauto).
    apply wp_bind, wp_less_at; [lia..| |by auto]. clear r. intros r.
    assert (∃ d' f', (if r then (f, d) else (d, f)) = (d', f') ∧ d' < n ∧ f' < n)
      as (d' & f' & -> & Hd' & Hf') by (destruct r; eauto).
    clear r b d f h Hb Hd Hf Hh.
    apply wp_bind, wp_less_at; [lia..| |by auto]. intros r1.
    apply wp_bind.
    eapply (wp_mono _ _ (λ (k : nat + unit) l', match k with
        | inl d => l' = l ∧ d < n | inr _ => l' ≡ₚ l end) _ (upanic ans l)); [| |by auto].
    { destruct r1; [by apply wp_ret|].
      apply wp_bind, wp_less_at; [lia..| |by auto]. intros [|]; [by apply wp_ret|].
      apply wp_bind, wp_less_at; [lia..| |by auto]. intros r3. apply wp_bind.
      destruct r3.
      - apply wp_swap; [lia..|]. apply wp_ret. apply swapl_perm; lia.
      - apply wp_bind, wp_less_at; [lia..| |by auto]. intros [|].
        + apply wp_swap; [lia..|]. apply wp_ret. apply swapl_perm; lia.
        + by apply wp_ret, wp_ret. }
    intros [d|[]] l' _ Hk; [|by apply wp_ret]. destruct Hk as [-> Hd].
    apply wp_bind, wp_less_at; [lia..| |by auto]. intros r. apply wp_bind.
    eapply (wp_mono _ _ (λ d l', l' = l ∧ d < n) _ (upanic ans l)); [| |by auto].
    { destruct r; [by apply wp_ret|].
      apply wp_bind, wp_less_at; [lia..| |by auto]. intros [|]; by apply wp_ret. }
    intros d2 l' _ [-> Hd2]. apply wp_swap; [lia..|]. apply swapl_perm; lia.
  Qed.

  Lemma ninthers_loop_spec n frac i cnt a b l0 l :
    n = length l → l ≡ₚ l0 → frac ≤ i → i + cnt + frac ≤ n → a + 3 * cnt ≤ n → b + 3 * cnt ≤ n →
    wp ans (ninthers_loop n frac i cnt a b) (λ _ l', l' ≡ₚ l0) (upanic ans l0) l.
  Proof.
    revert i a b l. induction cnt as [|cnt IH]; intros i a b l Hn Hp Hi Hic Ha Hb.
    - by apply wp_ret.
    - cbn [ninthers_loop]. apply wp_bind, wp_usub; [done|].
      apply wp_bind. wp_apply ninther_spec; [lia..| |].
      + intros [] l' Hl' Hp'. apply IH; [lia|by rewrite Hp'|lia..].
      + intros e l' _ Hu. by eapply upanic_perm.
  Qed.

  Lemma ninther_frac_le n : 12 * ninther_frac n ≤ n.
  Proof.
    unfold ninther_frac. destruct (n <=? 1024); [|destruct (_ <=? _)%N].
    - apply Nat.mul_div_le. lia.
    - pose proof (Nat.mul_div_le n 64). lia.
    - pose proof (Nat.mul_div_le n 1024). lia.
  Qed.

  (** The index arithmetic of [median_of_ninthers]. *)
  Lemma ninthers_arith n frac :
    12 * frac ≤ n →
    let lo := n / 2 - frac / 2 in
    let gap := (n - 9 * frac) / 4 in
    frac / 2 ≤ n / 2 ∧ 9 * frac ≤ n ∧ 4 * frac ≤ lo ∧ gap ≤ lo - 4 * frac ∧
    (frac + lo) + gap + 3 * frac ≤ n.
  Proof.
    intros H lo gap. subst lo gap.
    pose proof (Nat.div_mod n 2). pose proof (Nat.mod_upper_bound n 2).
    pose proof (Nat.div_mod frac 2). pose proof (Nat.mod_upper_bound frac 2).
    pose proof (Nat.div_mod (n - 9 * frac) 4). pose proof (Nat.mod_upper_bound (n - 9 * frac) 4).
    lia.
  Qed.

  (** Panics that may leave the selection functions: the closure's own, or, in
      builds with debug assertions, the [debug_assert!] of [median_of_medians]. *)
  Definition spanic l0 (e : exn) (l' : list T) : Prop :=
    l' ≡ₚ l0 ∧ (e = UserPanic ∧ (∃ q, ans q None) ∨ e = DebugPanic ∧ dbg c = true).
  Lemma upanic_spanic l0 e l' : upanic ans l0 e l' → spanic l0 e l'.
  Proof. intros (? & ? & ?). split; auto. Qed.
  Lemma spanic_perm l0 l1 e l' : spanic l0 e l' → l0 ≡ₚ l1 → spanic l1 e l'.
  Proof. intros [H1 H2] H. split; [by rewrite H1|done]. Qed.

  Lemma median_of_ninthers_spec (rec : nat → nat → cmp_prog T unit) n l :
    n = length l → 10 < n →
    (∀ m, length m = ninther_frac n →
       wp ans (rec (length m) (ninther_frac n / 2)) (λ _ m', m' ≡ₚ m) (spanic m) m) →
    wp ans (median_of_ninthers c rec n)
      (λ p l', l' ≡ₚ l ∧ ∃ A x B, l' = A ++ x :: B ∧ length A = p ∧
         Forall (λ y, kle y x) A ∧ Forall (kle x) B) (spanic l) l.
  Proof.
    intros Hn H10 Hrec. unfold median_of_ninthers.
    pose proof (ninther_frac_le n) as Hfrac. set (frac := ninther_frac n) in *.
    destruct (ninthers_arith n frac Hfrac) as (H1 & H2 & H3 & H4 & H5).
    apply wp_bind, wp_usub; [done|]. set (lo := n / 2 - frac / 2) in *.
    apply wp_bind, wp_usub; [done|]. set (gap := (n - 9 * frac) / 4) in *.
    apply wp_bind, wp_usub; [done|].
    apply wp_bind, wp_usub; [done|].
    assert (Hlo : lo + frac / 2 < n).
    { unfold lo. pose proof (Nat.div_lt n 2). lia. }
    clearbody lo gap frac.
    apply wp_bind.
    wp_apply (ninthers_loop_spec n frac lo (frac + lo - lo) (lo - 4 * frac - gap)
                (frac + lo + gap) l l); [lia|done|lia|lia|lia|lia| |by auto using upanic_spanic].
    intros [] l1 Hl1 Hp1.
    apply wp_bind, wp_slice; [lia|lia|lia|].
    replace (lo + frac - lo) with frac by lia.
    pose proof (sub_length l1 lo frac) as Hsub.
    rewrite <-Hsub at 1 by lia.
    eapply wp_mono; [apply Hrec; apply Hsub; lia| |]; simpl.
    2: { intros e m Hm (Hpm & He) _. split; [|done].
         rewrite perm_mid; [done|lia|done]. }
    intros [] m Hm Hpm _.
    rewrite Hsub in Hm by lia.
    assert (Hp2 : take lo l1 ++ m ++ drop (lo + frac) l1 ≡ₚ l).
    { rewrite perm_mid; [done|lia|done]. }
    assert (Hl2 : length (take lo l1 ++ m ++ drop (lo + frac) l1) = n).
    { apply Permutation_length in Hp2. lia. }
    set (l2 := take lo l1 ++ m ++ drop (lo + frac) l1) in *. clearbody l2.
    destruct (lookup_lt_is_Some_2 l2 (lo + frac / 2)) as [x Hx]; [lia|].
    apply wp_bind.
    wp_apply (partition_spec c ans n (lo + frac / 2) l2 x); [lia|done| |].
    2: { intros e l' _ Hu. eapply upanic_spanic, upanic_perm; eauto. }
    intros [mid was] l3 Hl3 (Hp3 & Hmx & Hlo3 & Hhi3). apply wp_ret.
    split; [by rewrite Hp3|].
    pose proof (lookup_lt_Some _ _ _ Hmx) as Hmid.
    exists (take mid l3), x, (drop (S mid) l3).
    split; [by apply bound_split|]. split; [rewrite take_length; lia|].
    apply rng_take in Hlo3. apply rng_drop in Hhi3; [|lia]. split; [|done].
    eapply Forall_impl; [exact Hlo3|]. intros y. by apply klt_kle.
  Qed.

  Definition mom_loop (rec : nat → nat → cmp_prog T unit) : nat → nat → nat → cmp_prog T unit :=
    fix loop (fuel n k : nat) : cmp_prog T unit :=
      match fuel with
      | 0 => NoFuel
      | S f =>
          if n <=? SEL_MAX_INSERTION then
            if 1 <? n then insertion_sort_shift_left c n 1 else Ret tt
          else if k =? n - 1 then
            bind (max_index n) (λ m, swap n m k)
          else if k =? 0 then
            bind (min_index n) (λ m, swap n m k)
          else
            bind (median_of_ninthers c rec n) (λ p,
            match Nat.compare p k with
            | Eq => Ret tt
            | Gt => slice n 0 p (λ m, loop f m k)
            | Lt =>
                bind (usub k (p + 1)) (λ k',
                slice n (p + 1) n (λ m, loop f m k'))
            end)
      end.
  Lemma median_of_medians_unfold d n k :
    median_of_medians c (S d) n k =
      bind (dassert c (k <? n)) (λ _, bind (dassert c (negb (zst c))) (λ _,
        mom_loop (median_of_medians c d) (S n) n k)).
  Proof. reflexivity. Qed.

  Lemma mom_loop_spec rec fuel n k l :
    n = length l → n < fuel → (k < n ∨ n ≤ SEL_MAX_INSERTION) →
    (∀ m k' n', 10 < n' ≤ n → length m = ninther_frac n' → (k' < length m ∨ length m = 0) →
       wp ans (rec (length m) k') (λ _ m', m' ≡ₚ m) (spanic m) m) →
    wp ans (mom_loop rec fuel n k)
      (λ _ l', l' ≡ₚ l ∧ (k < n → selected l' k)) (spanic l) l.
  Proof.
    revert n k l. induction fuel as [|f IH]; intros n k l Hn Hf Hk Hrec; [lia|].
    cbn [mom_loop]. fold (mom_loop rec). unfold SEL_MAX_INSERTION in *.
    destruct (Nat.leb_spec n 10).
    { destruct (Nat.ltb_spec 1 n).
      - wp_apply (insertion_sort_shift_left_spec c ans n 1 l); [done|lia| |by auto using upanic_spanic].
        intros [] l' Hl' [Hsp Hso]. split; [by apply (sperm_perm ans)|].
        intros Hkn. apply selected_sorted; [|lia]. apply Hso.
        destruct l; [constructor|]. simpl. apply ksorted_singleton.
      - apply wp_ret. split; [done|]. intros Hkn. apply selected_sorted; [|lia].
        destruct l as [|? [|]]; [constructor|apply ksorted_singleton|simpl in *; lia]. }
    destruct (Nat.eqb_spec k (n - 1)).
    { wp_apply (max_select_spec n k l); [done|lia|done| |by auto using upanic_spanic]. intros [] l' _ [??]. auto. }
    destruct (Nat.eqb_spec k 0) as [->|].
    { wp_apply (min_select_spec n l); [done|lia| |by auto using upanic_spanic]. intros [] l' _ [??]. auto. }
    apply wp_bind. wp_apply (median_of_ninthers_spec rec n l); [done|lia| | |by auto using upanic_spanic].
    { intros m Hm. apply (Hrec _ _ n); [lia|done|]. rewrite Hm.
      destruct (decide (ninther_frac n = 0)); [lia|]. left. apply Nat.div_lt; lia. }
    intros p l1 Hl1 (Hp1 & A & x & B & -> & HlA & HA & HB).
    rewrite app_length in Hl1. simpl in Hl1.
    destruct (Nat.compare_spec p k) as [->|Hpk|Hpk].
    - apply wp_ret. split; [done|]. intros _. subst k. by apply selected_app.
    - apply wp_bind, wp_usub; [lia|].
      replace (A ++ x :: B) with ((A ++ [x]) ++ B ++ []) by (by rewrite app_nil_r, <-app_assoc).
      apply wp_slice_app; [rewrite app_length; simpl; lia|lia|lia|].
      wp_apply (IH (length B) (k - (p + 1)) B); [done|lia|lia| | |].
      + intros m k' n' Hn' Hm Hk'. apply (Hrec m k' n'); [lia|done|done].
      + intros [] B' HlB' [HpB Hsel] _. rewrite app_nil_r, <-app_assoc. simpl.
        split; [by rewrite HpB|]. intros _.
        replace k with (length A + 1 + (k - (p + 1))) by lia.
        apply selected_right; [done|by rewrite HpB|]. apply Hsel. lia.
      + intros e B' _ (HpB & He) _. rewrite app_nil_r, <-app_assoc. simpl.
        split; [by rewrite HpB|done].
    - change (A ++ x :: B) with ([] ++ A ++ x :: B).
      apply wp_slice_app; [done|simpl; lia|lia|].
      wp_apply (IH (length A) k A); [done|lia|lia| | |].
      + intros m k' n' Hn' Hm Hk'. apply (Hrec m k' n'); [lia|done|done].
      + intros [] A' HlA' [HpA Hsel] _. simpl.
        split; [by rewrite HpA|]. intros _.
        apply selected_left; [by rewrite HpA|done|]. apply Hsel. lia.
      + intros e A' _ (HpA & He) _. simpl.
        split; [by rewrite HpA|done].
  Qed.

  Lemma median_of_medians_spec d n k l :
    n = length l → n < 2 ^ d → (k < n ∨ n = 0) → zst c = false →
    wp ans (median_of_medians c (S d) n k)
      (λ _ l', l' ≡ₚ l ∧ (k < n → selected l' k)) (spanic l) l.
  Proof.
    revert n k l. induction d as [|d IH]; intros n k l Hn Hd Hk Hz.
    - simpl in Hd. rewrite median_of_medians_unfold. unfold dassert.
      destruct (Nat.ltb_spec k n); [lia|].
      destruct (dbg c) eqn:Hdbg; simpl; apply wp_bind; [apply wp_throw; by split; auto|].
      apply wp_ret, wp_bind, wp_ret. replace n with 0 in * by lia.
      apply wp_ret. split; [done|lia].
    - rewrite median_of_medians_unfold. unfold dassert.
      apply wp_bind. destruct (dbg c && negb (k <? n)) eqn:Hb.
      { apply andb_true_iff in Hb as [? _]. apply wp_throw; by split; auto. }
      apply wp_ret. apply wp_bind. rewrite Hz. rewrite andb_false_r. apply wp_ret.
      apply mom_loop_spec; [done|lia|unfold SEL_MAX_INSERTION; lia|].
      intros m k' n' Hn' Hm Hk'.
      eapply wp_mono; [apply (IH (length m) k' m); [done| |lia|done]|by intros [] ? _ [? _]|auto].
      pose proof (ninther_frac_le n'). simpl in Hd. lia.
  Qed.

  Lemma pai_loop_spec fuel n index pred limit wb l :
    n = length l → n < fuel → index < n → zst c = false →
    (∀ q, pred = Some q → Forall (kle q) l) →
    wp ans (pai_loop c fuel n index pred limit wb)
      (λ _ l', l' ≡ₚ l ∧ selected l' index) (spanic l) l.
  Proof.
    intros Hn Hf Hi Hz. revert n index pred limit wb l Hn Hf Hi.
    induction fuel as [|f IH]; intros n index pred limit wb l Hn Hf Hi Hpred; [lia|].
    cbn [pai_loop]. unfold SEL_MAX_INSERTION.
    destruct (Nat.leb_spec n 10).
    { destruct (Nat.eqb_spec n 0); [lia|]. cbn [negb].
      wp_apply (insertion_sort_shift_left_spec c ans n 1 l); [done|lia| |by auto using upanic_spanic].
      intros [] l' Hl' [Hsp Hso]. split; [by apply (sperm_perm ans)|].
      apply selected_sorted; [|lia]. apply Hso.
      destruct l; [constructor|]. simpl. apply ksorted_singleton. }
    destruct (Nat.eqb_spec limit 0).
    { wp_apply (median_of_medians_spec (bit_length n) n index l);
        [done|apply bit_length_spec|lia|done| |by auto].
      intros [] l' _ [??]. auto. }
    (* break_patterns *)
    apply wp_bind.
    eapply (wp_mono _ _ (λ _ l', l' ≡ₚ l) _ (spanic l)); [| |by auto].
    { destruct wb; [by apply wp_ret|]. apply wp_bind.
      wp_apply (break_patterns_spec ans c n l (spanic l)); [done| |by auto].
      intros [] l' _ Hp. apply wp_usub; [lia|done]. }
    intros limit' l1 Hl1 Hp1.
    apply wp_bind. wp_apply (choose_pivot_spec ans n l1); [lia|lia| |].
    2: { intros e l' _ Hu. eapply upanic_spanic, upanic_perm; eauto. }
    intros [pivot likely] l3 Hl3 [Hp3 Hpiv]. rewrite Hp1 in Hp3.
    destruct (lookup_lt_is_Some_2 l3 pivot) as [p Hp]; [lia|].
    assert (Hpred3 : ∀ q, pred = Some q → Forall (kle q) l3).
    { intros q Hq. rewrite Hp3. auto. }
    apply wp_bind.
    eapply (wp_mono _ _ (λ b l', l' = l3 ∧ (b = true → ∃ q, pred = Some q ∧ kle p q))
       _ (spanic l)); [| |by auto].
    { destruct pred as [q|]; [|by apply wp_ret].
      apply wp_bind, wp_get; [lia|lia|]. intros x Hx. rewrite Hp in Hx. injection Hx as <-.
      apply wp_bind, wp_is_less; [|intros Hr; by eapply upanic_spanic, upanic_intro].
      intros r Hr. apply wp_ret. split; [done|]. intros Hb. exists q. split; [done|].
      apply ans_false. by destruct r. }
    intros eq l' _ [-> Heq]. destruct eq.
    { destruct (Heq eq_refl) as (q & Hq & Hpq).
      apply wp_bind. wp_apply (partition_equal_spec ans n pivot l3 p); [lia|done| |].
      2: { intros e l' _ Hu. eapply upanic_spanic, upanic_perm; eauto. }
      intros mid l4 Hl4 (Hp4 & Hmid & Hmid0 & Hlo & Hhi).
      specialize (Hmid0 ltac:(lia)). specialize (Hhi ltac:(lia)).
      apply rng_take in Hlo. apply rng_drop in Hhi; [|lia].
      assert (Hpred4 : Forall (kle q) l4) by (rewrite Hp4; auto).
      destruct (Nat.ltb_spec index mid).
      { apply wp_ret. split; [by rewrite Hp4|].
        destruct (lookup_lt_is_Some_2 l4 index) as [y Hy]; [lia|].
        exists y. split; [done|].
        assert (Hyq : kle q y).
        { eapply Forall_lookup_1; [exact Hpred4|exact Hy]. }
        assert (Hyp : kle y p).
        { apply (Forall_lookup_1 _ _ index y Hlo). by rewrite lookup_take by lia. }
        assert (Hall : rng (λ x, kle x p) l4 0 mid).
        { intros i x Hi' Hx. apply (Forall_lookup_1 _ _ i x Hlo). by rewrite lookup_take by lia. }
        split.
        - apply rng_take. intros i x Hi' Hx.
          apply (kle_trans ans _ p); [apply (Hall i); [lia|done]|].
          by apply (kle_trans ans _ q).
        - apply (rng_drop _ _ _ n); [lia|]. intros i x Hi' Hx.
          destruct (decide (i < mid)).
          + apply (kle_trans ans _ p); [done|]. apply (kle_trans ans _ q); [done|].
            eapply Forall_lookup_1; [exact Hpred4|exact Hx].
          + apply (kle_trans ans _ p); [done|]. apply klt_kle.
            apply (Forall_lookup_1 _ _ (i - mid) x Hhi). rewrite lookup_drop.
            rewrite <-Hx. f_equal. lia. }
      apply wp_bind, wp_usub; [done|].
      assert (Hl4' : l4 = take mid l4 ++ drop mid l4 ++ []).
      { by rewrite app_nil_r, take_drop. }
      assert (Hlt : length (take mid l4) = mid) by (rewrite take_length; lia).
      assert (Hld : length (drop mid l4) = n - mid) by (rewrite drop_length; lia).
      rewrite Hl4' at 1.
      apply wp_slice_app; [done|rewrite Hld; lia|lia|].
      wp_apply (IH (length (drop mid l4)) (index - mid) None limit' wb (drop mid l4));
        [done|lia|lia|done| |].
      - intros [] m Hlm [Hpm Hsm] _. rewrite app_nil_r.
        split; [rewrite Hpm, take_drop; by rewrite Hp4|].
        apply selected_inv in Hsm as (A & x & B & -> & HlA & HA & HB).
        replace (take mid l4 ++ A ++ x :: B) with ((take mid l4 ++ A) ++ x :: B)
          by (by rewrite <-app_assoc).
        replace index with (length (take mid l4 ++ A)) by (rewrite app_length; lia).
        apply selected_app; [|done]. apply Forall_app. split; [|done].
        assert (Hxp : kle p x).
        { apply klt_kle. eapply Forall_forall; [exact Hhi|]. rewrite <-Hpm.
          apply elem_of_app. right. left. }
        eapply Forall_impl; [exact Hlo|]. intros y Hy. by apply (kle_trans ans _ p).
      - intros e m Hlm (Hpm & He) _. rewrite app_nil_r. split; [|done].
        rewrite Hpm, take_drop. by rewrite Hp4. }
    apply wp_bind. wp_apply (partition_spec c ans n pivot l3 p); [lia|done| |].
    2: { intros e l' _ Hu. eapply upanic_spanic, upanic_perm; eauto. }
    intros [mid was_p] l4 Hl4 (Hp4 & Hmp & Hlo & Hhi).
    pose proof (lookup_lt_Some _ _ _ Hmp) as Hmid.
    apply rng_take in Hlo. apply rng_drop in Hhi; [|lia].
    apply wp_bind, wp_usub; [lia|].
    apply wp_bind, wp_slice; [lia|lia|lia|].
    apply wp_slice_check; [lia|lia|rewrite sub_length; lia|]. intros Hls.
    assert (Hwhole : take mid l4 ++ take (n - mid) (drop mid l4) ++ drop n l4 = l4).
    { rewrite (drop_ge l4 n) by lia. rewrite app_nil_r.
      rewrite (take_ge (drop mid l4)) by (rewrite drop_length; lia). by rewrite take_drop. }
    rewrite Hwhole. clear Hls Hwhole.
    apply wp_bind, wp_get; [lia|lia|]. intros p' Hp'. rewrite Hmp in Hp'. injection Hp' as <-.
    assert (Hp04 : l4 ≡ₚ l) by (by rewrite Hp4).
    assert (Hpred4 : ∀ q, pred = Some q → Forall (kle q) l4).
    { intros q Hq. rewrite Hp4. auto. }
    clear Hp4 Heq Hpred3 Hp3 Hp.
    set (A := take mid l4) in *. set (B := drop (S mid) l4) in *.
    assert (Hl4e : l4 = A ++ p :: B) by (by apply bound_split).
    assert (HlA : length A = mid) by (unfold A; rewrite take_length; lia).
    assert (HlB : length B = n - (mid + 1)) by (unfold B; rewrite drop_length; lia).
    clearbody A B. subst l4.
    assert (HloA : Forall (λ x, kle x p) A).
    { eapply Forall_impl; [exact Hlo|]. intros y. by apply klt_kle. }
    destruct (Nat.compare_spec mid index) as [->|Hmi|Hmi].
    - apply wp_ret. split; [done|]. rewrite <-HlA. by apply selected_app.
    - apply wp_bind, wp_usub; [lia|].
      replace (A ++ p :: B) with ((A ++ [p]) ++ B ++ []) by (by rewrite app_nil_r, <-app_assoc).
      apply wp_slice_app; [rewrite app_length; simpl; lia|lia|lia|].
      wp_apply (IH (length B) (index - (mid + 1)) (Some p) limit'
                  (n / 8 <=? Nat.min mid (n - mid)) B); [done|lia|lia| | |].
      + intros q Hq. by injection Hq as <-.
      + intros [] B' _ [HpB HsB] _. rewrite app_nil_r, <-app_assoc. simpl.
        split; [by rewrite HpB|].
        replace index with (length A + 1 + (index - (mid + 1))) by lia.
        apply selected_right; [done|by rewrite HpB|done].
      + intros e B' _ (HpB & He) _. rewrite app_nil_r, <-app_assoc. simpl.
        split; [by rewrite HpB|done].
    - change (A ++ p :: B) with ([] ++ A ++ p :: B).
      apply wp_slice_app; [done|simpl; lia|lia|].
      wp_apply (IH (length A) index pred limit'
                  (n / 8 <=? Nat.min mid (n - mid)) A); [done|lia|lia| | |].
      + intros q Hq. specialize (Hpred4 q Hq). by apply Forall_app in Hpred4 as [? _].
      + intros [] A' _ [HpA HsA] _. simpl. split; [by rewrite HpA|].
        apply selected_left; [by rewrite HpA|done|done].
      + intros e A' _ (HpA & He) _. simpl. split; [by rewrite HpA|done].
  Qed.

  (** The outcome of [partition_at_index] for any index. *)
  Definition parts (n index : nat) : (nat * nat) * nat * (nat * nat) :=
    ((0, index), index, (index + 1, n - (index + 1))).

  Lemma partition_at_index_spec n index l :
    n = length l →
    wp ans (partition_at_index c n index)
      (λ r l', l' ≡ₚ l ∧ index < n ∧ r = parts n index ∧ (zst c = false → selected l' index))
      (λ e l', spanic l e l' ∧ index < n ∨ e = AssertPanic ∧ n ≤ index ∧ l' = l) l.
  Proof.
    intros Hn. unfold partition_at_index. destruct (Nat.leb_spec n index) as [Hni|Hni].
    { apply wp_throw. auto. }
    apply wp_bind.
    eapply (wp_mono _ _ (λ _ l', l' ≡ₚ l ∧ (zst c = false → selected l' index)) _ (spanic l));
      [| |by auto].
    { destruct (zst c) eqn:Hz; [by apply wp_ret|].
      destruct (Nat.eqb_spec index (n - 1)).
      { wp_apply (max_select_spec n index l); [done|lia|done| |by auto using upanic_spanic].
        intros [] l' _ [??]. auto. }
      destruct (Nat.eqb_spec index 0) as [->|].
      { wp_apply (min_select_spec n l); [done|lia| |by auto using upanic_spanic].
        intros [] l' _ [??]. auto. }
      wp_apply (pai_loop_spec (S n) n index None SEL_LIMIT true l); [done|lia|done|done|done| |by auto].
      intros [] l' _ [??]. auto. }
    intros [] l1 Hl1 [Hp1 Hsel].
    unfold split_at, index0. simpl.
    rewrite (proj2 (Nat.leb_le index n)) by lia. apply wp_bind, wp_ret. simpl.
    rewrite (proj2 (Nat.leb_le 1 (n - index))) by lia. apply wp_bind, wp_ret. simpl.
    destruct (Nat.eqb_spec 1 0); [lia|]. apply wp_bind, wp_ret, wp_ret.
    split; [done|]. split; [done|]. split; [|done].
    unfold parts. by rewrite <-Nat.sub_add_distr.
  Qed.
End select.
