(** * TDebugOrder: lengths for which the selection needs no fallback if the closure
    is a strict weak order.

    The pivot is a median of three elements, so each partition but those of equal
    elements takes away two elements or more. *)
From Verif Require Export TDebug.
From stdpp Require Import list.

Section order.
  Context {T : Type} (c : cfg) (lt : T → T → bool).
  Hypothesis Hswo : strict_weak_order lt.
  Implicit Types (l A B : list T).
  Notation ans := (ans_lt lt).
  Notation user := (λ (e : exn) (_ : list T), e = UserPanic).

  (** [z] lies between two other elements. *)
  Definition middle (l : list T) (z : T) : Prop :=
    ∃ x y rest, l ≡ₚ z :: x :: y :: rest ∧ lt z x = false ∧ lt y z = false.

  Lemma three_of l a b d x y z :
    a ≠ b → a ≠ d → b ≠ d → l !! a = Some x → l !! b = Some y → l !! d = Some z →
    ∃ rest, l ≡ₚ x :: y :: z :: rest.
  Proof.
    intros Hab Had Hbd Hx Hy Hz.
    assert (∀ l i j x y, i ≠ j → l !! i = Some x → l !! j = Some y → delete i l !! (if decide (i < j) then j - 1 else j) = Some y) as Hdel.
    { clear. intros l i j x y Hij Hi Hj. destruct (decide (i < j)).
      - rewrite lookup_delete_ge by lia. replace (S (j - 1)) with j by lia. done.
      - by rewrite lookup_delete_lt by lia. }
    pose proof (delete_Permutation _ _ _ Hx) as H1.
    pose proof (Hdel _ _ _ _ _ Hab Hx Hy) as Hy1. pose proof (Hdel _ _ _ _ _ Had Hx Hz) as Hz1.
    pose proof (delete_Permutation _ _ _ Hy1) as H2.
    eapply (Hdel _ _ _ _ _) in Hz1 as Hz2; [|shelve|exact Hy1].
    pose proof (delete_Permutation _ _ _ Hz2) as H3.
    eexists. rewrite H1, H2, H3. reflexivity.
    Unshelve. repeat case_decide; lia.
  Qed.

  Lemma choose_pivot_middle n l :
    n = length l → 8 ≤ n → n < 50 →
    wp ans (choose_pivot n) (λ '(p, _) l', l' = l ∧ ∃ z, l !! p = Some z ∧ middle l z) user l.
  Proof.
    intros Hn Hn8 Hn50. unfold choose_pivot, SHORTEST_MEDIAN_OF_MEDIANS.
    rewrite (proj2 (Nat.leb_le 8 n) Hn8), (proj2 (Nat.leb_gt 50 n) Hn50).
    pose proof (Nat.div_mod n 4 ltac:(lia)). pose proof (Nat.mod_upper_bound n 4 ltac:(lia)).
    set (a := n / 4) in *. set (b := a * 2). set (d := a * 3).
    destruct (lookup_lt_is_Some_2 l a) as [x Hx]; [lia|].
    destruct (lookup_lt_is_Some_2 l b) as [y Hy]; [lia|].
    destruct (lookup_lt_is_Some_2 l d) as [z Hz]; [lia|].
    assert (a ≠ b ∧ a ≠ d ∧ b ≠ d) as (Hab & Had & Hbd) by lia.
    assert (∀ p q u v s, p < n → q < n → l !! p = Some u → l !! q = Some v →
      wp ans (sort2 n p q s) (λ r l', l' = l ∧ r = if lt v u then (q, p, S s) else (p, q, s)) user l) as Hsort2.
    { intros p q u v s Hp Hq Hu Hv. unfold sort2.
      apply wp_bind, wp_uget; [lia|lia|]. intros v' Hv'. rewrite Hv in Hv'. injection Hv' as <-.
      apply wp_bind, wp_uget; [lia|lia|]. intros u' Hu'. rewrite Hu in Hu'. injection Hu' as <-.
      apply wp_bind, wp_is_less; [|done]. intros r Hr. injection Hr as ->.
      apply wp_ret. split; [done|]. by destruct (lt v u). }
    apply wp_bind.
    eapply (wp_mono _ _ (λ '(p, s) l', l' = l ∧ s < 12 ∧ ∃ z, l !! p = Some z ∧ middle l z) _ user); [| |by auto].
    2: { intros [p s] l' _ (-> & Hs & Hm). unfold MAX_SWAPS.
         rewrite (proj2 (Nat.ltb_lt s 12) Hs). by apply wp_ret. }
    apply wp_bind, wp_ret. cbn beta iota zeta.
    apply wp_bind. unfold sort3. 
    assert (Hasym : ∀ u v, lt u v = true → lt v u = false).
    { intros u v Huv. destruct (lt v u) eqn:Hvu; [|done].
      pose proof (swo_trans _ Hswo _ _ _ Huv Hvu) as H1. by rewrite (swo_irrefl _ Hswo) in H1. }
    apply wp_bind. wp_apply (Hsort2 a b x y 0); [lia|lia|done|done| |by auto].
    intros r l' _ [-> ->]. destruct (lt y x) eqn:E1; cbn beta iota zeta.
    - apply wp_bind. wp_apply (Hsort2 a d x z 1); [lia|lia|done|done| |by auto].
      intros r l' _ [-> ->]. destruct (lt z x) eqn:E2; cbn beta iota zeta.
      + apply wp_bind. wp_apply (Hsort2 b d y z 2); [lia|lia|done|done| |by auto].
        intros r l' _ [-> ->]. destruct (lt z y) eqn:E3; cbn beta iota zeta.
        * do 2 apply wp_ret. split; [done|]. split; [lia|]. exists y. split; [done|].
          destruct (three_of l b d a y z x) as [rest Hr]; auto. exists z, x, rest. auto.
        * do 2 apply wp_ret. split; [done|]. split; [lia|]. exists z. split; [done|].
          destruct (three_of l d b a z y x) as [rest Hr]; auto. exists y, x, rest. auto.
      + apply wp_bind. wp_apply (Hsort2 b a y x 1); [lia|lia|done|done| |by auto].
        intros r l' _ [-> ->]. rewrite (Hasym _ _ E1). cbn beta iota zeta.
        do 2 apply wp_ret. split; [done|]. split; [lia|]. exists x. split; [done|].
        destruct (three_of l a b d x y z) as [rest Hr]; auto. exists y, z, rest. auto.
    - apply wp_bind. wp_apply (Hsort2 b d y z 0); [lia|lia|done|done| |by auto].
      intros r l' _ [-> ->]. destruct (lt z y) eqn:E2; cbn beta iota zeta.
      + apply wp_bind. wp_apply (Hsort2 a d x z 1); [lia|lia|done|done| |by auto].
        intros r l' _ [-> ->]. destruct (lt z x) eqn:E3; cbn beta iota zeta.
        * do 2 apply wp_ret. split; [done|]. split; [lia|]. exists x. split; [done|].
          destruct (three_of l a d b x z y) as [rest Hr]; auto. exists z, y, rest. auto.
        * do 2 apply wp_ret. split; [done|]. split; [lia|]. exists z. split; [done|].
          destruct (three_of l d a b z x y) as [rest Hr]; auto. exists x, y, rest. auto.
      + apply wp_bind. wp_apply (Hsort2 a b x y 0); [lia|lia|done|done| |by auto].
        intros r l' _ [-> ->]. rewrite E1. cbn beta iota zeta.
        do 2 apply wp_ret. split; [done|]. split; [lia|]. exists y. split; [done|].
        destruct (three_of l b a d y x z) as [rest Hr]; auto. exists x, z, rest. auto.
  Qed.

  Section loop.
    Context (G : nat → bool → option T → list T → Prop).
    Notation less limit wb := (if wb : bool then limit%nat else limit%nat - 1).
    Hypothesis G_zero : ∀ wb pred l, G 0 wb pred l → length l ≤ 10.
    Hypothesis G_small : ∀ limit wb pred l, G limit wb pred l → length l < 50.
    Hypothesis G_perm : ∀ limit wb pred l l', l' ≡ₚ l → G limit wb pred l → G limit wb pred l'.
    Hypothesis G_equal : ∀ limit wb q l z A B,
      G limit wb (Some q) l → limit ≠ 0 → middle l z → lt q z = false → l ≡ₚ A ++ B →
      Forall (λ x, lt z x = false) A → Forall (λ x, lt z x = true) B →
      G (less limit wb) wb None B.
    Hypothesis G_split : ∀ limit wb pred l z A B,
      G limit wb pred l → limit ≠ 0 → middle l z → (∀ q, pred = Some q → lt q z = true) →
      l ≡ₚ A ++ z :: B → Forall (λ x, lt x z = true) A → Forall (λ x, lt x z = false) B →
      let wb' := length l / 8 <=? Nat.min (length A) (length l - length A) in
      G (less limit wb) wb' (Some z) B ∧ G (less limit wb) wb' pred A.

    Lemma rng_Forall (P : T → Prop) l a b :
      rng P l a b → Forall P (take (b - a) (drop a l)).
    Proof.
      intros Hr. apply Forall_lookup. intros i x Hx.
      apply lookup_take_Some in Hx as [Hx Hi]. rewrite lookup_drop in Hx.
      apply (Hr (a + i)); [lia|done].
    Qed.

    Lemma pai_loop_order fuel n index pred limit wb l :
      n = length l → n < fuel → index < n → G limit wb pred l →
      wp ans (pai_loop c fuel n index pred limit wb) (λ _ _, True) user l.
    Proof.
      intros Hn Hf Hi. revert n index pred limit wb l Hn Hf Hi.
      induction fuel as [|f IH]; intros n index pred limit wb l Hn Hf Hi HG; [lia|].
      cbn [pai_loop]. unfold SEL_MAX_INSERTION.
      destruct (Nat.leb_spec n 10).
      { destruct (Nat.eqb_spec n 0); [lia|]. cbn [negb].
        wp_apply (insertion_sort_shift_left_spec c ans n 1 l); [done|lia|done|].
        intros e l' _. apply upanic_user. }
      destruct (Nat.eqb_spec limit 0) as [->|Hl0].
      { apply G_zero in HG. lia. }
      apply wp_bind.
      eapply (wp_mono _ _ (λ r l', l' ≡ₚ l ∧ r = if wb then limit else limit - 1) _ user); [| |by auto].
      { destruct wb; [by apply wp_ret|]. apply wp_bind.
        wp_apply (break_patterns_spec ans c n l user); [done| |by auto].
        intros [] l' _ Hp. apply wp_usub; [lia|done]. }
      intros limit' l1 Hl1 [Hp1 ->].
      apply (G_perm _ _ _ _ _ Hp1) in HG. pose proof (G_small _ _ _ _ HG) as H50.
      apply wp_bind. wp_apply (choose_pivot_middle n l1); [lia|lia|lia| |by auto].
      intros [pivot likely] l2 Hl2 (-> & z & Hz & Hmid).
      apply wp_bind.
      eapply (wp_mono _ _ (λ b l', l' = l1 ∧
        if b : bool then ∃ q, pred = Some q ∧ lt q z = false else ∀ q, pred = Some q → lt q z = true) _ user); [| |by auto].
      { destruct pred as [q|]; [|apply wp_ret; by split].
        pose proof (lookup_lt_Some _ _ _ Hz).
        apply wp_bind, wp_get; [lia|lia|]. intros x Hx. rewrite Hz in Hx. injection Hx as <-.
        apply wp_bind, wp_is_less; [|done]. intros r Hr. injection Hr as ->. apply wp_ret.
        split; [done|]. destruct (lt q z) eqn:E; cbn [negb]; [|eauto]. by intros q' [= <-]. }
      intros eq l' _ [-> Heq]. destruct eq.
      { destruct Heq as (q & -> & Hq).
        apply wp_bind. wp_apply (partition_equal_spec ans n pivot l1 z); [lia|done| |].
        2: { intros e l' _. apply upanic_user. }
        intros mid l3 Hl3 (Hp3 & Hmn & Hmid0 & HA & HB).
        specialize (Hmid0 ltac:(lia)). specialize (HB ltac:(lia)).
        destruct (Nat.ltb_spec index mid); [by apply wp_ret|].
        apply wp_bind, wp_usub; [done|].
        apply wp_slice; [lia|lia|lia|].
        eapply wp_mono; [apply IH; [rewrite sub_length; lia|lia|lia|]|done|done].
        apply rng_Forall in HA. apply rng_Forall in HB.
        rewrite (drop_0 l3), Nat.sub_0_r in HA.
        apply (G_equal _ _ q l1 z (take mid l3)); [done|done|done|done| | |].
        - rewrite (take_ge (drop mid l3)) by (rewrite drop_length; lia).
          by rewrite take_drop.
        - eapply Forall_impl; [exact HA|]. intros x. by apply kle_lt.
        - eapply Forall_impl; [exact HB|]. intros x. by apply klt_lt. }
      apply wp_bind. wp_apply (partition_spec c ans n pivot l1 z); [lia|done| |].
      2: { intros e l' _. apply upanic_user. }
      intros [mid was_p] l3 Hl3 (Hp3 & Hmp & HA & HB).
      pose proof (lookup_lt_Some _ _ _ Hmp) as Hm.
      apply wp_bind, wp_usub; [lia|].
      apply wp_bind, wp_slice; [lia|lia|lia|].
      apply wp_slice_check; [lia|lia|rewrite sub_length; lia|]. intros Hls.
      assert (Hwhole : take mid l3 ++ take (n - mid) (drop mid l3) ++ drop n l3 = l3).
      { rewrite (drop_ge l3 n) by lia. rewrite app_nil_r.
        rewrite (take_ge (drop mid l3)) by (rewrite drop_length; lia). by rewrite take_drop. }
      rewrite Hwhole. clear Hls Hwhole.
      apply wp_bind, wp_get; [lia|lia|]. intros p' Hp'. rewrite Hmp in Hp'. injection Hp' as <-.
      apply rng_Forall in HA. apply rng_Forall in HB.
      rewrite (drop_0 l3), Nat.sub_0_r in HA.
      destruct (G_split _ _ pred l1 z (take mid l3) (drop (S mid) l3) HG Hl0 Hmid Heq) as [HGB HGA].
      { rewrite <-Hp3 at 1. by rewrite (take_drop_middle _ _ _ Hmp). }
      { eapply Forall_impl; [exact HA|]. intros x. by apply klt_lt. }
      { rewrite take_ge in HB by (rewrite drop_length; lia).
        eapply Forall_impl; [exact HB|]. intros x. by apply kle_lt. }
      rewrite take_length in HGA, HGB.
      replace (length l1) with n in HGA, HGB by lia. rewrite (Nat.min_l mid (length l3)) in HGA, HGB by lia.
      destruct (Nat.compare_spec mid index) as [->|Hmi|Hmi].
      - by apply wp_ret.
      - apply wp_bind, wp_usub; [lia|].
        apply wp_slice; [lia|lia|lia|].
        eapply wp_mono; [apply IH; [rewrite sub_length; lia|lia|lia|]|done|done].
        rewrite (take_ge (drop _ l3)) by (rewrite drop_length; lia).
        by rewrite Nat.add_1_r.
      - apply wp_slice; [lia|lia|lia|].
        eapply wp_mono; [apply IH; [rewrite sub_length; lia|lia|lia|]|done|done].
        by rewrite (drop_0 l3), Nat.sub_0_r.
    Qed.
  End loop.

  Lemma split_sizes l z A B :
    middle l z → l ≡ₚ A ++ z :: B → Forall (λ x, lt x z = true) A → Forall (λ x, lt x z = false) B →
    length l = S (length A + length B) ∧ 1 ≤ length B ∧
    (1 ≤ length A ∨ ∃ x, x ∈ B ∧ lt z x = false).
  Proof.
    intros (x & y & rest & Hmid & Hx & Hy) HAB HA HB.
    pose proof (Permutation_length HAB) as Hlen. rewrite app_length in Hlen. cbn [length] in Hlen.
    split; [lia|].
    assert (Hrest : A ++ B ≡ₚ x :: y :: rest).
    { apply (Permutation_cons_inv (a:=z)). rewrite <-Hmid, HAB. by rewrite Permutation_middle. }
    split.
    - assert (countb (λ a, negb (lt a z)) (A ++ B) = countb (λ a, negb (lt a z)) (x :: y :: rest)) as Hc
        by (by apply countb_perm).
      rewrite countb_app, (countb_none _ A) in Hc
        by (eapply Forall_impl; [exact HA|]; cbn beta; intros ? ->; done).
      pose proof (countb_le (λ a, negb (lt a z)) B).
      cbn [countb] in Hc. rewrite Hy in Hc. cbn [negb] in Hc. lia.
    - destruct A as [|a A]; [right|left; cbn; lia].
      exists x. split; [|done]. cbn in Hrest. rewrite Hrest. by left.
  Qed.

  (** ** Elements of which no two are equal *)

  Definition apart (l : list T) : Prop :=
    ∀ x y rest, l ≡ₚ x :: y :: rest → lt x y = true ∨ lt y x = true.
  Definition near3 (n limit : nat) (wb : bool) : Prop :=
    n ≤ 10 ∨ 1 ≤ limit ∧ if wb then n ≤ 13 + 2 * limit else n ≤ 12 ∨ 2 ≤ limit ∧ n ≤ 11 + 2 * limit.
  Definition apart_state (limit : nat) (wb : bool) (pred : option T) (l : list T) : Prop :=
    limit ≤ 16 ∧ apart l ∧ (∀ q, pred = Some q → Forall (λ x, lt q x = true) l) ∧
    near3 (length l) limit wb.

  Lemma near3_next n n' limit wb (wb' : bool) :
    near3 n limit wb → limit ≠ 0 → n' + 2 ≤ n → (wb' = true ∨ 16 ≤ n) →
    near3 n' (if wb then limit else limit - 1) wb'.
  Proof. unfold near3. intros Hn Hl Hn' Hw. destruct wb, wb'; naive_solver lia. Qed.

  Lemma apart_app l A B : apart l → l ≡ₚ A ++ B → apart A.
  Proof. intros Hl HAB x y rest HA. apply (Hl x y (rest ++ B)). by rewrite HAB, HA. Qed.

  Lemma apart_state_split limit wb pred l z A B :
    apart_state limit wb pred l → limit ≠ 0 → middle l z → (∀ q, pred = Some q → lt q z = true) →
    l ≡ₚ A ++ z :: B → Forall (λ x, lt x z = true) A → Forall (λ x, lt x z = false) B →
    let wb' := length l / 8 <=? Nat.min (length A) (length l - length A) in
    apart_state (if wb then limit else limit - 1) wb' (Some z) B ∧
    apart_state (if wb then limit else limit - 1) wb' pred A.
  Proof.
    intros (Hl & Hap & Hpred & Hn) Hl0 Hmid Hq HAB HA HB wb'.
    destruct (split_sizes l z A B Hmid HAB HA HB) as (Hlen & HB1 & HA1).
    assert (HzB : Forall (λ x, lt z x = true) B).
    { apply Forall_forall. intros x Hx. pose proof (proj1 (Forall_forall _ _) HB x Hx) as Hxz.
      apply elem_of_Permutation in Hx as [B' HB'].
      destruct (Hap z x (A ++ B')) as [|?]; [|done|congruence].
      rewrite HAB, HB'. by rewrite <-!Permutation_middle. }
    assert (1 ≤ length A) as H1.
    { destruct HA1 as [|(x & Hx & Hzx)]; [done|]. pose proof (proj1 (Forall_forall _ _) HzB x Hx).
      cbn beta in *. congruence. }
    assert (wb' = true ∨ 16 ≤ length l) as Hwb.
    { destruct (decide (16 ≤ length l)); [by right|left]. apply Nat.leb_le.
      assert (length l / 8 < 2) by (apply Nat.div_lt_upper_bound; lia). lia. }
    split; (split; [destruct wb; lia|]).
    - split; [apply (apart_app l B (A ++ [z])); [done|]|].
      { rewrite HAB. rewrite (cons_middle z A B), (assoc (++)). apply Permutation_app_comm. }
      split; [by intros q [= <-]|]. eapply near3_next; [exact Hn|done|lia|done].
    - split; [by apply (apart_app l A (z :: B))|].
      split; [intros q Hpq; specialize (Hpred q Hpq); rewrite HAB in Hpred; by apply Forall_app in Hpred as [??]|].
      eapply near3_next; [exact Hn|done|lia|done].
  Qed.

  Lemma pai_loop_apart n index l :
    n = length l → index < n → n ≤ 45 → apart l →
    wp ans (pai_loop c (S n) n index None SEL_LIMIT true) (λ _ _, True) user l.
  Proof.
    intros Hn Hi H45 Hap. apply (pai_loop_order apart_state).
    - intros wb pred l' (_ & _ & _ & [?|[? _]]); lia.
    - intros limit wb pred l' (Hl & _ & _ & [?|[_ Hm]]); [lia|]. destruct wb; lia.
    - intros limit wb pred l1 l2 Hp (Hl & Ha & Hpred & Hm). split; [done|].
      split; [intros x y rest Hr; apply (Ha x y rest); by rewrite <-Hp|].
      split; [intros q Hq; rewrite Hp; by apply Hpred|]. by rewrite (Permutation_length Hp).
    - intros limit wb q l' z A B (_ & _ & Hpred & _) _ (x & y & rest & Hmid & _) Hqz.
      specialize (Hpred q eq_refl). rewrite Hmid in Hpred. apply Forall_cons in Hpred as [? _]. congruence.
    - apply apart_state_split.
    - done.
    - lia.
    - done.
    - split; [done|]. split; [done|]. split; [done|]. right. unfold SEL_LIMIT. lia.
  Qed.

  Lemma pairwise_apart l :
    (∀ i j x y, i ≠ j → l !! i = Some x → l !! j = Some y → lt x y = true ∨ lt y x = true) →
    apart l.
  Proof.
    intros Hl x y rest Hp. symmetry in Hp. apply Permutation_inj in Hp as (_ & f & Hf & Hlook).
    pose proof (Hlook 0) as H0. pose proof (Hlook 1) as H1. cbn in H0, H1.
    apply (Hl (f 0) (f 1)); [|done|done]. intros E. by apply Hf in E.
  Qed.
End order.
