(** * Proofs about [partition], [reverse], [break_patterns] and [choose_pivot]. *)
From Verif Require Export PBlocks.
From stdpp Require Import list.

Section partition.
  Context {T : Type} (c : cfg) (ans : T * T → option bool → Prop).
  Notation kle := (kle ans).
  Notation klt := (klt ans).
  Implicit Types (m : list T).

  Lemma pt_scan_l_spec fuel n pivot a r m :
    n = length m → a ≤ r → r ≤ n → r < fuel + a →
    wp ans (pt_scan_l fuel n pivot a r)
      (λ a' m', m' = m ∧ a ≤ a' ≤ r ∧ rng (λ x, klt x pivot) m a a')
      (upanic ans m) m.
  Proof.
    intros Hn. revert a. induction fuel as [|f IH]; intros a Ha Hr Hf; [lia|]. simpl.
    destruct (Nat.ltb_spec a r).
    - apply wp_bind, wp_uget; [lia|lia|]. intros x Hx.
      apply wp_bind, wp_is_less; [|intros Hr'; by eapply upanic_intro].
      intros [] Hb.
      + wp_apply (IH (S a)); [lia|lia|lia| |by auto].
        intros a' l' _ (-> & Ha' & Hrn). repeat split; [lia|lia|].
        eapply rng_cons; [done|done|by apply ans_true].
      + apply wp_ret. repeat split; [lia|lia|apply rng_nil; lia].
    - apply wp_ret. repeat split; [lia|lia|apply rng_nil; lia].
  Qed.

  Lemma pt_scan_r_spec fuel n pivot a r m :
    n = length m → a ≤ r → r ≤ n → r < fuel + a →
    wp ans (pt_scan_r fuel n pivot a r)
      (λ r' m', m' = m ∧ a ≤ r' ≤ r ∧ rng (λ x, kle pivot x) m r' r)
      (upanic ans m) m.
  Proof.
    intros Hn. revert r. induction fuel as [|f IH]; intros r Ha Hr Hf; [lia|]. simpl.
    destruct (Nat.ltb_spec a r).
    - apply wp_bind, wp_usub; [lia|].
      apply wp_bind, wp_uget; [lia|lia|]. intros x Hx.
      apply wp_bind, wp_is_less; [|intros Hr'; by eapply upanic_intro].
      intros [] Hb.
      + apply wp_ret. repeat split; [lia|lia|apply rng_nil; lia].
      + wp_apply (IH (r - 1)); [lia|lia|lia| |by auto].
        intros r' l' _ (-> & Hr' & Hrn). repeat split; [lia|lia|].
        replace r with (S (r - 1)) by lia.
        eapply rng_snoc; [done|done|by apply ans_false].
    - apply wp_ret. repeat split; [lia|lia|apply rng_nil; lia].
  Qed.

  Lemma partition_spec n pivot l p :
    n = length l → l !! pivot = Some p →
    wp ans (MPartition.partition c n pivot)
      (λ '(mid, _) l', l' ≡ₚ l ∧ l' !! mid = Some p ∧
                 rng (λ x, klt x p) l' 0 mid ∧ rng (λ x, kle p x) l' (S mid) n)
      (upanic ans l) l.
  Proof.
    intros Hn Hp. pose proof (lookup_lt_Some _ _ _ Hp) as Hpl.
    unfold MPartition.partition.
    apply wp_bind, wp_swap; [lia|lia|lia|].
    pose proof (swapl_perm 0 pivot l) as Hsp. specialize (Hsp ltac:(lia) ltac:(lia)).
    assert (Hl1 : swapl 0 pivot l !! 0 = Some p).
    { rewrite lookup_swapl by lia. by rewrite decide_True. }
    assert (Hln : length (swapl 0 pivot l) = n) by (by rewrite swapl_length).
    destruct (swapl 0 pivot l) as [|p' m]; [done|]. injection Hl1 as ->.
    simpl in Hln.
    apply wp_bind, wp_slice_check; [lia|lia|simpl; lia|].
    apply wp_bind, wp_get; [lia|simpl; lia|]. intros tmp Ht. injection Ht as <-.
    apply wp_bind, wp_on_unwind.
    assert (Hm : p :: m = [p] ++ m ++ []) by (by rewrite app_nil_r).
    rewrite Hm at 1.
    apply wp_slice_app; [done|simpl; lia|lia|].
    assert (HE : ∀ e m', upanic ans m e m' → length m' = length m →
      wp ans (uput n 0 p) (λ _ l', upanic ans l e l') (upanic ans l) ([p] ++ m' ++ [])).
    { intros e m' (He & Hex & Hpm) Hlm. simpl. rewrite app_nil_r.
      apply wp_uput; [lia|simpl; lia|]. simpl. split; [done|]. split; [done|]. by rewrite Hpm. }
    apply wp_bind.
    wp_apply (pt_scan_l_spec (S (length m)) (length m) p 0 (length m) m);
      [done|lia|lia|lia| |intros e m' _; apply HE].
    intros a m' _ (-> & Ha & Hra).
    apply wp_bind.
    wp_apply (pt_scan_r_spec (S (length m)) (length m) p a (length m) m);
      [done|lia|lia|lia| |intros e m' _; apply HE].
    intros r m' _ (-> & Hr & Hrr).
    apply wp_bind, wp_slice; [lia|lia|lia|].
    wp_apply (partition_in_blocks_spec c ans p (r - a) (take (r - a) (drop a m))).
    { rewrite sub_length; lia. }
    2: { intros e m' _ (He & Hex & Hpm) Hlm.
         apply HE. split; [done|]. split; [done|].
         replace r with (a + (r - a)) by lia. apply perm_mid; [lia|done]. }
    intros k m' _ (Hpm & Hk & Hlo & Hhi) Hlm. apply wp_ret. intros Hl2.
    set (m2 := take a m ++ m' ++ drop r m) in *.
    assert (Hm2 : m2 ≡ₚ m).
    { unfold m2. replace r with (a + (r - a)) by lia. apply perm_mid; [lia|done]. }
    assert (Hlook : ∀ i, m2 !! i = if decide (a ≤ i < r) then m' !! (i - a) else m !! i).
    { intros i. unfold m2. replace r with (a + (r - a)) at 1 by lia.
      rewrite lookup_mid by lia. by replace (a + (r - a)) with r by lia. }
    assert (Hlo2 : rng (λ x, klt x p) m2 0 (a + k)).
    { intros i x Hi Hx. rewrite Hlook in Hx. case_decide.
      - apply (Hlo (i - a) x); [lia|done].
      - apply (Hra i x); [lia|done]. }
    assert (Hhi2 : rng (kle p) m2 (a + k) (length m)).
    { intros i x Hi Hx. rewrite Hlook in Hx. case_decide.
      - apply (Hhi (i - a) x); [lia|done].
      - apply (Hrr i x); [lia|done]. }
    clearbody m2. clear Hlook Hlm Hpm Hlo Hhi m'.
    simpl. rewrite app_nil_r.
    apply wp_bind, wp_uput; [lia|simpl; lia|]. simpl.
    apply wp_bind, wp_swap; [lia|lia|simpl; lia|]. apply wp_ret.
    assert (Hlen : length (p :: m2) = n) by (simpl; lia).
    split; [|split; [|split]].
    - rewrite swapl_perm by lia. by rewrite Hm2.
    - rewrite lookup_swapl by lia. destruct (decide (a + k = 0)) as [Heq|Hne].
      + by rewrite Heq.
      + by rewrite decide_True.
    - intros i x Hi Hx. rewrite lookup_swapl in Hx by lia.
      rewrite (decide_False (P := i = a + k)) in Hx by lia.
      destruct (decide (i = 0)) as [->|Hi0].
      + replace (a + k) with (S (a + k - 1)) in Hx by lia. apply (Hlo2 (a + k - 1) x); [lia|done].
      + replace i with (S (i - 1)) in Hx by lia. apply (Hlo2 (i - 1) x); [lia|done].
    - intros i x Hi Hx. rewrite lookup_swapl in Hx by lia.
      rewrite !decide_False in Hx by lia.
      replace i with (S (i - 1)) in Hx by lia. apply (Hhi2 (i - 1) x); [lia|done].
  Qed.
End partition.

Section reverse.
  Context {T Q R : Type} (ans : Q → R → Prop).
  Implicit Types (l : list T) (E : exn → list T → Prop).

  Lemma lookup_rev l i : i < length l → rev l !! i = l !! (length l - S i).
  Proof. intros. rewrite <-reverse_lookup by done. unfold reverse. by rewrite rev_alt. Qed.

  Lemma reverse_spec n l E :
    n = length l →
    wp (R:=R) ans (MPartition.reverse n) (λ _ l', l' = rev l) E l.
  Proof.
    intros Hn. unfold MPartition.reverse. set (half := n / 2).
    assert (Hh : 2 * half ≤ n ∧ n ≤ 2 * half + 1).
    { unfold half. pose proof (Nat.div_mod n 2). pose proof (Nat.mod_upper_bound n 2). lia. }
    eapply wp_mono; [apply (wp_for_up ans 0 half _
      (λ i m, length m = n ∧ ∀ k, k < n → m !! k =
         if decide (k < i ∨ n - i ≤ k) then l !! (n - S k) else l !! k) E)| |by auto].
    - split; [done|]. intros k Hk. by rewrite decide_False by lia.
    - intros i m Hi [Hm Hlk].
      apply wp_bind, wp_usub; [lia|].
      replace (n - half + (half - 1 - i)) with (n - S i) by lia.
      apply wp_swap; [lia|lia|lia|].
      split; [by rewrite swapl_length|].
      intros k Hk. rewrite lookup_swapl by lia. rewrite !Hlk by lia.
      destruct (decide (k = i)) as [->|].
      { rewrite (decide_True (P := i < S i ∨ _)) by lia. by rewrite decide_False by lia. }
      destruct (decide (k = n - S i)) as [->|].
      { rewrite (decide_True (P := n - S i < S i ∨ _)) by lia. rewrite decide_False by lia.
        f_equal. lia. }
      destruct (decide (k < i ∨ n - i ≤ k)).
      + by rewrite decide_True by lia.
      + by rewrite decide_False by lia.
    - intros [] m _ [Hm Hlk]. apply list_eq_same_length with n; [by rewrite rev_length|done|].
      intros i x y Hi Hx Hy. rewrite lookup_rev in Hy by lia. rewrite Hlk in Hx by lia.
      case_decide; rewrite <-?Hn in *.
      + congruence.
      + replace (n - S i) with i in Hy by lia. congruence.
  Qed.

  Lemma break_loop_spec c n pos i cnt seed l l0 E :
    n = length l → 1 < n → 0 < pos → pos + i + cnt ≤ n + 1 → l ≡ₚ l0 →
    wp (R:=R) ans (break_loop c n pos i cnt seed) (λ _ l', l' ≡ₚ l0) E l.
  Proof.
    revert i seed l. induction cnt as [|k IH]; intros i seed l Hn Hn1 Hpos Hi Hp; simpl.
    - by apply wp_ret.
    - set (other := N.to_nat _).
      assert (Ho : other < 2 * n).
      { unfold other. pose proof (N.log2_up_spec (N.of_nat n)) as [H1 H2]; [lia|].
        set (e := N.log2_up (N.of_nat n)) in *.
        assert (He : (0 < e)%N) by (apply N.log2_up_pos; lia).
        assert (H3 : (2 ^ e = 2 * 2 ^ N.pred e)%N).
        { rewrite <-(N.succ_pred e) at 1 by lia. by rewrite N.pow_succ_r'. }
        set (s := gen_usize _ _).
        replace (2 ^ e - 1)%N with (N.ones e) by (rewrite N.ones_equiv; lia).
        rewrite N.land_ones.
        pose proof (N.mod_upper_bound s (2 ^ e)) as H4. 
        assert ((2 ^ e ≠ 0)%N) by (apply N.pow_nonzero; lia).
        specialize (H4 ltac:(done)). lia. }
      apply wp_bind.
      eapply (wp_mono _ _ (λ o l', l' = l ∧ o < n) _ E); [|clearbody other|by auto].
      { destruct (Nat.leb_spec n other); [apply wp_usub|apply wp_ret]; try split; auto; lia. }
      intros o l' _ [-> Hon].
      apply wp_bind, wp_usub; [lia|].
      apply wp_bind, wp_swap; [lia|lia|lia|].
      apply IH; auto.
      + by rewrite swapl_length.
      + lia.
      + rewrite <-Hp. apply swapl_perm; lia.
  Qed.

  Lemma break_patterns_spec c n l E :
    n = length l →
    wp (R:=R) ans (break_patterns c n) (λ _ l', l' ≡ₚ l) E l.
  Proof.
    intros Hn. unfold break_patterns. destruct (Nat.leb_spec 8 n); [|by apply wp_ret].
    pose proof (Nat.div_mod n 4). pose proof (Nat.mod_upper_bound n 4).
    apply break_loop_spec; auto; lia.
  Qed.
End reverse.

Section pivot.
  Context {T : Type} (ans : T * T → option bool → Prop).
  Implicit Types (l : list T).

  Lemma sort2_spec n a b s l :
    n = length l → a < n → b < n →
    wp ans (sort2 n a b s) (λ '(a', b', _) l', l' = l ∧ a' < n ∧ b' < n) (upanic ans l) l.
  Proof.
    intros Hn Ha Hb. unfold sort2.
    apply wp_bind, wp_uget; [lia|lia|]. intros x Hx.
    apply wp_bind, wp_uget; [lia|lia|]. intros y Hy.
    apply wp_bind, wp_is_less; [|intros Hr'; by eapply upanic_intro].
    intros [] _; by apply wp_ret.
  Qed.
  Lemma sort3_spec n a b d s l :
    n = length l → a < n → b < n → d < n →
    wp ans (sort3 n a b d s) (λ '(a', b', d', _) l', l' = l ∧ a' < n ∧ b' < n ∧ d' < n)
      (upanic ans l) l.
  Proof.
    intros Hn Ha Hb Hd. unfold sort3.
    apply wp_bind. wp_apply sort2_spec; [done..| |by auto]. intros [[a1 b1] s1] l' _ (-> & ? & ?).
    apply wp_bind. wp_apply sort2_spec; [done..| |by auto]. intros [[b2 d2] s2] l' _ (-> & ? & ?).
    apply wp_bind. wp_apply sort2_spec; [done..| |by auto]. intros [[a3 b3] s3] l' _ (-> & ? & ?).
    by apply wp_ret.
  Qed.
  Lemma sort_adjacent_spec n a s l :
    n = length l → 0 < a → a + 1 < n →
    wp ans (sort_adjacent n a s) (λ '(a', _) l', l' = l ∧ a' < n) (upanic ans l) l.
  Proof.
    intros Hn Ha Han. unfold sort_adjacent.
    apply wp_bind, wp_usub; [lia|].
    apply wp_bind. wp_apply sort3_spec; [done|lia|lia|lia| |by auto].
    intros [[[a1 b1] d1] s1] l' _ (-> & ? & ? & ?). by apply wp_ret.
  Qed.

  Lemma choose_pivot_spec n l :
    n = length l → 0 < n →
    wp ans (choose_pivot n) (λ '(p, _) l', l' ≡ₚ l ∧ p < n) (upanic ans l) l.
  Proof.
    intros Hn Hn0. unfold choose_pivot.
    pose proof (Nat.div_mod n 4). pose proof (Nat.mod_upper_bound n 4).
    apply wp_bind.
    eapply (wp_mono _ _ (λ '(b, _) l', l' = l ∧ b < n) _ (upanic ans l)); [| |by auto].
    { destruct (Nat.leb_spec 8 n); [|apply wp_ret; split; [done|lia]].
      apply wp_bind.
      eapply (wp_mono _ _ (λ '(a, b, d, _) l', l' = l ∧ a < n ∧ b < n ∧ d < n) _ (upanic ans l));
        [| |by auto].
      { unfold SHORTEST_MEDIAN_OF_MEDIANS. destruct (Nat.leb_spec 50 n).
        - apply wp_bind. wp_apply sort_adjacent_spec; [done|lia|lia| |by auto].
          intros [a1 s1] l' _ (-> & ?).
          apply wp_bind. wp_apply sort_adjacent_spec; [done|lia|lia| |by auto].
          intros [a2 s2] l' _ (-> & ?).
          apply wp_bind. wp_apply sort_adjacent_spec; [done|lia|lia| |by auto].
          intros [a3 s3] l' _ (-> & ?). by apply wp_ret.
        - apply wp_ret. repeat split; lia. }
      intros [[[a b] d] s] l' _ (-> & ? & ? & ?).
      apply wp_bind. wp_apply sort3_spec; [done|lia|lia|lia| |by auto].
      intros [[[a1 b1] d1] s1] l' _ (-> & ? & ? & ?). by apply wp_ret. }
    intros [b s] l' _ (-> & Hb). unfold MAX_SWAPS.
    destruct (Nat.ltb_spec s 12); [by apply wp_ret|].
    apply wp_bind. wp_apply (reverse_spec ans n l (upanic ans l)); [done| |by auto].
    intros [] l' Hl' ->.
    apply wp_bind, wp_usub; [lia|].
    apply wp_bind, wp_usub; [lia|]. apply wp_ret. split; [|lia].
    symmetry. apply Permutation_rev.
  Qed.

  (** [is_sorted] asks about adjacent pairs; see PropSearch for the exact result. *)
End pivot.
