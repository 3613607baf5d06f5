(** * Number of calls made by the selection on arrays with at most eight values.

    At most sixteen partitions may follow each other, so the limit of sixteen is not used
    up and the fallback [median_of_medians] is not entered. *)
From Verif Require Export CFew.
From stdpp Require Import list.

Section few_select.
  Context {T : Type} (c : cfg) (ans : T * T → option bool → Prop) (lt : T → T → bool).
  Hypothesis (Hswo : strict_weak_order lt) (Hcons : consistent ans lt).
  Notation ok := (cnt_ans ans).
  Implicit Types (l : list T).

  Lemma few_step n n' m k0 : n' ≤ n → 0 < m → k0 + 3 * n + n' * (3 * (m - 1) + 9) ≤ k0 + n * (3 * m + 9).
  Proof.
    intros Hn Hm.
    assert (n' * (3 * (m - 1) + 9) ≤ n * (3 * (m - 1) + 9)) by (by apply Nat.mul_le_mono_r).
    replace (3 * m + 9) with (3 + (3 * (m - 1) + 9)) by lia. rewrite Nat.mul_add_distr_l. lia.
  Qed.

  Lemma pai_loop_few fuel n index pred limit wb m l k B :
    n = length l → n < fuel → index < n → zst c = false →
    chain lt m pred l → m ≤ limit → k + n * (3 * m + 9) ≤ B →
    wpg ok (pai_loop c fuel n index pred limit wb)
      (λ _ g _, g ≤ k + n * (3 * m + 9)) (λ _ g _, g ≤ B) k l.
  Proof.
    intros Hn Hf Hi Hz. revert n index pred limit wb m l k Hn Hf Hi.
    induction fuel as [|f IH]; intros n index pred limit wb m l k Hn Hf Hi Hch Hlim HB; [lia|].
    pose proof (chain_nonempty lt _ _ _ Hch ltac:(by intros ->; simpl in Hn; lia)) as Hm.
    cbn [pai_loop]. unfold SEL_MAX_INSERTION.
    assert (Hn12 : n * 12 ≤ n * (3 * m + 9)) by (apply Nat.mul_le_mono_l; lia).
    destruct (Nat.leb_spec n 10).
    { destruct (Nat.eqb_spec n 0); [lia|]. cbn [negb].
      assert ((n - 1) * (n - 1) ≤ 9 * n) by (apply Nat.mul_le_mono; lia).
      eapply wpg_known;
        [|apply (insertion_sort_shift_left_spec c ans n 1 l); [done|lia]| |]; [lia| |].
      { cost_call insertion_sort_shift_left_cost; [lia|]. intros ? ? _ Hcost. exact Hcost. }
      cbv beta. intros; lia. }
    destruct (Nat.eqb_spec limit 0) as [Hl0|Hl0]; [lia|].
    assert (Hlim' : m - 1 ≤ lim wb limit) by (unfold lim; destruct wb; lia).
    (* break_patterns *)
    apply wpg_bind.
    eapply (wpg_known _ _ (λ r k', r = lim wb limit ∧ k' = k) (λ _ l', l' ≡ₚ l) (upanic ans l));
      [lia| | |].
    { destruct wb; [by apply wp_ret|]. apply wp_bind.
      wp_apply (break_patterns_spec ans c n l (upanic ans l)); [done| |by auto].
      intros [] l' _ Hp. apply wp_usub; [lia|done]. }
    { destruct wb; [by apply costs_ret|]. apply costs_bind.
      eapply costs_mono; [apply costs_silent, break_patterns_silent|]. intros [] k' _ ->.
      apply costs_usub. done. }
    intros limit' k' l1 Hl1 [-> ->] Hp1.
    (* choose_pivot *)
    apply wpg_bind.
    eapply wpg_known; [|apply (choose_pivot_spec ans n l1); lia|apply choose_pivot_cost; lia|]; [lia|].
    cbv beta. intros [pivot likely] k2 l2 Hl2 Hk2 [Hp2 Hpiv]. rewrite Hp1 in Hp2.
    destruct (lookup_lt_is_Some_2 l2 pivot) as [p Hp]; [lia|].
    assert (Hpl : p ∈ l) by (rewrite <-Hp2; by eapply elem_of_list_lookup_2).
    (* compare with the predecessor *)
    apply wpg_bind.
    eapply (wpg_known _ _ (λ _ k', k' ≤ k2 + 1)
      (λ b l', l' = l2 ∧ if b : bool then pred ≠ None else ∀ q, pred = Some q → klt ans q p)
      (upanic ans l)); [lia| | |].
    { destruct pred as [q|]; [|by apply wp_ret].
      apply wp_bind, wp_get; [lia|lia|]. intros x Hx. rewrite Hp in Hx. injection Hx as <-.
      apply wp_bind, wp_is_less; [|intros Hr; by eapply upanic_intro].
      intros r Hr. apply wp_ret. split; [done|]. destruct r; cbn [negb]; [|done].
      intros q' [= <-]. by apply ans_true. }
    { repeat cost_step; lia. }
    intros eq k3 l' _ Hk3 [-> Heq]. destruct eq.
    { destruct pred as [q|]; [|done].
      apply wpg_bind.
      eapply wpg_known; [|apply (partition_equal_spec ans n pivot l2 p); [lia|done]|
        apply partition_equal_cost; lia|]; [lia|].
      cbv beta. intros mid k4 l3 Hl3 Hk4 (Hp3 & Hmid & Hmid0 & _ & Hhi).
      specialize (Hmid0 ltac:(lia)). specialize (Hhi ltac:(lia)). apply rng_drop in Hhi; [|lia].
      assert (Hl3' : l3 = take mid l3 ++ drop mid l3 ++ []).
      { by rewrite app_nil_r, take_drop. }
      destruct (Nat.ltb_spec index mid); [apply wpg_ret; lia|].
      apply wpg_bind, wpg_usub; [done|].
      assert (Hlt : length (take mid l3) = mid) by (rewrite take_length; lia).
      assert (Hld : length (drop mid l3) = n - mid) by (rewrite drop_length; lia).
      assert (Hp03 : l3 ≡ₚ l) by (by rewrite Hp3).
      pose proof (chain_equal ans lt Hswo Hcons m q None l l3 p mid Hch Hp03 Hpl Hhi) as Hch'.
      rewrite Hl3' at 1.
      apply wpg_slice_app; [done|rewrite Hld; lia|lia|].
      pose proof (few_step n (length (drop mid l3)) m k ltac:(lia) Hm) as Hu.
      eapply wpg_mono; [apply (IH (length (drop mid l3)) (index - mid) None (lim wb limit) wb (m - 1)
        (drop mid l3) k4); [done|lia|lia|done|done|lia]|..]; cbv beta; intros; lia. }
    (* partition *)
    apply wpg_bind.
    eapply wpg_known; [|apply (partition_spec c ans n pivot l2 p); [lia|done]|
      apply partition_cost; lia|]; [lia|].
    cbv beta. intros [mid was_p] k4 l3 Hl3 Hk4 (Hp3 & Hmp & Hlo & Hhi).
    pose proof (lookup_lt_Some _ _ _ Hmp) as Hmid.
    apply rng_drop in Hhi; [|lia]. apply rng_take in Hlo.
    apply wpg_bind, wpg_usub; [lia|].
    apply wpg_bind.
    eapply (wpg_known _ _ (λ _ k', k' = k4) (λ _ l', l' = l3) (upanic ans l)); [lia| | |].
    { apply wp_slice; [lia|lia|lia|].
      apply wp_slice_check; [lia|lia|rewrite sub_length; lia|]. intros Hls.
      rewrite (drop_ge l3 n) by lia. rewrite app_nil_r.
      rewrite (take_ge (drop mid l3)) by (rewrite drop_length; lia). by rewrite take_drop. }
    { repeat cost_step. done. }
    intros [] k' l' _ -> ->.
    apply wpg_bind, wpg_get; [lia|lia|]. intros p' Hp'. rewrite Hmp in Hp'. injection Hp' as <-.
    assert (Hp03 : l3 ≡ₚ l) by (by rewrite Hp3).
    clear Hp3 Hp.
    set (A := take mid l3) in *. set (D := drop (S mid) l3) in *.
    assert (Hl3e : l3 = A ++ p :: D) by (by apply bound_split).
    assert (HlA : length A = mid) by (unfold A; rewrite take_length; lia).
    assert (HlD : length D = n - (mid + 1)) by (unfold D; rewrite drop_length; lia).
    clearbody A D. subst l3.
    destruct (chain_split ans lt Hswo Hcons m pred l A p D Hch Hp03) as [HcA HcD];
      [by split; [|split]|].
    destruct (Nat.compare_spec mid index) as [->|Hmi|Hmi].
    - apply wpg_ret. lia.
    - apply wpg_bind, wpg_usub; [lia|].
      replace (A ++ p :: D) with ((A ++ [p]) ++ D ++ []) by (by rewrite app_nil_r, <-app_assoc).
      apply wpg_slice_app; [rewrite app_length; simpl; lia|lia|lia|].
      pose proof (few_step n (length D) m k ltac:(lia) Hm) as Hu.
      eapply wpg_mono; [apply (IH (length D) (index - (mid + 1)) (Some p) (lim wb limit)
                  (n / 8 <=? Nat.min mid (n - mid)) (m - 1) D k4); [done|lia|lia|done|done|lia]|..];
        cbv beta; intros; lia.
    - change (A ++ p :: D) with ([] ++ A ++ p :: D).
      apply wpg_slice_app; [done|simpl; lia|lia|].
      pose proof (few_step n (length A) m k ltac:(lia) Hm) as Hu.
      eapply wpg_mono; [apply (IH (length A) index pred (lim wb limit)
                  (n / 8 <=? Nat.min mid (n - mid)) (m - 1) A k4); [done|lia|lia|done|done|lia]|..];
        cbv beta; intros; lia.
  Qed.

  Lemma partition_at_index_few values index l :
    values ≤ 8 → few_values lt values l →
    wpg ok (partition_at_index c (length l) index)
      (λ _ g _, g ≤ (6 * values + 9) * length l) (λ _ g _, g ≤ (6 * values + 9) * length l) 0 l.
  Proof.
    intros H8 Hfew. remember (length l) as n eqn:Hn.
    unfold partition_at_index. destruct (Nat.leb_spec n index) as [Hni|Hni].
    { apply wpg_throw. lia. }
    assert (Hn9 : 9 * n ≤ (6 * values + 9) * n) by (apply Nat.mul_le_mono_r; lia).
    apply wpg_bind.
    eapply (wpg_mono _ _ (λ _ g l', g ≤ (6 * values + 9) * n) _ (λ _ g _, g ≤ (6 * values + 9) * n));
      [| |by auto].
    { destruct (zst c) eqn:Hz; [apply wpg_ret; lia|].
      destruct (Nat.eqb_spec index (n - 1)).
      { eapply wpg_known; [|apply (max_select_spec ans n index l); [done|lia|done]|
          apply max_select_cost; lia|]; [lia|]. cbv beta. intros; lia. }
      destruct (Nat.eqb_spec index 0) as [->|].
      { eapply wpg_known; [|apply (min_select_spec ans n l); [done|lia]|
          apply min_select_cost; lia|]; [lia|]. cbv beta. intros; lia. }
      unfold partition_at_index_loop. apply few_values_chain in Hfew.
      eapply wpg_mono; [apply (pai_loop_few (S n) n index None SEL_LIMIT true (2 * values) l 0
        ((6 * values + 9) * n)); [done|lia|done|done|done|unfold SEL_LIMIT; lia|]|..];
        cbv beta; intros; lia. }
    cbv beta. intros [] g l1 Hl1 Hg.
    unfold split_at, index0. simpl.
    rewrite (proj2 (Nat.leb_le index n)) by lia. apply wpg_bind, wpg_ret. simpl.
    rewrite (proj2 (Nat.leb_le 1 (n - index))) by lia. apply wpg_bind, wpg_ret. simpl.
    destruct (Nat.eqb_spec 1 0); [lia|]. by apply wpg_bind, wpg_ret, wpg_ret.
  Qed.

  Lemma few_values_perm k l l' : l ≡ₚ l' → few_values lt k l → few_values lt k l'.
  Proof. intros Hp (values & Hk & Hv). exists values. split; [done|]. by rewrite <-Hp. Qed.
  Lemma few_values_app_l k l1 l2 : few_values lt k (l1 ++ l2) → few_values lt k l1.
  Proof. intros (values & Hk & Hv). apply Forall_app in Hv as [? _]. by exists values. Qed.
  Lemma few_values_app_r k l1 l2 : few_values lt k (l1 ++ l2) → few_values lt k l2.
  Proof. intros (values & Hk & Hv). apply Forall_app in Hv as [_ ?]. by exists values. Qed.

  Lemma select_many_few k inds l :
    k ≤ 8 → few_values lt k l → inds ≠ [] →
    wpg ok (select_many c (length l) inds)
      (λ _ g _, g ≤ (6 * k + 9) * length l * (Nat.log2 (length inds) + 1))
      (λ _ g _, g ≤ (6 * k + 9) * length l * (Nat.log2 (length inds) + 1)) 0 l.
  Proof.
    intros Hk Hf Hne. rewrite Nat.add_1_r.
    destruct (many_log (length inds)) as (H1 & H2 & _). specialize (H2 ltac:(by destruct inds)).
    apply (partition_at_indices_calls c ans (6 * k + 9) (few_values lt k)
       (few_values_perm k) (few_values_app_l k) (few_values_app_r k)
       (λ index l, partition_at_index_few k index l Hk)
       (S (Nat.log2 (length inds))) (bit_length (length inds)) (S (length inds)) (length l) 0 0 inds l 0
       eq_refl Hf ltac:(lia) H1 H2).
  Qed.
  Lemma par_select_many_few k vlen inds l :
    k ≤ 8 → few_values lt k l →
    wpg ok (par_select_many c (length l) vlen inds)
      (λ _ g _, g ≤ (6 * k + 9) * length l * (Nat.log2 (length inds) + 1))
      (λ _ g _, g ≤ (6 * k + 9) * length l * (Nat.log2 (length inds) + 1)) 0 l.
  Proof.
    intros Hk Hf. rewrite Nat.add_1_r. unfold par_select_many. apply wpg_bind.
    destruct (decide (inds = [])) as [->|Hne]; [apply wpg_ret, wpg_ret; lia|].
    destruct (many_log (length inds)) as (H1 & _ & H2). specialize (H2 ltac:(by destruct inds)).
    eapply wpg_mono; [apply (par_partition_at_indices_calls c ans (6 * k + 9) (few_values lt k)
       (few_values_perm k) (few_values_app_l k) (few_values_app_r k)
       (λ index l, partition_at_index_few k index l Hk)
       (S (Nat.log2 (length inds))) (S (length inds)) (length l) 0 0 vlen inds l 0
       eq_refl Hf H2 H1)|..]; cbv beta; [|done]. intros ? ? ? ? ?. by apply wpg_ret.
  Qed.
End few_select.

Section instances.
  Context {T S : Type} (c : cfg) (cmp : T → T → comparison) (o : S → T * T → option comparison * S).
  Hypothesis (Hs : strict_weak_order (is_lt cmp)) (Ho : answers_as cmp o).
  Implicit Types (l : list T).

  Let ans (q : T * T) (r : option bool) : Prop := ∀ b, r = Some b → b = is_lt cmp q.1 q.2.
  Local Lemma ans_cons : consistent ans (is_lt cmp).
  Proof. intros a b r H. by apply H. Qed.
  Local Lemma ans_ok : ∀ s q, ans q (less_of_compare o s q).1.
  Proof.
    intros s' q r Hr. specialize (Ho s' q). unfold less_of_compare in Hr.
    destruct (o s' q) as [[r'|] s'']; simpl in Ho, Hr; [|done]. specialize (Ho r' eq_refl). subst r'.
    unfold is_lt. destruct (cmp q.1 q.2); by injection Hr as <-.
  Qed.

  Lemma select_nth_unstable_by_few s l index k :
    k ≤ 8 → few_values (is_lt cmp) k l →
    let '(_, (_, tr), _) := run (logged o) (select_nth_unstable_by c (length l) index) (s, []) l in
    length tr ≤ (6 * k + 9) * length l.
  Proof.
    intros Hk Hf.
    pose proof (wpg_run_compare ans o _ _ _ s l ans_ok
      (partition_at_index_few c ans _ Hs ans_cons k index l Hk Hf)) as H.
    unfold select_nth_unstable_by.
    destruct (run _ _ _ _) as [[[?|e| |] [? tr]] l']; try done; lia.
  Qed.
  Lemma select_many_nth_unstable_by_few s l inds k :
    k ≤ 8 → few_values (is_lt cmp) k l →
    let '(_, (_, tr), _) := run (logged o) (select_many_nth_unstable_by c (length l) inds) (s, []) l in
    length tr ≤ (6 * k + 9) * length l * (Nat.log2 (length inds) + 1).
  Proof.
    intros Hk Hf. destruct (decide (inds = [])) as [->|Hne]; [simpl; lia|].
    pose proof (wpg_run_compare ans o _ _ _ s l ans_ok
      (select_many_few c ans _ Hs ans_cons k inds l Hk Hf Hne)) as H.
    unfold select_many_nth_unstable_by.
    destruct (run _ _ _ _) as [[[?|e| |] [? tr]] l']; try done; lia.
  Qed.
End instances.

(** [ans] answers like [cmp] or panics. *)
Lemma par_select_many_nth_unstable_by_few {T} (c : cfg) (cmp : T → T → comparison)
    (ans : T * T → option comparison → Prop) (l : list T) vlen inds k m c' :
  strict_weak_order (is_lt cmp) → (∀ q, ∃ r, ans q r) →
  (∀ x y r, ans (x, y) (Some r) → r = cmp x y) → k ≤ 8 → few_values (is_lt cmp) k l →
  calls_made ans m (par_select_many_nth_unstable_by c (length l) vlen inds, l) c' →
  m ≤ (6 * k + 9) * length l * (Nat.log2 (length inds) + 1).
Proof.
  intros Hs Ht Ha Hk Hf.
  assert (Hc : consistent (less_ans ans) (is_lt cmp)).
  { intros x y r (r0 & Hr & Hr0). destruct r0 as [r0|]; [|done]. apply Ha in Hr as ->.
    unfold is_lt. destruct (cmp x y); congruence. }
  eapply calls_made_bound; [done|apply within_by_compare, within_par_select_many|].
  apply wpg_by_compare. by apply (par_select_many_few c _ _ Hs Hc).
Qed.
