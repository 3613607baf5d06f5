(** * Sorted and strictly descending input of the unstable sorts, and short sorted
    input of the stable one (PropBest.v). *)
From Verif Require Export TLinear CQuick CParUp.
From stdpp Require Import list.

Section best.
  Context {T : Type} (c : cfg) (lt : T → T → bool).
  Notation ok := (cnt_ans (ans_lt lt)).
  Implicit Types (l : list T).

  Lemma wpg_less a b (Φ : bool → nat → list T → Prop) E k l :
    Φ (lt a b) (S k) l → wpg ok (is_less a b) Φ E k l.
  Proof.
    intros H. apply wpg_is_less.
    - intros r g' [[= ->] ->]. exact H.
    - intros g' [[=] _].
  Qed.

  (** Later elements compare to earlier ones as [want] says. *)
  Definition downward (want : bool) l : Prop :=
    ∀ i j x y, i < j → l !! i = Some x → l !! j = Some y → lt y x = want.
  Lemma sorted_downward want l : StronglySorted (λ a b, lt b a = want) l → downward want l.
  Proof.
    induction 1 as [|z l Hl IH Hz]; intros i j x y Hij Hx Hy; [done|].
    destruct j as [|j]; [lia|]. simpl in Hy. destruct i as [|i]; simpl in Hx.
    - injection Hx as ->. by eapply Forall_lookup_1 in Hz.
    - apply (IH i j); auto; lia.
  Qed.

  (** ** Insertion sort. *)
  Lemma insert_tail_sorted n k l :
    n = length l → 2 ≤ n → streak lt false l →
    wpg ok (insert_tail c n) (λ _ g l', g = S k ∧ l' = l) (λ _ _ _, False) k l.
  Proof.
    intros Hn H2 Hs. unfold insert_tail.
    apply wpg_bind, wpg_dassert; [by apply Nat.leb_le|].
    apply wpg_bind, wpg_usub; [lia|]. apply wpg_bind, wpg_usub; [lia|].
    apply wpg_bind, wpg_uget; [lia|lia|]. intros x Hx.
    apply wpg_bind, wpg_uget; [lia|lia|]. intros y Hy.
    apply wpg_bind, wpg_less. rewrite (Hs (n - 1) x y); [|lia|done|done]. by apply wpg_ret.
  Qed.
  Lemma streak_take want m l : streak lt want l → streak lt want (take m l).
  Proof.
    intros H i a b Hi Ha Hb. apply lookup_take_Some in Ha as [Ha _], Hb as [Hb _]. eauto.
  Qed.
  Lemma insertion_sorted n k l :
    n = length l → 1 ≤ n → streak lt false l →
    wpg ok (insertion_sort_shift_left c n 1) (λ _ g l', g = k + (n - 1) ∧ l' = l) (λ _ _ _, False) k l.
  Proof.
    intros Hn H1 Hs. unfold insertion_sort_shift_left.
    apply wpg_bind, wpg_assert; [by apply Nat.leb_le|].
    eapply wpg_mono;
      [apply (wpg_for_up _ 1 (n - 1) _ (λ i g l', g = k + (i - 1) ∧ l' = l) (λ _ _ _, False))| |]; cbv beta.
    - split; [lia|done].
    - intros i g l' Hi [-> ->]. apply wpg_slice; [lia|lia|lia|].
      simpl. rewrite drop_0, Nat.sub_0_r.
      wpg_apply (insert_tail_sorted (S i) (k + (i - 1)) (take (S i) l)).
      + rewrite take_length. lia.
      + lia.
      + by apply streak_take.
      + cbv beta. intros [] g' l' _ [-> ->] _. rewrite take_drop. split; [lia|done].
      + done.
    - intros [] g' l' _ [-> ->]. split; [lia|done].
    - done.
  Qed.

  (** ** The pivot. *)
  Lemma sort2_down want n a b sw k l :
    n = length l → b < n → downward want l →
    a < b →
    wpg ok (sort2 n a b sw)
      (λ r g l', r = (if want then (b, a, S sw) else (a, b, sw)) ∧ g = S k ∧ l' = l)
      (λ _ _ _, False) k l.
  Proof.
    intros Hn Hb Hd Hab. unfold sort2.
    apply wpg_bind, wpg_uget; [lia|lia|]. intros x Hx.
    apply wpg_bind, wpg_uget; [lia|lia|]. intros y Hy.
    apply wpg_bind, wpg_less. rewrite (Hd a b y x); [|done|done|done].
    apply wpg_ret. by destruct want.
  Qed.
  Lemma sort3_down want n a b d sw k l :
    n = length l → a < b → b < d → d < n → downward want l →
    wpg ok (sort3 n a b d sw)
      (λ r g l', r = (if want then (d, b, a, 3 + sw) else (a, b, d, sw)) ∧ g = 3 + k ∧ l' = l)
      (λ _ _ _, False) k l.
  Proof.
    intros Hn Hab Hbd Hdn Hd. unfold sort3.
    destruct want.
    - apply wpg_bind. wpg_apply (sort2_down true n a b sw k l); try done; try lia.
      cbv beta. intros r g l' _ (-> & -> & ->).
      apply wpg_bind. wpg_apply (sort2_down true n a d (S sw) (S k) l); try done; try lia.
      cbv beta. intros r g l' _ (-> & -> & ->).
      apply wpg_bind. wpg_apply (sort2_down true n b d (S (S sw)) (S (S k)) l); try done; try lia.
      cbv beta. intros r g l' _ (-> & -> & ->). by apply wpg_ret.
    - apply wpg_bind. wpg_apply (sort2_down false n a b sw k l); try done; try lia.
      cbv beta. intros r g l' _ (-> & -> & ->).
      apply wpg_bind. wpg_apply (sort2_down false n b d sw (S k) l); try done; try lia.
      cbv beta. intros r g l' _ (-> & -> & ->).
      apply wpg_bind. wpg_apply (sort2_down false n a b sw (S (S k)) l); try done; try lia.
      cbv beta. intros r g l' _ (-> & -> & ->). by apply wpg_ret.
  Qed.
  Lemma sort_adjacent_down want n a sw k l :
    n = length l → 0 < a → a + 1 < n → downward want l →
    wpg ok (sort_adjacent n a sw)
      (λ r g l', r = (a, if want then 3 + sw else sw) ∧ g = 3 + k ∧ l' = l)
      (λ _ _ _, False) k l.
  Proof.
    intros Hn H0 Ha Hd. unfold sort_adjacent. apply wpg_bind, wpg_usub; [lia|].
    apply wpg_bind. wpg_apply (sort3_down want n (a - 1) a (a + 1) sw k l); try done; try lia.
    cbv beta. intros r g l' _ (-> & -> & ->). destruct want; by apply wpg_ret.
  Qed.

  (** The number of calls of [choose_pivot]. *)
  Definition pivot_calls (n : nat) : nat := if n <? 50 then 3 else 12.
  Lemma choose_pivot_sorted n k l :
    n = length l → 20 < n → downward false l →
    wpg ok (choose_pivot n)
      (λ r g l', r = (n / 4 * 2, true) ∧ g = k + pivot_calls n ∧ l' = l) (λ _ _ _, False) k l.
  Proof.
    intros Hn H20 Hd. unfold choose_pivot, pivot_calls, SHORTEST_MEDIAN_OF_MEDIANS, MAX_SWAPS.
    cbv zeta. pose proof (Nat.div_mod n 4 ltac:(lia)). pose proof (Nat.mod_upper_bound n 4 ltac:(lia)).
    destruct (Nat.leb_spec 8 n); [|lia].
    apply wpg_bind, wpg_bind.
    destruct (Nat.leb_spec 50 n), (Nat.ltb_spec n 50); try lia.
    - apply wpg_bind. wpg_apply (sort_adjacent_down false n (n / 4) 0 k l); try done; try lia.
      cbv beta. intros r g l' _ (-> & -> & ->).
      apply wpg_bind. wpg_apply (sort_adjacent_down false n (n / 4 * 2) 0 (3 + k) l); try done; try lia.
      cbv beta. intros r g l' _ (-> & -> & ->).
      apply wpg_bind. wpg_apply (sort_adjacent_down false n (n / 4 * 3) 0 (3 + (3 + k)) l); try done; try lia.
      cbv beta. intros r g l' _ (-> & -> & ->).
      apply wpg_ret, wpg_bind. wpg_apply (sort3_down false n (n / 4) (n / 4 * 2) (n / 4 * 3) 0 (3 + (3 + (3 + k))) l);
        try done; try lia.
      cbv beta. intros r g l' _ (-> & -> & ->). apply wpg_ret. simpl. apply wpg_ret.
      split; [done|]. split; [lia|done].
    - apply wpg_ret, wpg_bind. wpg_apply (sort3_down false n (n / 4) (n / 4 * 2) (n / 4 * 3) 0 k l);
        try done; try lia.
      cbv beta. intros r g l' _ (-> & -> & ->). apply wpg_ret. simpl. apply wpg_ret.
      split; [done|]. split; [lia|done].
  Qed.
  Lemma choose_pivot_descending n k l :
    n = length l → 50 ≤ n → downward true l →
    wpg ok (choose_pivot n)
      (λ r g l', r.2 = true ∧ g = 12 + k ∧ l' = rev l) (λ _ _ _, False) k l.
  Proof.
    intros Hn H20 Hd. unfold choose_pivot, SHORTEST_MEDIAN_OF_MEDIANS, MAX_SWAPS.
    cbv zeta. pose proof (Nat.div_mod n 4 ltac:(lia)). pose proof (Nat.mod_upper_bound n 4 ltac:(lia)).
    destruct (Nat.leb_spec 8 n); [|lia].
    apply wpg_bind, wpg_bind.
    destruct (Nat.leb_spec 50 n); try lia.
    apply wpg_bind. wpg_apply (sort_adjacent_down true n (n / 4) 0 k l); try done; try lia.
    cbv beta. intros r g l' _ (-> & -> & ->).
    apply wpg_bind. wpg_apply (sort_adjacent_down true n (n / 4 * 2) 3 (3 + k) l); try done; try lia.
    cbv beta. intros r g l' _ (-> & -> & ->).
    apply wpg_bind. wpg_apply (sort_adjacent_down true n (n / 4 * 3) 6 (3 + (3 + k)) l); try done; try lia.
    cbv beta. intros r g l' _ (-> & -> & ->).
    apply wpg_ret, wpg_bind. wpg_apply (sort3_down true n (n / 4) (n / 4 * 2) (n / 4 * 3) 9 (3 + (3 + (3 + k))) l);
      try done; try lia.
    cbv beta. intros r g l' _ (-> & -> & ->). apply wpg_ret. simpl.
    apply wpg_bind. eapply wpg_mono.
    - apply (costs_wp (ans_lt lt) _ (λ _ g, g = 12 + k) (λ _ l', l' = rev l) (λ _ _, False)
               (12 + k) (12 + k)); [lia|by apply reverse_spec|].
      apply costs_silent, reverse_silent.
    - cbv beta. intros [] g l' _ [-> ->].
      apply wpg_bind, wpg_usub; [lia|]. apply wpg_bind, wpg_usub; [lia|]. by apply wpg_ret.
    - by intros e g l' _ [_ []].
  Qed.

  (** ** The sort is over after the partial insertion sort. *)
  Lemma find_unsorted_sorted fuel n i k l :
    n = length l → 0 < i → i ≤ n → n < fuel + i → streak lt false l →
    wpg ok (find_unsorted fuel n i) (λ j g l', j = n ∧ g = k + (n - i) ∧ l' = l) (λ _ _ _, False) k l.
  Proof.
    intros Hn. revert i k. induction fuel as [|f IH]; intros i k Hi Hin Hf Hs; [lia|].
    cbn [find_unsorted]. destruct (Nat.ltb_spec i n).
    - apply wpg_bind, wpg_usub; [lia|].
      apply wpg_bind, wpg_uget; [lia|lia|]. intros x Hx.
      apply wpg_bind, wpg_uget; [lia|lia|]. intros y Hy.
      apply wpg_bind, wpg_less. rewrite (Hs i x y Hi Hx Hy).
      wpg_apply (IH (S i) (S k)); [lia|lia|lia|done| |done].
      cbv beta. intros j g l' _ (-> & -> & ->). split; [done|]. split; [lia|done].
    - apply wpg_ret. split; [lia|]. split; [lia|done].
  Qed.
  Lemma partial_insertion_sorted n k l :
    n = length l → 1 ≤ n → streak lt false l →
    wpg ok (partial_insertion_sort c n) (λ r g l', r = true ∧ g = k + (n - 1) ∧ l' = l)
      (λ _ _ _, False) k l.
  Proof.
    intros Hn H1 Hs. unfold partial_insertion_sort, MAX_STEPS. cbn [partial_insertion_steps].
    apply wpg_bind. wpg_apply (find_unsorted_sorted (S n) n 1 k l); try done; try lia.
    cbv beta. intros j g l' _ (-> & -> & ->). rewrite Nat.eqb_refl. by apply wpg_ret.
  Qed.
  Lemma downward_streak want l : downward want l → streak lt want l.
  Proof. intros H i a b Hi Ha Hb. apply (H (i - 1) i); auto; lia. Qed.

  Definition sorted_calls (n : nat) : nat := if n <=? 20 then n - 1 else n - 1 + pivot_calls n.
  Lemma qs_recurse_sorted depth fuel n limit l :
    n = length l → limit ≠ 0 → downward false l →
    wpg ok (qs_recurse c (S depth) (S fuel) n None limit true true)
      (λ _ g l', g = sorted_calls n ∧ l' = l) (λ _ _ _, False) 0 l.
  Proof.
    intros Hn Hl Hd. rewrite qs_recurse_unfold. unfold QS_MAX_INSERTION, sorted_calls.
    pose proof (downward_streak false l Hd) as Hs.
    destruct (Nat.leb_spec n 20).
    { destruct (Nat.leb_spec 2 n); [|apply wpg_ret; split; [lia|done]].
      wpg_apply (insertion_sorted n 0 l); try done; try lia. }
    destruct (Nat.eqb_spec limit 0); [done|].
    apply wpg_bind, wpg_ret, wpg_bind.
    wpg_apply (choose_pivot_sorted n 0 l); try done.
    cbv beta. intros r g l' _ (-> & -> & ->). simpl.
    apply wpg_bind. wpg_apply (partial_insertion_sorted n (pivot_calls n) l); try done; try lia.
    cbv beta. intros r g l' _ (-> & -> & ->). apply wpg_ret. split; [lia|done].
  Qed.
  Lemma par_qs_recurse_sorted fuel n limit l :
    n = length l → limit ≠ 0 → downward false l →
    wpg ok (par_qs_recurse c (S fuel) n None limit true true)
      (λ _ g l', g = sorted_calls n ∧ l' = l) (λ _ _ _, False) 0 l.
  Proof.
    intros Hn Hl Hd. cbn [par_qs_recurse]. unfold QS_MAX_INSERTION, sorted_calls.
    pose proof (downward_streak false l Hd) as Hs.
    destruct (Nat.leb_spec n 20).
    { destruct (Nat.leb_spec 2 n); [|apply wpg_ret; split; [lia|done]].
      wpg_apply (insertion_sorted n 0 l); try done; try lia. }
    destruct (Nat.eqb_spec limit 0); [done|].
    apply wpg_bind, wpg_ret, wpg_bind.
    wpg_apply (choose_pivot_sorted n 0 l); try done.
    cbv beta. intros r g l' _ (-> & -> & ->). simpl.
    apply wpg_bind. wpg_apply (partial_insertion_sorted n (pivot_calls n) l); try done; try lia.
    cbv beta. intros r g l' _ (-> & -> & ->). apply wpg_ret. split; [lia|done].
  Qed.
End best.

(** Reversing a descending array makes it sorted. *)
Lemma downward_rev {T} (lt : T → T → bool) (l : list T) :
  downward lt true l → (∀ x y, lt x y = true → lt y x = false) → streak lt false (rev l).
Proof.
  intros Hd Ha i a b Hi Hx Hy. apply Ha.
  rewrite rev_alt in Hx, Hy. change (rev_append l []) with (stdpp.list.reverse l) in *.
  pose proof (lookup_lt_Some _ _ _ Hx) as Hlt. rewrite reverse_length in Hlt.
  rewrite reverse_lookup in Hx, Hy by lia.
  apply (Hd (length l - S i) (length l - S (i - 1))); [lia|done|done].
Qed.

Section descending.
  Context {T : Type} (c : cfg) (lt : T → T → bool) (Hasym : ∀ x y, lt x y = true → lt y x = false).
  Notation ok := (cnt_ans (ans_lt lt)).

  Lemma qs_recurse_descending depth fuel n limit l :
    n = length l → limit ≠ 0 → 50 ≤ n → downward lt true l →
    wpg ok (qs_recurse c (S depth) (S fuel) n None limit true true)
      (λ _ g l', g = n + 11 ∧ l' = rev l) (λ _ _ _, False) 0 l.
  Proof.
    intros Hn Hl H50 Hd. rewrite qs_recurse_unfold. unfold QS_MAX_INSERTION.
    destruct (Nat.leb_spec n 20); [lia|].
    destruct (Nat.eqb_spec limit 0); [done|].
    apply wpg_bind, wpg_ret, wpg_bind.
    wpg_apply (choose_pivot_descending lt n 0 l); try done.
    cbv beta. intros [pv r] g l' _ (Hr & -> & ->). simpl in Hr. subst r. simpl.
    apply wpg_bind. wpg_apply (partial_insertion_sorted c lt n 12 (rev l)); try done; try lia.
    { by rewrite rev_length. }
    { by apply downward_rev. }
    cbv beta. intros r g l' _ (-> & -> & ->). apply wpg_ret. split; [lia|done].
  Qed.
  Lemma par_qs_recurse_descending fuel n limit l :
    n = length l → limit ≠ 0 → 50 ≤ n → downward lt true l →
    wpg ok (par_qs_recurse c (S fuel) n None limit true true)
      (λ _ g l', g = n + 11 ∧ l' = rev l) (λ _ _ _, False) 0 l.
  Proof.
    intros Hn Hl H50 Hd. cbn [par_qs_recurse]. unfold QS_MAX_INSERTION.
    destruct (Nat.leb_spec n 20); [lia|].
    destruct (Nat.eqb_spec limit 0); [done|].
    apply wpg_bind, wpg_ret, wpg_bind.
    wpg_apply (choose_pivot_descending lt n 0 l); try done.
    cbv beta. intros [pv r] g l' _ (Hr & -> & ->). simpl in Hr. subst r. simpl.
    apply wpg_bind. wpg_apply (partial_insertion_sorted c lt n 12 (rev l)); try done; try lia.
    { by rewrite rev_length. }
    { by apply downward_rev. }
    cbv beta. intros r g l' _ (-> & -> & ->). apply wpg_ret. split; [lia|done].
  Qed.
End descending.

Lemma bit_length_pos n : 0 < n → bit_length n ≠ 0.
Proof. intros H. pose proof (bit_length_spec n). destruct (bit_length n); [simpl in *; lia|done]. Qed.

(** The four statements follow in the same way. *)
Lemma run_linear {T} (cmp : T → T → comparison) (p : cmp_prog T unit) n (l m : list T) :
  wpg (cnt_ans (ans_lt (is_lt cmp))) p (λ _ g l', g = n ∧ l' = m) (λ _ _ _, False) 0 l →
  ∃ tr, run (logged (pure_compare cmp)) (by_compare p) (tt, []) l = (Done tt, (tt, tr), m) ∧
    length tr = n.
Proof.
  intros Hp.
  pose proof (wpg_run_compare (ans_lt (is_lt cmp)) (pure_compare cmp) _ _ _ tt l
    ltac:(intros ? [a b]; by rewrite less_of_pure_compare) Hp) as H.
  destruct (run _ _ _ _) as [[[[]|e| |] [[] tr]] l']; try done. destruct H as [? ->]. eauto.
Qed.

Lemma sort_unstable_by_sorted {T} (c : cfg) (cmp : T → T → comparison) (l : list T) :
  zst c = false → sorted_wrt (is_lt cmp) l →
  ∃ tr, run (logged (pure_compare cmp)) (sort_unstable_by c (length l)) (tt, []) l
          = (Done tt, (tt, tr), l) ∧ length tr ≤ length l + 11.
Proof.
  intros Hz Hs. unfold sort_unstable_by.
  destruct (run_linear cmp (quick_sort c (length l)) (sorted_calls (length l)) l l) as (tr & H & Htr).
  - unfold quick_sort. rewrite Hz.
    destruct (length l) eqn:Hl.
    + destruct l; [|done]. rewrite qs_recurse_unfold. by apply wpg_ret.
    + rewrite <-Hl. apply qs_recurse_sorted; [done|apply bit_length_pos; lia|by apply sorted_downward].
  - exists tr. split; [done|]. rewrite Htr. unfold sorted_calls, pivot_calls.
    destruct (Nat.leb_spec (length l) 20), (Nat.ltb_spec (length l) 50); lia.
Qed.
Lemma par_sort_unstable_by_sorted {T} (c : cfg) (cmp : T → T → comparison) (l : list T) :
  zst c = false → sorted_wrt (is_lt cmp) l →
  ∃ tr, run (logged (pure_compare cmp)) (par_sort_unstable_by c (length l)) (tt, []) l
          = (Done tt, (tt, tr), l) ∧ length tr ≤ length l + 11.
Proof.
  intros Hz Hs. unfold par_sort_unstable_by.
  destruct (run_linear cmp (par_quick_sort c (length l)) (sorted_calls (length l)) l l) as (tr & H & Htr).
  - unfold par_quick_sort. rewrite Hz.
    destruct (length l) eqn:Hl.
    + destruct l; [|done]. by apply wpg_ret.
    + rewrite <-Hl. apply par_qs_recurse_sorted; [done|apply bit_length_pos; lia|by apply sorted_downward].
  - exists tr. split; [done|]. rewrite Htr. unfold sorted_calls, pivot_calls.
    destruct (Nat.leb_spec (length l) 20), (Nat.ltb_spec (length l) 50); lia.
Qed.

Lemma sort_unstable_by_descending {T} (c : cfg) (cmp : T → T → comparison) (l : list T) :
  zst c = false → 50 ≤ length l → (∀ x y, is_lt cmp x y = true → is_lt cmp y x = false) →
  StronglySorted (λ a b, is_lt cmp b a = true) l →
  ∃ tr, run (logged (pure_compare cmp)) (sort_unstable_by c (length l)) (tt, []) l
          = (Done tt, (tt, tr), rev l) ∧ length tr = length l + 11.
Proof.
  intros Hz Hl Ha Hs. unfold sort_unstable_by.
  apply (run_linear cmp (quick_sort c (length l))). unfold quick_sort. rewrite Hz.
  apply qs_recurse_descending; [done|done|apply bit_length_pos; lia|done|by apply sorted_downward].
Qed.
Lemma par_sort_unstable_by_descending {T} (c : cfg) (cmp : T → T → comparison) (l : list T) :
  zst c = false → 50 ≤ length l → (∀ x y, is_lt cmp x y = true → is_lt cmp y x = false) →
  StronglySorted (λ a b, is_lt cmp b a = true) l →
  ∃ tr, run (logged (pure_compare cmp)) (par_sort_unstable_by c (length l)) (tt, []) l
          = (Done tt, (tt, tr), rev l) ∧ length tr = length l + 11.
Proof.
  intros Hz Hl Ha Hs. unfold par_sort_unstable_by.
  apply (run_linear cmp (par_quick_sort c (length l))). unfold par_quick_sort. rewrite Hz.
  apply par_qs_recurse_descending; [done|done|apply bit_length_pos; lia|done|by apply sorted_downward].
Qed.

(** The stable sort on short sorted input. *)
Lemma sort_by_sorted_short {T} (c : cfg) (cmp : T → T → comparison) (l : list T) :
  zst c = false → sorted_wrt (is_lt cmp) l →
  ∃ tr, run (logged (pure_compare cmp)) (sort_by c (length l)) (tt, []) l = (Done tt, (tt, tr), l) ∧
    length tr = length l - 1.
Proof.
  intros Hz Hs. destruct (Nat.le_gt_cases (length l) 20) as [Hle|Hgt]; [|by apply sort_by_sorted].
  unfold sort_by. apply (run_linear cmp (stable_sort c (length l))).
  unfold stable_sort. rewrite Hz. unfold merge_sort, MS_MAX_INSERTION.
  apply wpg_bind, wpg_dassert; [by rewrite Hz|].
  destruct (Nat.leb_spec (length l) 20); [|lia].
  destruct (Nat.leb_spec 2 (length l)); [|apply wpg_ret; split; [lia|done]].
  wpg_apply (insertion_sorted c (is_lt cmp) (length l) 0 l); try done; try lia.
  by apply downward_streak, sorted_downward.
Qed.
