(** * Number of calls made by the selections, whatever the closure answers. *)
From Verif Require Export CFewSelect.
From stdpp Require Import list.

(** Divisions by 1024 that leave 8448 or more. *)
Definition above (n : nat) : nat := N.to_nat (N.log2 (N.of_nat n / 8448) / 10).

(** The depth of the recursion of [median_of_medians], see [TDepth.v]. *)
Definition levels_of (n : nat) : nat :=
  if n <? 11 then 1 else if n <? 132 then 2
  else 3 + (if (N.of_nat n <? 8448)%N then 0
            else S (above n)).

Lemma levels_of_mono m n : m ≤ n → levels_of m ≤ levels_of n.
Proof.
  intros H. unfold levels_of.
  destruct (Nat.ltb_spec m 11), (Nat.ltb_spec n 11); try lia.
  { destruct (n <? 132); lia. }
  destruct (Nat.ltb_spec m 132), (Nat.ltb_spec n 132); try lia.
  destruct (N.ltb_spec (N.of_nat m) 8448), (N.ltb_spec (N.of_nat n) 8448);
    [done|apply Nat.add_le_mono_l, Nat.le_0_l|lia|].
  apply Nat.add_le_mono_l, le_n_S. unfold above.
  assert (N.log2 (N.of_nat m / 8448) / 10 ≤ N.log2 (N.of_nat n / 8448) / 10)%N; [|lia].
  apply N.div_le_mono; [done|]. apply N.log2_le_mono, N.div_le_mono; lia.
Qed.
Lemma levels_of_pos n : 1 ≤ levels_of n.
Proof. unfold levels_of. repeat case_match; lia. Qed.

Lemma levels_of_frac n : 10 < n → levels_of (ninther_frac n) + 1 ≤ levels_of n.
Proof.
  intros Hn. pose proof (ninther_frac_le n) as Hfr.
  unfold levels_of at 2. rewrite (proj2 (Nat.ltb_ge n 11)) by lia.
  destruct (Nat.ltb_spec n 132).
  { unfold levels_of. rewrite (proj2 (Nat.ltb_lt _ 11)) by lia. lia. }
  destruct (N.ltb_spec (N.of_nat n) 8448) as [Hs|Hs].
  { assert (ninther_frac n < 132).
    { unfold ninther_frac. destruct (Nat.leb_spec n 1024).
      { pose proof (Nat.div_le_mono n 1024 12 ltac:(lia) ltac:(lia)) as Hd.
        change (1024 / 12) with 85 in Hd. lia. }
      rewrite (proj2 (N.leb_le _ _)) by lia. apply Nat.div_lt_upper_bound; lia. }
    unfold levels_of. rewrite (proj2 (Nat.ltb_lt (ninther_frac n) 132)) by lia.
    destruct (_ <? 11); lia. }
  unfold levels_of.
  destruct (ninther_frac n <? 11); [lia|]. destruct (ninther_frac n <? 132); [lia|].
  destruct (N.ltb_spec (N.of_nat (ninther_frac n)) 8448) as [Hf|Hf]; [lia|].
  cut (S (above (ninther_frac n)) ≤ above n); [lia|]. unfold above.
  (* here the ninthers are a 1024-th of the array *)
  assert (Hfe : N.of_nat (ninther_frac n) = (N.of_nat n / 1024)%N).
  { unfold ninther_frac in *. destruct (Nat.leb_spec n 1024).
    { pose proof (Nat.div_le_mono n 1024 12 ltac:(lia) ltac:(lia)) as Hd.
      change (1024 / 12) with 85 in Hd. lia. }
    destruct (N.leb_spec (N.of_nat n) 131072).
    - exfalso. rewrite Nat2N.inj_div in Hf.
      pose proof (N.div_le_mono (N.of_nat n) 131072 64 ltac:(done) ltac:(done)) as Hd.
      change (131072 / 64)%N with 2048%N in Hd. change (N.of_nat 64) with 64%N in Hf. lia.
    - by rewrite Nat2N.inj_div. }
  rewrite Hfe in *. rewrite N.div_div, (N.mul_comm 1024), <-N.div_div by done.
  set (q := (N.of_nat n / 8448)%N).
  assert (Hq : (1 ≤ q / 1024)%N).
  { unfold q. rewrite N.div_div, (N.mul_comm 8448), <-N.div_div by done.
    apply N.div_le_lower_bound; lia. }
  assert (Hlog : (N.log2 (q / 1024) + 10 ≤ N.log2 q)%N).
  { change 1024%N with (2 ^ 10)%N. rewrite <-N.shiftr_div_pow2.
    rewrite N.log2_shiftr. assert (10 ≤ N.log2 q)%N; [|lia].
    change 10%N with (N.log2 1024). apply N.log2_le_mono.
    pose proof (N.mul_div_le q 1024). lia. }
  pose proof (N.div_le_mono _ _ 10 ltac:(done) Hlog) as Hd.
  replace (N.log2 (q / 1024) + 10)%N with (N.log2 (q / 1024) + 1 * 10)%N in Hd by lia.
  rewrite N.div_add in Hd by done. lia.
Qed.

Lemma levels_of_reach n d : (N.of_nat n < 8448 * 1024 ^ N.of_nat d)%N → levels_of n ≤ 3 + d.
Proof.
  intros H. unfold levels_of. destruct (_ <? _); [lia|]. destruct (_ <? _); [lia|].
  destruct (N.ltb_spec (N.of_nat n) 8448); [lia|].
  assert (N.of_nat n / 8448 < 1024 ^ N.of_nat d)%N as Hd by (apply N.div_lt_upper_bound; lia).
  assert (0 < N.of_nat n / 8448)%N by (apply N.div_str_pos; lia).
  change 1024%N with (2 ^ 10)%N in Hd. rewrite <-N.pow_mul_r in Hd.
  apply N.log2_lt_pow2 in Hd; [|done].
  apply N.div_lt_upper_bound in Hd; [|done]. apply (Nat.add_le_mono_l _ _ 3). unfold above. lia.
Qed.

(** Calls of [median_of_medians]. *)
Definition any_f (n : nat) : nat := 9 * n ^ levels_of n.
Lemma any_f_9 n : 9 * n ≤ any_f n.
Proof.
  unfold any_f. apply Nat.mul_le_mono_l. pose proof (levels_of_pos n).
  destruct n; [lia|]. rewrite <-(Nat.pow_1_r (S n)) at 1. apply Nat.pow_le_mono_r; lia.
Qed.
Lemma any_f_mono m n : m ≤ n → any_f m ≤ any_f n.
Proof.
  intros H. unfold any_f. apply Nat.mul_le_mono_l.
  pose proof (levels_of_mono _ _ H). pose proof (levels_of_pos m). destruct m.
  { rewrite Nat.pow_0_l by lia. lia. }
  etransitivity; [apply Nat.pow_le_mono_l, H|]. apply Nat.pow_le_mono_r; lia.
Qed.
Lemma any_f_step n m : 10 < n → m < n → any_f (ninther_frac n) + any_f m + 3 * n ≤ any_f n.
Proof.
  intros Hn Hm. pose proof (any_f_mono m (n - 1) ltac:(lia)) as Hmm.
  pose proof (levels_of_frac n Hn) as Hl. pose proof (levels_of_pos (ninther_frac n)).
  pose proof (ninther_frac_le n) as Hfr. unfold any_f in *.
  pose proof (levels_of_mono (n - 1) n ltac:(lia)) as Hl1.
  remember (levels_of n) as D eqn:HD. destruct D as [|[|D]]; [lia|lia|].
  set (f := ninther_frac n) in *.
  assert (H1 : (n - 1) ^ levels_of (n - 1) ≤ (n - 1) * n ^ S D).
  { etransitivity; [apply Nat.pow_le_mono_r; [lia|exact Hl1]|]. rewrite Nat.pow_succ_r'.
    apply Nat.mul_le_mono_l, Nat.pow_le_mono_l. lia. }
  assert (H2 : 12 * f ^ levels_of f ≤ n ^ S D).
  { destruct (decide (f = 0)) as [->|Hf0]; [rewrite Nat.pow_0_l; lia|].
    etransitivity; [apply Nat.mul_le_mono_l, (Nat.pow_le_mono_r _ _ (S D)); lia|].
    rewrite !Nat.pow_succ_r', Nat.mul_assoc. apply Nat.mul_le_mono; [done|].
    apply Nat.pow_le_mono_l. lia. }
  assert (H3 : n ≤ n ^ S D).
  { rewrite <-(Nat.pow_1_r n) at 1. apply Nat.pow_le_mono_r; lia. }
  rewrite Nat.pow_succ_r'. set (X := n ^ S D) in *. set (Y := f ^ levels_of f) in *.
  set (Z := (n - 1) ^ levels_of (n - 1)) in *. clearbody X Y Z.
  replace (n * X) with ((n - 1) * X + X); [lia|]. replace n with (S (n - 1)) at 2 by lia. lia.
Qed.

Section any.
  Context {T : Type} (c : cfg) (ans : T * T → option bool → Prop).
  Notation ok := (cnt_ans ans).
  Implicit Types (l : list T).

  Lemma partition_at_index_any index l :
    wpg ok (partition_at_index c (length l) index)
      (λ _ g _, g ≤ 300 * length l + any_f (length l)) (λ _ g _, g ≤ 300 * length l + any_f (length l)) 0 l.
  Proof.
    apply (partition_at_index_calls c ans false (λ _ _, false) ltac:(done) ltac:(done) (length l) any_f
      any_f_9); [|apply any_f_mono|done|].
    - intros. by apply any_f_step.
    - intros x Hx. apply cntf_le.
  Qed.

  (** With one constant for all arrays of at most [N] elements. *)
  Context (d : nat).
  Definition any_c (N : nat) : nat := 300 + 9 * N ^ (2 + d).
  Lemma any_c_ok N l :
    (N.of_nat N < 8448 * 1024 ^ N.of_nat d)%N → length l ≤ N →
    300 * length l + any_f (length l) ≤ any_c N * length l.
  Proof.
    intros HN Hl. unfold any_c. rewrite Nat.mul_add_distr_r. apply Nat.add_le_mono_l.
    unfold any_f. rewrite <-Nat.mul_assoc. apply Nat.mul_le_mono_l.
    assert (levels_of (length l) ≤ 3 + d) as Hd by (apply levels_of_reach; lia).
    destruct (length l) as [|n']; [pose proof (levels_of_pos 0); rewrite Nat.pow_0_l; lia|].
    etransitivity; [apply (Nat.pow_le_mono_r _ _ (S (2 + d))); lia|].
    rewrite Nat.pow_succ_r', Nat.mul_comm. apply Nat.mul_le_mono_r, Nat.pow_le_mono_l. done.
  Qed.
  Lemma partition_at_index_any_c N index l :
    (N.of_nat N < 8448 * 1024 ^ N.of_nat d)%N → length l ≤ N →
    wpg ok (partition_at_index c (length l) index)
      (λ _ g _, g ≤ any_c N * length l) (λ _ g _, g ≤ any_c N * length l) 0 l.
  Proof.
    intros HN Hl. pose proof (any_c_ok N l HN Hl).
    eapply wpg_mono; [apply partition_at_index_any|..]; cbv beta; intros; lia.
  Qed.

  Lemma short_perm N l l' : l ≡ₚ l' → length l ≤ N → length l' ≤ N.
  Proof. by intros ->. Qed.
  Lemma short_app_l N l1 l2 : length (l1 ++ l2) ≤ N → length l1 ≤ N.
  Proof. rewrite app_length. lia. Qed.
  Lemma short_app_r N l1 l2 : length (l1 ++ l2) ≤ N → length l2 ≤ N.
  Proof. rewrite app_length. lia. Qed.

  Lemma select_many_any inds l :
    (N.of_nat (length l) < 8448 * 1024 ^ N.of_nat d)%N → inds ≠ [] →
    wpg ok (select_many c (length l) inds)
      (λ _ g _, g ≤ any_c (length l) * length l * (Nat.log2 (length inds) + 1))
      (λ _ g _, g ≤ any_c (length l) * length l * (Nat.log2 (length inds) + 1)) 0 l.
  Proof.
    intros HN Hne. rewrite Nat.add_1_r.
    destruct (many_log (length inds)) as (H1 & H2 & _). specialize (H2 ltac:(by destruct inds)).
    apply (partition_at_indices_calls c ans (any_c (length l)) (λ l', length l' ≤ length l)
       (short_perm _) (short_app_l _) (short_app_r _)
       (λ index l', partition_at_index_any_c (length l) index l' HN)
       (S (Nat.log2 (length inds))) (bit_length (length inds)) (S (length inds)) (length l) 0 0 inds l 0
       eq_refl (le_n _) ltac:(lia) H1 H2).
  Qed.
  Lemma par_select_many_any vlen inds l :
    (N.of_nat (length l) < 8448 * 1024 ^ N.of_nat d)%N →
    wpg ok (par_select_many c (length l) vlen inds)
      (λ _ g _, g ≤ any_c (length l) * length l * (Nat.log2 (length inds) + 1))
      (λ _ g _, g ≤ any_c (length l) * length l * (Nat.log2 (length inds) + 1)) 0 l.
  Proof.
    intros HN. rewrite Nat.add_1_r. unfold par_select_many. apply wpg_bind.
    destruct (decide (inds = [])) as [->|Hne]; [apply wpg_ret, wpg_ret; lia|].
    destruct (many_log (length inds)) as (H1 & _ & H2). specialize (H2 ltac:(by destruct inds)).
    eapply wpg_mono; [apply (par_partition_at_indices_calls c ans (any_c (length l))
       (λ l', length l' ≤ length l) (short_perm _) (short_app_l _) (short_app_r _)
       (λ index l', partition_at_index_any_c (length l) index l' HN)
       (S (Nat.log2 (length inds))) (S (length inds)) (length l) 0 0 vlen inds l 0
       eq_refl (le_n _) H2 H1)|..]; cbv beta; [|done]. intros ? ? ? ? ?. by apply wpg_ret.
  Qed.
End any.

Lemma any_c_eq d n : any_c d n * n = 300 * n + 9 * n ^ (3 + d).
Proof. unfold any_c. replace (3 + d) with (S (2 + d)) by lia. rewrite Nat.pow_succ_r'. lia. Qed.

Section instances.
  Context {T S : Type} (c : cfg) (o : S → T * T → option comparison * S).
  Implicit Types (l : list T).

  Let ans (_ : T * T) (_ : option bool) : Prop := True.

  Lemma select_nth_unstable_by_any s l index d :
    (N.of_nat (length l) < 8448 * 1024 ^ N.of_nat d)%N →
    let '(_, (_, tr), _) := run (logged o) (select_nth_unstable_by c (length l) index) (s, []) l in
    length tr ≤ 300 * length l + 9 * length l ^ (3 + d).
  Proof.
    intros Hl. rewrite <-any_c_eq.
    pose proof (wpg_run_compare ans o _ _ _ s l ltac:(done)
      (partition_at_index_any_c c ans d (length l) index l Hl (le_n _))) as H.
    unfold select_nth_unstable_by.
    destruct (run _ _ _ _) as [[[?|e| |] [? tr]] l']; try done; lia.
  Qed.
  Lemma select_many_nth_unstable_by_any s l inds d :
    (N.of_nat (length l) < 8448 * 1024 ^ N.of_nat d)%N →
    let '(_, (_, tr), _) := run (logged o) (select_many_nth_unstable_by c (length l) inds) (s, []) l in
    length tr ≤ (300 * length l + 9 * length l ^ (3 + d)) * (Nat.log2 (length inds) + 1).
  Proof.
    intros Hl. rewrite <-any_c_eq. destruct (decide (inds = [])) as [->|Hne]; [simpl; lia|].
    pose proof (wpg_run_compare ans o _ _ _ s l ltac:(done)
      (select_many_any c ans d inds l Hl Hne)) as H.
    unfold select_many_nth_unstable_by.
    destruct (run _ _ _ _) as [[[?|e| |] [? tr]] l']; try done; lia.
  Qed.
End instances.

Lemma par_select_many_nth_unstable_by_any {T} (c : cfg) (ans : T * T → option comparison → Prop)
    (l : list T) vlen inds d m c' :
  (∀ q, ∃ r, ans q r) → (N.of_nat (length l) < 8448 * 1024 ^ N.of_nat d)%N →
  calls_made ans m (par_select_many_nth_unstable_by c (length l) vlen inds, l) c' →
  m ≤ (300 * length l + 9 * length l ^ (3 + d)) * (Nat.log2 (length inds) + 1).
Proof.
  intros Ht Hl. rewrite <-any_c_eq.
  eapply calls_made_bound; [done|apply within_by_compare, within_par_select_many|].
  apply wpg_by_compare. by apply par_select_many_any.
Qed.

Lemma select_nth_unstable_by_any_memory {T S : Type} (c : cfg)
    (o : S → T * T → option comparison * S) (s : S) (l : list T) index :
  (N.of_nat (length l) < 2 ^ 63)%N →
  let '(_, (_, tr), _) := run (logged o) (select_nth_unstable_by c (length l) index) (s, []) l in
  length tr ≤ 300 * length l + 9 * length l ^ 8.
Proof.
  intros Hl. apply (select_nth_unstable_by_any c o s l index 5).
  eapply N.lt_trans; [exact Hl|reflexivity].
Qed.
