(** * Depth of the recursion of the selections. *)
From Verif Require Export PIndices TSortUnstable MApi.
From stdpp Require Import list.

(** ** [p] behaves like [q] as long as it does not run out of fuel. *)
Section upto.
  Local Transparent bind relocate.
  Context {T Q R : Type}.
  Inductive upto {A : Type} : prog T Q R A → prog T Q R A → Prop :=
  | upto_fuel q : upto NoFuel q
  | upto_refl p : upto p p
  | upto_read i k k' : (∀ x, upto (k x) (k' x)) → upto (Read i k) (Read i k')
  | upto_write i x k k' : upto k k' → upto (Write i x k) (Write i x k')
  | upto_ask q k k' : (∀ r, upto (k r) (k' r)) → upto (Ask q k) (Ask q k')
  | upto_par B C (p1 : prog T Q R B) (p2 : prog T Q R C) k k' :
      (∀ b d, upto (k b d) (k' b d)) → upto (Par p1 p2 k) (Par p1 p2 k').

  Lemma upto_bind {A B} (p p' : prog T Q R A) (f f' : A → prog T Q R B) :
    upto p p' → (∀ a, upto (f a) (f' a)) → upto (bind p f) (bind p' f').
  Proof.
    intros Hp Hf. induction Hp; cbn [bind]; [constructor| |constructor; auto..].
    induction p; cbn [bind]; [apply Hf|constructor; auto..].
  Qed.
  Lemma upto_relocate {A} g (p p' : prog T Q R A) : upto p p' → upto (relocate g p) (relocate g p').
  Proof. intros Hp. induction Hp; cbn [relocate]; constructor; auto. Qed.
  Lemma upto_run {S A} (o : S → Q → R * S) (p p' : prog T Q R A) :
    upto p p' → ∀ s l, (run o p s l).1.1 ≠ Diverged → run o p' s l = run o p s l.
  Proof.
    intros Hp. induction Hp; intros s l Hd; simpl in *; try done.
    - destruct (l !! i); auto.
    - destruct (decide _); auto.
    - destruct (o s q); auto.
    - destruct (run o p1 s l) as [[[]?]?]; try done;
        destruct (run o p2 _ _) as [[[]?]?]; auto.
  Qed.
End upto.

Section depth.
  Context {T : Type} (c : cfg).
  Implicit Types (l : list T).

  Lemma upto_slice {A} n a b (p p' : nat → cmp_prog T A) :
    (∀ m, upto (p m) (p' m)) → upto (slice n a b p) (slice n a b p').
  Proof. intros H. unfold slice. Transparent focus. unfold focus. destruct (_ && _); [by apply upto_relocate|constructor]. Qed.

  Lemma upto_mom_loop rec rec' fuel n k :
    (∀ m k, upto (rec m k) (rec' m k)) → upto (mom_loop (T:=T) c rec fuel n k) (mom_loop c rec' fuel n k).
  Proof.
    intros Hrec. revert n k. induction fuel as [|f IH]; intros n k; [constructor|].
    cbn [mom_loop]. fold (mom_loop (T:=T) c rec) (mom_loop (T:=T) c rec').
    destruct (_ <=? _); [constructor|]. destruct (_ =? _); [constructor|].
    destruct (_ =? _); [constructor|].
    apply upto_bind.
    - unfold median_of_ninthers. do 5 (apply upto_bind; [apply upto_refl|intros ?]).
      apply upto_bind; [by apply upto_slice|]. intros. apply upto_refl.
    - intros p. destruct (Nat.compare p k); [constructor| |by apply upto_slice].
      apply upto_bind; [constructor|]. intros k'. by apply upto_slice.
  Qed.
  Lemma upto_median_of_medians d d' n k :
    d ≤ d' → upto (median_of_medians (T:=T) c d n k) (median_of_medians c d' n k).
  Proof.
    revert d' n k. induction d as [|d IH]; intros d' n k Hd; [constructor|].
    destruct d' as [|d']; [lia|]. rewrite !median_of_medians_unfold.
    apply upto_bind; [constructor|]. intros _. apply upto_bind; [constructor|]. intros _.
    apply upto_mom_loop. intros. apply IH. lia.
  Qed.

  (** How large an array may be if [median_of_medians] nests [3 + d] deep. *)
  Definition reach (d : nat) : N := (8448 * 1024 ^ N.of_nat d)%N.
  Lemma ninther_frac_reach n d : (N.of_nat n < reach (S d))%N → (N.of_nat (ninther_frac n) < reach d)%N.
  Proof.
    unfold reach. intros Hn. rewrite Nat2N.inj_succ, N.pow_succ_r' in Hn.
    assert (1 ≤ 1024 ^ N.of_nat d)%N by (apply N.lt_pred_le, N.neq_0_lt_0, N.pow_nonzero; lia).
    unfold ninther_frac. destruct (Nat.leb_spec n 1024).
    { pose proof (Nat.div_le_mono n 1024 12 ltac:(lia) ltac:(lia)) as Hd.
      change (1024 / 12) with 85 in Hd. lia. }
    destruct (N.leb_spec (N.of_nat n) 131072).
    - assert (N.of_nat (n / 64) ≤ 2048)%N; [|lia].
      rewrite Nat2N.inj_div. apply N.div_le_upper_bound; lia.
    - rewrite Nat2N.inj_div. apply N.div_lt_upper_bound; lia.
  Qed.
  Lemma ninther_frac_reach0 n : (N.of_nat n < 8448)%N → ninther_frac n < 132.
  Proof.
    intros Hn. unfold ninther_frac. destruct (Nat.leb_spec n 1024).
    { pose proof (Nat.div_le_mono n 1024 12 ltac:(lia) ltac:(lia)) as Hd.
      change (1024 / 12) with 85 in Hd. lia. }
    rewrite (proj2 (N.leb_le _ _)) by lia. apply Nat.div_lt_upper_bound; lia.
  Qed.
  Lemma ninther_frac_small n : n < 132 → ninther_frac n < 11.
  Proof.
    intros Hn. unfold ninther_frac. rewrite (proj2 (Nat.leb_le _ _)) by lia.
    apply Nat.div_lt_upper_bound; lia.
  Qed.

  Context (ans : T * T → option bool → Prop) (Hz : zst c = false).
  (** [median_of_medians] with depth [d] copes with arrays for which [P] holds. *)
  Definition copes (d : nat) (P : nat → Prop) : Prop :=
    ∀ l k, P (length l) → (k < length l ∨ length l = 0) →
      wp ans (median_of_medians c d (length l) k) (λ _ l', l' ≡ₚ l) (spanic c ans l) l.
  Lemma copes_step d (P P' : nat → Prop) :
    copes d P → (∀ n n', P' n → 10 < n' ≤ n → P (ninther_frac n')) → copes (S d) P'.
  Proof.
    intros Hc HP l k Hl Hk. rewrite median_of_medians_unfold. unfold dassert.
    apply wp_bind. destruct (dbg c && negb (k <? length l)) eqn:Hb.
    { apply andb_true_iff in Hb as [? _]. apply wp_throw; by split; auto. }
    apply wp_ret. apply wp_bind. rewrite Hz. rewrite andb_false_r. apply wp_ret.
    eapply wp_mono; [apply mom_loop_spec; [done|lia|unfold SEL_MAX_INSERTION; lia|]|by intros [] ? _ [? _]|auto].
    intros m k' n' Hn' Hm Hk'. apply Hc; [|done]. rewrite Hm. by apply (HP (length l)).
  Qed.
  Lemma copes_none d : copes d (λ _, False).
  Proof. by intros l k []. Qed.
  Lemma copes_reach d : copes (3 + d) (λ n, (N.of_nat n < reach d)%N).
  Proof.
    induction d as [|d IH].
    - apply (copes_step 2 (λ n, n < 132)); [apply (copes_step 1 (λ n, n < 11));
        [apply (copes_step 0 (λ _, False)); [apply copes_none|]|]|]; cbv beta.
      + intros n n' Hn ?. lia.
      + intros n n' Hn ?. apply ninther_frac_small. lia.
      + unfold reach. intros n n' Hn ?. apply ninther_frac_reach0. simpl in Hn. lia.
    - eapply copes_step; [apply IH|]. cbv beta. intros n n' Hn ?. apply ninther_frac_reach. lia.
  Qed.
End depth.

Lemma wp_ends {T S A} (p : cmp_prog T A) (o : S → T * T → option bool * S) s l Φ E :
  wp ans_all p Φ E l → (run o p s l).1.1 ≠ Diverged.
Proof.
  intros H. pose proof (wp_run ans_all o p ltac:(done) Φ E s l H) as H'.
  by destruct (run o p s l) as [[[]?]?].
Qed.
Lemma median_of_medians_depth {T S} (c : cfg) (o : S → T * T → option bool * S) s (l : list T) k d :
  zst c = false → k < length l → (N.of_nat (length l) < 8448 * 1024 ^ N.of_nat d)%N →
  (run o (median_of_medians c (3 + d) (length l) k) s l).1.1 ≠ Diverged.
Proof.
  intros Hz Hk Hl.
  eapply wp_ends, (copes_reach c ans_all Hz d l k Hl). by left.
Qed.

(** The same run for every depth that suffices. *)
Lemma median_of_medians_same {T S} (c : cfg) (o : S → T * T → option bool * S) s (l : list T) k d d' :
  (run o (median_of_medians c d (length l) k) s l).1.1 ≠ Diverged →
  (run o (median_of_medians c d' (length l) k) s l).1.1 ≠ Diverged →
  run o (median_of_medians c d (length l) k) s l = run o (median_of_medians c d' (length l) k) s l.
Proof.
  intros H H'. destruct (Nat.le_ge_cases d d').
  - symmetry. by apply upto_run; [apply upto_median_of_medians|].
  - by apply upto_run; [apply upto_median_of_medians|].
Qed.

Lemma median_of_medians_eight {T S'} (c : cfg) (o : S' → T * T → option bool * S') s (l : list T) k :
  zst c = false → k < length l → (N.of_nat (length l) < 2 ^ 63)%N →
  run o (median_of_medians c (bit_length (length l) + 1) (length l) k) s l =
    run o (median_of_medians c 8 (length l) k) s l ∧
  (run o (median_of_medians c 8 (length l) k) s l).1.1 ≠ Diverged.
Proof.
  intros Hz Hk Hl. rewrite Nat.add_1_r.
  assert (H8 : (run o (median_of_medians c 8 (length l) k) s l).1.1 ≠ Diverged).
  { apply (median_of_medians_depth c o s l k 5 Hz Hk). eapply N.lt_trans; [exact Hl|reflexivity]. }
  split; [|done]. apply median_of_medians_same; [|done].
  eapply wp_ends, (median_of_medians_spec c ans_all (bit_length (length l)) (length l) k l);
    [done|apply bit_length_spec|by left|done].
Qed.

Lemma partition_at_indices_depth {T S} (c : cfg) (o : S → T * T → option bool * S) s (l : list T) inds :
  inds ≠ [] → (N.of_nat (length l) ≤ if wide c then 2 ^ 64 else 2 ^ 32)%N →
  ∀ fuel, length inds < fuel →
  (run o (partition_at_indices c (Nat.log2 (length inds) + 2) fuel (length l) 0 0 inds) s l).1.1 ≠ Diverged.
Proof.
  intros Hi Hl fuel Hf. rewrite Nat.add_succ_r.
  pose proof (Nat.log2_spec (length inds) ltac:(by destruct inds; simpl; [|lia])) as [_ H2].
  rewrite Nat.add_1_r.
  eapply wp_ends, (partition_at_indices_spec c ans_all _ fuel (length l) 0 0 inds l eq_refl Hf H2 Hl).
Qed.
Lemma select_many_uses_depth {T} (c : cfg) n inds :
  inds ≠ [] →
  select_many_nth_unstable (T:=T) c n inds =
    partition_at_indices c (Nat.log2 (length inds) + 2) (length inds + 1) n 0 0 inds.
Proof.
  intros Hi. unfold select_many_nth_unstable, select_many. rewrite Nat.add_1_r. f_equal.
  unfold bit_length. destruct inds as [|i inds]; [done|]. cbn [length]. lia.
Qed.
