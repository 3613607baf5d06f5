(** * The merges of the stable sort cost O(n log k) if there are k runs. *)
From Verif Require Export CMerge.
From stdpp Require Import list.

(** ** The run [y] below the new run [z] while it swallows the shorter runs below. *)
Definition below (y : nat) (rest : list nat) : Prop :=
  match rest with
  | x :: r => y ≤ 2 * x ∧ match r with w :: _ => y ≤ w | [] => True end
  | [] => True
  end.
Lemma below_fib y rest : fib (y :: rest) → below y rest.
Proof. destruct rest as [|x [|w r]]; simpl; [done|lia|]. lia. Qed.
Lemma below_merge y x r : fib (x :: r) → below y (x :: r) → below (x + y) r.
Proof. destruct r as [|w [|v r]]; simpl; [done|lia|]. lia. Qed.

(** The cost of merging everything, if the two runs at the top have [a] elements. *)
Fixpoint rest_cost (a : nat) (rest : list nat) : nat :=
  match rest with
  | [] => a
  | x :: r => (a + x) + rest_cost (a + x) r
  end.
Lemma rest_cost_bound a p r :
  fib r → below p r → rest_cost (a + p) r ≤ a * S (length r) + p + 4 * sum_list r.
Proof.
  revert p. induction r as [|x r IH]; intros p Hf Hb; [simpl; lia|].
  assert (Hx : p ≤ 2 * x) by apply Hb.
  pose proof (IH (x + p) (fib_drop 1 _ Hf) (below_merge _ _ _ Hf Hb)) as H.
  cbn [rest_cost]. replace (a + p + x) with (a + (x + p)) by lia. simpl in *. lia.
Qed.

(** ** The height of a stack of runs that are not shorter than [z]. *)
Lemma fib_le ls z x : fib (x :: ls) → z ≤ x → Forall (λ y, z ≤ y) (x :: ls).
Proof.
  revert x. induction ls as [|y ls IH]; intros x Hf Hx; [by repeat constructor|].
  constructor; [done|]. simpl in Hf. apply IH; [apply Hf|lia].
Qed.
Lemma height_bound z rest n :
  0 < z → fib rest → (match rest with x :: _ => z ≤ x | [] => True end) → sum_list rest ≤ n →
  length rest ≤ 2 * Nat.log2 (n / z) + 1.
Proof.
  intros Hz Hf Hx Hn. destruct rest as [|x [|w r]]; simpl; [lia|lia|].
  pose proof (fib_le _ _ _ Hf Hx) as Hall. apply Forall_cons in Hall as [_ Hall].
  apply Forall_cons in Hall as [Hw _].
  pose proof (fib_height r z x w Hx Hw Hf) as H.
  assert (H2 : 2 ^ S (length r / 2) ≤ n / z).
  { apply Nat.div_le_lower_bound; lia. }
  assert (0 < n / z).
  { pose proof (Nat.pow_nonzero 2 (S (length r / 2))). lia. }
  apply Nat.log2_le_pow2 in H2; [|done].
  pose proof (Nat.div_mod (length r) 2). pose proof (Nat.mod_upper_bound (length r) 2). lia.
Qed.

(** What a run of length [z] pays, if there are [k] runs of average length [m]. *)
Lemma log_charge n k m z :
  0 < z → 0 < k → n ≤ k * m → z * Nat.log2 (n / z) ≤ z * (Nat.log2 k + 2) + m.
Proof.
  intros Hz Hk Hn. destruct (decide (m ≤ z)) as [Hm|Hm].
  - assert (n / z ≤ k).
    { apply Nat.div_le_upper_bound; [lia|].
      assert (k * m ≤ k * z) by (apply Nat.mul_le_mono_l; lia). lia. }
    assert (Nat.log2 (n / z) ≤ Nat.log2 k) by (by apply Nat.log2_le_mono).
    assert (z * Nat.log2 (n / z) ≤ z * (Nat.log2 k + 2)) by (apply Nat.mul_le_mono_l; lia). lia.
  - set (q := m / z).
    assert (Hq : 1 ≤ q) by (apply Nat.div_le_lower_bound; lia).
    assert (Hqm : z * q ≤ m) by (apply Nat.mul_div_le; lia).
    assert (Hmq : m ≤ z * (q + 1)).
    { pose proof (Nat.mul_succ_div_gt m z ltac:(lia)). fold q in H. lia. }
    assert (Hle : n / z ≤ 2 * k * q).
    { apply Nat.div_le_upper_bound; [lia|].
      assert (k * m ≤ k * (z * (q + 1))) by (apply Nat.mul_le_mono_l; lia).
      assert (z * (q + 1) ≤ z * (2 * q)) by (apply Nat.mul_le_mono_l; lia).
      assert (k * (z * (q + 1)) ≤ k * (z * (2 * q))) by (apply Nat.mul_le_mono_l; lia).
      lia. }
    apply Nat.log2_le_mono in Hle.
    pose proof (Nat.log2_mul_above (2 * k) q ltac:(lia) ltac:(lia)) as H1.
    assert (H2 : Nat.log2 (2 * k) = S (Nat.log2 k)) by (apply Nat.log2_double; lia).
    assert (H3 : Nat.log2 q ≤ q) by (apply Nat.lt_le_incl, Nat.log2_lt_lin; lia).
    assert (H4 : z * Nat.log2 (n / z) ≤ z * (Nat.log2 k + 2 + q)) by (apply Nat.mul_le_mono_l; lia).
    lia.
Qed.

Lemma pot_merge y x r : pot ((x + y) :: r) ≤ pot (y :: x :: r).
Proof. cbn [pot]. simpl length. lia. Qed.

Section collapse.
  Context {T : Type} (c : cfg).

  (** A new run [z]: the runs below that are shorter are merged first, at a cost
      that is linear in [z]. *)
  Lemma collapse_start_cost fuel cap n z y rest k0 Φ B k :
    sum_list (z :: y :: rest) ≤ n → fib rest → below y rest → 0 < y →
    k0 + 9 * z ≤ B →
    (k ≤ k0 ∨ y ≤ 3 * z ∧ k ≤ k0 + 3 * y) →
    (∀ fuel y' rest' k', sum_list (y' :: rest') = sum_list (y :: rest) → fib rest' → below y' rest' →
       0 < y' → Forall (λ x, 0 < x) rest →
       (match rest' with x :: _ => z ≤ x | [] => True end) →
       k' ≤ k0 + 9 * z → pot (y' :: rest') ≤ pot (y :: rest) → (∃ r, rest = r ++ rest') →
       costs (collapse_loop (T:=T) fuel cap n (runs_at 0 (rev (z :: y' :: rest')))) Φ B k') →
    Forall (λ x, 0 < x) rest →
    costs (collapse_loop (T:=T) fuel cap n (runs_at 0 (rev (z :: y :: rest)))) Φ B k.
  Proof.
    revert fuel y k. induction rest as [|x rest IH]; intros fuel y k Hsum Hf Hb Hy HB Hk HΦ Hpos.
    { apply HΦ; auto; [lia|]. by exists []. }
    destruct (decide (z ≤ x)) as [Hzx|Hzx].
    { apply HΦ; auto; [lia|]. by exists []. }
    destruct fuel as [|fuel]; [apply costs_nofuel|].
    pose proof (collapse_view (z :: y :: x :: rest) n) as Hv.
    destruct (collapse (runs_at 0 (rev (z :: y :: x :: rest))) n) as [r|] eqn:Hc.
    2: { exfalso. destruct Hv as [Hv|[_ Hv]]; [simpl in Hv; lia|]. simpl in Hv. lia. }
    destruct Hv as [(z' & y' & x' & rest' & [= <- <- <- <-] & Hxz & ->)
                   |(z' & y' & rest' & [= <- <- <-] & _ & Hx & _)]; [|lia].
    assert (Hrev : rev (z :: y :: x :: rest) = rev rest ++ x :: y :: [z])
      by (simpl; by rewrite <-!app_assoc).
    assert (Hs : sum_list (rev rest ++ x :: y :: [z]) = sum_list (z :: y :: x :: rest)).
    { by rewrite <-Hrev, sum_list_rev. }
    rewrite Hrev in *.
    assert (Hyx : y ≤ 2 * x) by apply Hb.
    apply collapse_step_cost; [lia|lia| |by rewrite rev_length].
    intros k' Hk'.
    replace (rev rest ++ x + y :: [z]) with (rev (z :: (x + y) :: rest))
      by (simpl; by rewrite <-!app_assoc).
    apply Forall_cons in Hpos as [Hx0 Hpos].
    apply IH; auto.
    - simpl in *. lia.
    - exact (fib_drop 1 _ Hf).
    - by apply below_merge.
    - lia.
    - right. lia.
    - intros fuel' y' rest' k'' H1 H2 H3 H4 H5 H6 H7 H8 (r' & ->).
      apply HΦ; auto.
      + simpl in *. lia.
      + etrans; [exact H8|apply pot_merge].
      + by exists (x :: r').
  Qed.

  Lemma collapse_one_cost fuel cap n a (Φ : list run_t → nat → Prop) B k :
    Φ (runs_at 0 [a]) k →
    costs (collapse_loop (T:=T) fuel cap n (runs_at 0 [a])) Φ B k.
  Proof.
    intros HΦ. destruct fuel as [|fuel]; [apply costs_nofuel|].
    pose proof (collapse_view [a] n) as Hv. cbn [collapse_loop]. simpl rev in Hv.
    destruct (collapse (runs_at 0 [a]) n); [|by apply costs_ret].
    destruct Hv as [(? & ? & ? & ? & [=] & _)|(? & ? & ? & [=] & _)].
  Qed.

  (** The last run: everything is merged. *)
  Lemma collapse_end_cost fuel cap n t y rest B k :
    sum_list (t :: y :: rest) ≤ n → k + rest_cost (t + y) rest ≤ B →
    costs (collapse_loop (T:=T) fuel cap n (runs_at 0 (rev (t :: y :: rest))))
      (λ _ k', k' ≤ B) B k.
  Proof.
    revert fuel t y k. induction rest as [|x rest IH]; intros fuel t y k Hsum Hk.
    all: destruct fuel as [|fuel]; [apply costs_nofuel|].
    all: match goal with |- costs (collapse_loop _ _ _ (runs_at 0 (rev ?ls))) _ _ _ =>
           pose proof (collapse_view ls n) as Hv;
           destruct (collapse (runs_at 0 (rev ls)) n) as [r|] eqn:Hc;
             [|cbn [collapse_loop]; rewrite Hc; apply costs_ret; lia]
         end.
    - simpl in Hk.
      destruct Hv as [(? & ? & ? & ? & [=] & _)|(z' & y' & rest' & [= <- <- <-] & -> & _)].
      change (rev [t; y]) with ([] ++ y :: t :: []) in *.
      apply collapse_step_cost; [simpl in *; lia|lia| |done].
      intros k' Hk'. apply collapse_one_cost. lia.
    - cbn [rest_cost] in Hk.
      destruct Hv as [(z' & y' & x' & rest' & [= <- <- <- <-] & Hxz & ->)
                     |(z' & y' & rest' & [= <- <- <-] & -> & _)].
      + assert (Hrev : rev (t :: y :: x :: rest) = rev rest ++ x :: y :: [t])
          by (simpl; by rewrite <-!app_assoc).
        assert (Hs : sum_list (rev rest ++ x :: y :: [t]) = sum_list (t :: y :: x :: rest)).
        { by rewrite <-Hrev, sum_list_rev. }
        rewrite Hrev in *.
        apply collapse_step_cost; [lia|lia| |by rewrite rev_length].
        intros k' Hk'.
        replace (rev rest ++ x + y :: [t]) with (rev (t :: (x + y) :: rest))
          by (simpl; by rewrite <-!app_assoc).
        apply IH; [simpl in *; lia|]. replace (t + (x + y)) with (t + y + x) by lia. lia.
      + assert (Hrev : rev (t :: y :: x :: rest) = rev (x :: rest) ++ y :: t :: [])
          by (simpl; by rewrite <-!app_assoc).
        assert (Hs : sum_list (rev (x :: rest) ++ y :: t :: []) = sum_list (t :: y :: x :: rest)).
        { by rewrite <-Hrev, sum_list_rev. }
        rewrite Hrev in *.
        apply collapse_step_cost; [lia|lia| |by rewrite rev_length].
        intros k' Hk'.
        replace (rev (x :: rest) ++ [y + t]) with (rev ((y + t) :: x :: rest)) by done.
        apply IH; [simpl in *; lia|]. replace (y + t + x) with (t + y + x) by lia. lia.
  Qed.

  (** A new run [z] on the stack [ls]; afterwards either everything has been
      merged or the potential has grown by the share of [z]. *)
  Lemma push_cost fuel cap n K m z ls M B k :
    0 < K → n ≤ K * m → 0 < z → sum_list (z :: ls) ≤ n → Forall (λ x, 0 < x) ls → fib ls →
    k + 4 * pot ls ≤ M + 10 * z →
    M + (8 * Nat.log2 K + 50) * z + 8 * m + 4 * n ≤ B →
    costs (collapse_loop (T:=T) fuel cap n (runs_at 0 (rev (z :: ls))))
      (λ runs k', k' ≤ B ∧ (sum_list (z :: ls) < n →
         ∃ ls', runs = runs_at 0 (rev ls') ∧ sum_list ls' = sum_list (z :: ls) ∧
           Forall (λ x, 0 < x) ls' ∧ fib ls' ∧
           k' + 4 * pot ls' ≤ M + (8 * Nat.log2 K + 50) * z + 8 * m)) B k.
  Proof.
    intros HK Hn Hz Hsum Hpos Hf Hk HB. set (L := Nat.log2 K) in *.
    pose proof (log_charge n K m z Hz HK Hn) as Hch. fold L in Hch.
    destruct ls as [|y rest].
    { apply collapse_one_cost. simpl in *. split; [lia|]. intros _. exists [z].
      split; [done|]. split; [done|]. split; [by repeat constructor|]. split; [done|].
      simpl. lia. }
    apply Forall_cons in Hpos as [Hy Hpos].
    apply (collapse_start_cost _ _ _ _ _ _ k); auto.
    { exact (fib_drop 1 _ Hf). }
    { by apply below_fib. }
    { lia. }
    clear fuel. intros fuel y' rest' k' Hs' Hf' Hb' Hy' _ Hx' Hk' Hpot' (r & ->).
    apply Forall_app in Hpos as [_ Hpos].
    assert (Hh : length rest' ≤ 2 * Nat.log2 (n / z) + 1).
    { apply height_bound; auto. simpl in *. lia. }
    assert (Hzh : z * length rest' ≤ 2 * (z * (L + 2) + m) + z).
    { etrans; [apply Nat.mul_le_mono_l; exact Hh|]. lia. }
    destruct (decide (sum_list (z :: y :: r ++ rest') < n)) as [Hlt|Hge].
    - eapply costs_mono; [apply (collapse_loop_cost _ _ n _ (M + (8 * L + 50) * z + 8 * m))|].
      + simpl in *. lia.
      + by repeat constructor.
      + done.
      + cbn [pot] in *. simpl length. lia.
      + lia.
      + intros runs k'' _ (ls' & H1 & H2 & H3 & H4 & H5). split; [lia|]. intros _. exists ls'.
        repeat split; auto. rewrite H2. simpl in *. lia.
    - eapply costs_mono; [apply collapse_end_cost|].
      + simpl in *. lia.
      + pose proof (rest_cost_bound z y' rest' Hf' Hb') as Hr.
        simpl in Hsum, Hs'. cbn [pot] in *. lia.
      + intros runs k'' _ Hk''. split; [exact Hk''|]. lia.
  Qed.
End collapse.
