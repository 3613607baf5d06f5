(** * The parallel stable sort makes O(n log n) calls, for every closure and every
    schedule. *)
From Verif Require Export CMerge Calls.
From stdpp Require Import list.
From Coq Require Import NArith.

(** ** One chunk. *)
Section leaves.
  Context {T : Type} (c : cfg).
  Notation P A := (cmp_prog T A).
  Implicit Types (B k n : nat).

  Lemma costs_read {Q R A} i (f : T → prog T Q R A) Φ B k :
    (∀ x, costs (f x) Φ B k) → costs (Read i f) Φ B k.
  Proof. Local Transparent costs. intros H. exact H. Qed.
  Local Opaque costs.
  Local Transparent silent.
  Lemma costs_bget n cap i (Φ : T → nat → Prop) B k :
    (∀ x, Φ x k) → costs (bget n cap i : P T) Φ B k.
  Proof.
    intros H. unfold bget. destruct (i <? cap); [|apply costs_undef].
    apply costs_read. intros x. by apply costs_ret.
  Qed.
  Lemma bget_silent n cap i : silent (bget n cap i : P T).
  Proof. unfold bget. destruct (i <? cap); simpl; auto. Qed.
  Lemma bput_silent n cap i x : silent (bput n cap i x : P unit).
  Proof. unfold bput. destruct (i <? cap); simpl; auto. Qed.
  Lemma vget_silent v i : silent (vget v i : P T).
  Proof. unfold vget. destruct (i <? v.2); simpl; auto. Qed.
  Lemma vput_silent v i x : silent (vput v i x : P unit).
  Proof. unfold vput. destruct (i <? v.2); simpl; auto. Qed.
  Local Opaque silent.
  Lemma vcopy_silent u j v i x : silent (vcopy u j v i x : P unit).
  Proof. unfold vcopy. destruct (_ =? _); [done|apply vput_silent]. Qed.
  Local Hint Resolve bget_silent bput_silent vget_silent vput_silent vcopy_silent : polite.
  Lemma pm_hole_drop_silent n cap a b d : silent (pm_hole_drop n cap a b d : P unit).
  Proof. unfold pm_hole_drop. polite. Qed.
  Lemma pm_copy_out_silent n cap base cnt : silent (pm_copy_out n cap base cnt : P unit).
  Proof. unfold pm_copy_out. polite. Qed.
  Lemma state_drop_silent l r d a b e : silent (state_drop l r d a b e : P unit).
  Proof. unfold state_drop. polite. Qed.
  Lemma copy_on_drop_silent s d a b : silent (copy_on_drop s d a b : P unit).
  Proof. unfold copy_on_drop. polite. Qed.
  Local Hint Resolve pm_hole_drop_silent : polite.

  Lemma pm_insert_loop_cost n (tmp : T) i cnt B k :
    k + cnt ≤ B → costs (pm_insert_loop n tmp i cnt) (λ _ k', k' ≤ k + cnt) B k.
  Proof.
    revert i k. induction cnt as [|cnt IH]; intros i k Hk; simpl; repeat cost_step; try lia.
    cost_call (IH (S i) (S k)); [lia|]. cost_fin.
  Qed.
  Lemma pm_insert_head_cost n B k :
    k + (n - 1) ≤ B → costs (pm_insert_head n : P unit) (λ _ k', k' ≤ k + (n - 1)) B k.
  Proof.
    intros Hk. unfold pm_insert_head. repeat cost_step; try lia.
    cost_call (pm_insert_loop_cost n x1 2 (n - 2)); [lia|]. cost_fin.
  Qed.

  Lemma pm_merge_fwd_cost fuel n cap mid left right out B k :
    k + (mid - left) + (n - right) ≤ B →
    costs (pm_merge_fwd fuel n cap mid left right out : P unit)
      (λ _ k', k' ≤ k + (mid - left) + (n - right)) B k.
  Proof.
    revert left right out k. induction fuel as [|f IH]; intros left right out k Hk; simpl.
    { apply costs_nofuel. }
    destruct (Nat.ltb_spec left mid), (Nat.ltb_spec right n); simpl;
      [|cost_call costs_silent; [polite|cost_fin]..].
    do 2 cost_step. apply costs_bind, costs_bget. intros y.
    repeat cost_step; try (polite); try lia.
    all: cost_call IH; [lia|cost_fin].
  Qed.
  Lemma pm_merge_bwd_cost fuel n cap left right out B k :
    k + left + right ≤ B →
    costs (pm_merge_bwd fuel n cap left right out : P unit) (λ _ k', k' ≤ k + left + right) B k.
  Proof.
    revert left right out k. induction fuel as [|f IH]; intros left right out k Hk; simpl.
    { apply costs_nofuel. }
    destruct (Nat.ltb_spec 0 left), (Nat.ltb_spec 0 right); simpl;
      [|cost_call costs_silent; [polite|cost_fin]..].
    apply costs_bind, costs_bget. intros y.
    repeat cost_step; try (polite); try lia.
    all: cost_call IH; [|]; repeat case_match; cost_fin.
  Qed.
  Lemma pm_merge_cost n cap mid B k :
    mid ≤ n → k + n ≤ B → costs (pm_merge n cap mid : P unit) (λ _ k', k' ≤ k + n) B k.
  Proof.
    intros Hm Hk. unfold pm_merge. repeat cost_step.
    all: eapply costs_mono; [apply costs_silent; apply pm_copy_out_silent|intros buf k' _ ->].
    - cost_call pm_merge_fwd_cost; [lia|cost_fin].
    - cost_call pm_merge_bwd_cost; [lia|cost_fin].
  Qed.
  Lemma costs_slice_buf {A} n a b (p : nat → P A) Φ B k :
    (a ≤ b → b ≤ n → costs (p (b - a)) Φ B k) → costs (slice_buf n a b p) Φ B k.
  Proof.
    intros H. unfold slice_buf.
    destruct (Nat.leb_spec a b), (Nat.leb_spec b n); simpl; try apply costs_throw.
    apply costs_relocate. auto.
  Qed.

  Lemma pm_streak_cost r n start B k :
    k + start ≤ B →
    costs (pm_streak r n start : P nat)
      (λ s k', s ≤ start ∧ k' ≤ k + (start - s) + 1 ∧ k' ≤ k + start) B k.
  Proof.
    revert k. induction start as [|s IH]; intros k Hk; simpl; repeat cost_step; try lia.
    cost_call (IH (S k)); [lia|]. cost_fin.
  Qed.
  Lemma pm_find_run_cost n end_ B k :
    0 < end_ → k + (end_ - 1) ≤ B →
    costs (pm_find_run n end_ : P (nat + ms_result))
      (λ x k', k' ≤ k + (end_ - 1) ∧ match x with inl s => s < end_ ∧ k' ≤ k + (end_ - s) | inr _ => True end) B k.
  Proof.
    intros He Hk. unfold pm_find_run. repeat cost_step; try lia.
    cost_call pm_streak_cost; [lia|]. intros s k' _ (? & ? & ?).
    destruct r; [destruct (_ && _)|]; repeat cost_step; try lia.
    cost_call costs_silent; [apply reverse_silent|]. intros [] ? _ ->.
    apply costs_ret. lia.
  Qed.
  Lemma pm_extend_cost n end_ start B k :
    start < end_ → k + 9 * start ≤ B →
    costs (pm_extend n end_ start : P nat)
      (λ s k', s ≤ start ∧ k' + 9 * s ≤ k + 9 * start) B k.
  Proof.
    revert k. induction start as [|s IH]; intros k Hs Hk; simpl; repeat cost_step; try lia.
    unfold MIN_RUN in *.
    cost_call pm_insert_head_cost; [lia|]. intros [] k' _ Hk'.
    cost_call IH; [lia|lia|]. cost_fin.
  Qed.
End leaves.

(** ** The stack of runs; the lengths are listed from the left, which is the top. *)
Lemma r_len_total (runs : list run_t) (k : nat) : r_len (runs !!! k) = (r_len <$> runs) !!! k.
Proof.
  rewrite !list_lookup_total_alt, list_lookup_fmap. by destruct (runs !! k).
Qed.
Lemma runs_at_lens off ls : r_len <$> runs_at off ls = ls.
Proof. revert off. induction ls as [|a ls IH]; intros off; simpl; [done|]. by rewrite IH. Qed.
Lemma pm_collapse_view off ls :
  pm_collapse (rev (runs_at off ls)) =
  collapse (runs_at 0 (rev ls)) (if off =? 0 then sum_list ls else S (sum_list ls)).
Proof.
  unfold pm_collapse, collapse. rewrite !r_len_total.
  rewrite !rev_length, !runs_at_length, rev_length.
  replace (r_len <$> rev (runs_at off ls)) with (rev ls).
  2: { change (rev ls = map r_len (rev (runs_at off ls))). rewrite map_rev. f_equal. symmetry.
       apply runs_at_lens. }
  rewrite runs_at_lens.
  destruct ls as [|z [|y r]]; [done|done|].
  assert (r_start (rev (runs_at off (z :: y :: r)) !!! (length (z :: y :: r) - 1)) = off) as ->.
  { cbn [runs_at rev]. rewrite (lookup_total_end _ _ _ 0); [done|].
    rewrite app_length, rev_length, runs_at_length. simpl. lia. }
  assert (r_start (runs_at 0 (rev (z :: y :: r)) !!! (length (z :: y :: r) - 1)) =
          sum_list (y :: r)) as ->.
  { cbn [rev]. rewrite runs_at_app, (lookup_total_end _ _ _ 0).
    - exact (sum_list_rev (y :: r)).
    - rewrite runs_at_length, app_length, rev_length. simpl. lia. }
  assert (rev (z :: y :: r) !!! (length (z :: y :: r) - 1) = z) as Hz.
  { cbn [rev]. rewrite (lookup_total_end _ _ _ 0); [done|]. rewrite app_length, rev_length. simpl. lia. }
  rewrite !Hz.
  assert ((off =? 0) = (sum_list (y :: r) + z =?
    (if off =? 0 then sum_list (z :: y :: r) else S (sum_list (z :: y :: r))))) as Heq.
  { destruct off as [|off]; cbn [Nat.eqb sum_list foldr].
    - symmetry. apply Nat.eqb_eq. simpl. lia.
    - symmetry. apply Nat.eqb_neq. simpl. lia. }
  by rewrite <-Heq.
Qed.
Lemma runs_rev_merge off l1 a b l2 :
  let runs := rev (runs_at off (l1 ++ a :: b :: l2)) in
  runs !! (length l2 + 1) = Some (Run (off + sum_list l1) a) ∧
  runs !! length l2 = Some (Run (off + sum_list l1 + a) b) ∧
  delete (length l2 + 1) (<[length l2 := Run (off + sum_list l1) (a + b)]> runs) =
  rev (runs_at off (l1 ++ (a + b) :: l2)).
Proof.
  cbv zeta. rewrite !runs_at_app. cbn [runs_at]. rewrite !rev_app_distr. cbn [rev].
  rewrite <-!app_assoc. cbn [app].
  replace (off + sum_list l1 + (a + b)) with (off + sum_list l1 + a + b) by lia.
  set (X := rev (runs_at (off + sum_list l1 + a + b) l2)).
  assert (length X = length l2) as HX by (unfold X; by rewrite rev_length, runs_at_length).
  rewrite <-HX. split; [|split].
  - rewrite lookup_app_r by lia. by replace (length X + 1 - length X) with 1 by lia.
  - apply lookup_middle.
  - replace (length X) with (length X + 0) at 2 by lia. rewrite insert_app_r. cbn.
    assert (∀ u v w, delete (length X + 1) (X ++ u :: v :: w) = X ++ u :: w) as Hd.
    { intros u v w. change (X ++ u :: v :: w) with (X ++ [u] ++ v :: w). rewrite app_assoc.
      replace (length X + 1) with (length (X ++ [u])) by (rewrite app_length; simpl; lia).
      rewrite delete_middle. by rewrite <-app_assoc. }
    by rewrite Hd.
Qed.

Section chunk.
  Context {T : Type} (c : cfg).
  Notation P A := (cmp_prog T A).
  Implicit Types (B k n : nat).

  Lemma pm_collapse_step_cost fuel n cap off l1 a b l2 Φ B k :
    k + (a + b) ≤ B →
    (∀ k', k' ≤ k + (a + b) →
       costs (pm_collapse_loop fuel n cap (rev (runs_at off (l1 ++ (a + b) :: l2))) : P _) Φ B k') →
    pm_collapse (rev (runs_at off (l1 ++ a :: b :: l2))) = Some (length l2) →
    costs (pm_collapse_loop (S fuel) n cap (rev (runs_at off (l1 ++ a :: b :: l2))) : P _) Φ B k.
  Proof.
    intros Hk Hrest Hc. cbn [pm_collapse_loop]. rewrite Hc.
    destruct (runs_rev_merge off l1 a b l2) as (Ha & Hb & Hd).
    unfold run_get. rewrite Ha, Hb. repeat cost_step. cbn [r_start r_len].
    apply costs_slice_buf. intros _ _.
    cost_call pm_merge_cost; [lia|lia|].
    intros [] k' _ Hk'. rewrite Hd. apply Hrest. lia.
  Qed.
  Lemma pm_collapse_loop_cost fuel n cap off ls M B k :
    0 < off → Forall (λ z, 0 < z) ls → fib (drop 2 ls) →
    k + 4 * pot ls ≤ M + debt ls → M ≤ B →
    costs (pm_collapse_loop fuel n cap (rev (runs_at off ls)) : P _)
      (λ runs k', ∃ ls', runs = rev (runs_at off ls') ∧ sum_list ls' = sum_list ls ∧
         Forall (λ z, 0 < z) ls' ∧ fib ls' ∧ k' + 4 * pot ls' ≤ M) B k.
  Proof.
    intros Hoff. revert ls k. induction fuel as [|f IH]; intros ls k Hpos Hfib Hk HM.
    { apply costs_nofuel. }
    pose proof (collapse_view ls (S (sum_list ls))) as Hv.
    pose proof (pm_collapse_view off ls) as Hpm.
    rewrite (proj2 (Nat.eqb_neq off 0)) in Hpm by lia. rewrite <-Hpm in Hv. clear Hpm.
    destruct (pm_collapse (rev (runs_at off ls))) as [r|] eqn:Hc.
    - destruct Hv as [(z & y & x & rest & -> & Hxz & ->)|(z & y & rest & -> & -> & Hx & Hs)].
      + pose proof (merge_xy z y x rest M k Hxz Hk) as Hm.
        pose proof (debt_pot (z :: (x + y) :: rest)).
        apply (pm_collapse_step_cost f n cap off [z] y x rest); [lia| |done].
        intros k' Hk'. cbn [app]. rewrite (Nat.add_comm y x).
        cost_call (IH (z :: (x + y) :: rest)).
        * apply Forall_cons in Hpos as [? Hpos]. apply Forall_cons in Hpos as [? Hpos].
          apply Forall_cons in Hpos as [? Hpos]. repeat constructor; [done|lia|done].
        * simpl in *. apply Hfib.
        * lia.
        * done.
        * intros runs k'' _ (ls' & H1 & H2 & H3). exists ls'. split; [done|].
          split; [|done]. rewrite H2. simpl. lia.
      + destruct Hs as [Hs|Hs]; [lia|].
        pose proof (merge_yz z y rest M k Hx Hs Hk) as Hm.
        pose proof (debt_pot ((y + z) :: rest)).
        apply (pm_collapse_step_cost f n cap off [] z y rest); [lia| |done].
        intros k' Hk'. cbn [app]. rewrite (Nat.add_comm z y).
        cost_call (IH ((y + z) :: rest)).
        * apply Forall_cons in Hpos as [? Hpos]. apply Forall_cons in Hpos as [? Hpos].
          constructor; [lia|done].
        * exact (fib_drop 1 rest Hfib).
        * lia.
        * done.
        * intros runs k'' _ (ls' & H1 & H2 & H3). exists ls'. split; [done|].
          split; [|done]. rewrite H2. simpl. lia.
    - cbn [pm_collapse_loop]. rewrite Hc. apply costs_ret. exists ls.
      assert (Hset : settled ls).
      { destruct Hv as [Hv|[_ Hv]]; [|done].
        destruct ls as [|? [|]]; simpl in *; [done|done|lia]. }
      rewrite (settled_debt _ Hset) in Hk. repeat split; auto; [|lia].
      by apply fib_settled.
  Qed.
  (** The last run begins at the beginning of the chunk: everything is merged. *)
  Lemma pm_collapse_loop_stop_cost fuel n cap ls B k :
    sum_list ls ≤ n → k + n * (length ls - 1) ≤ B →
    costs (pm_collapse_loop fuel n cap (rev (runs_at 0 ls)) : P _) (λ _ k', k' ≤ B) B k.
  Proof.
    revert ls k. induction fuel as [|f IH]; intros ls k Hsum Hk.
    { apply costs_nofuel. }
    pose proof (collapse_view ls (sum_list ls)) as Hv.
    pose proof (pm_collapse_view 0 ls) as Hpm. change (0 =? 0) with true in Hpm. cbv iota in Hpm. rewrite <-Hpm in Hv. clear Hpm.
    destruct (pm_collapse (rev (runs_at 0 ls))) as [r|] eqn:Hc.
    - destruct Hv as [(z & y & x & rest & -> & Hxz & ->)|(z & y & rest & -> & -> & Hx & Hs)].
      + simpl in Hsum, Hk.
        apply (pm_collapse_step_cost f n cap 0 [z] y x rest); [lia| |done].
        intros k' Hk'. apply IH; simpl; lia.
      + simpl in Hsum, Hk.
        apply (pm_collapse_step_cost f n cap 0 [] z y rest); [lia| |done].
        intros k' Hk'. apply IH; simpl; lia.
    - cbn [pm_collapse_loop]. rewrite Hc. apply costs_ret. lia.
  Qed.

  Local Arguments pm_collapse_loop : simpl never.
  Lemma pm_sort_loop_cost fuel n cap off ls B k :
    0 < n → off + sum_list ls = n → 0 < off → Forall (λ z, 0 < z) ls → fib ls →
    k + 4 * pot ls ≤ (8 * Nat.log2 n + 18) * sum_list ls →
    (10 * Nat.log2 n + 20) * n ≤ B →
    costs (pm_sort_loop c fuel n cap off (rev (runs_at off ls)) : P _) (λ _ k', k' ≤ B) B k.
  Proof.
    intros Hn. revert off ls k. induction fuel as [|f IH]; intros off ls k Hsum Hoff Hpos Hfib Hk HB.
    { apply costs_nofuel. }
    cbn [pm_sort_loop]. rewrite (proj2 (Nat.ltb_lt _ _) Hoff).
    set (s := sum_list ls) in *. set (L := Nat.log2 n) in *.
    assert (Hlen : length ls ≤ 2 * L + 1) by (apply fib_length; auto with lia).
    assert (HkB : k ≤ (8 * L + 18) * s) by lia.
    assert (Hsn : (8 * L + 18) * s + 10 * (n - s) ≤ B).
    { assert ((8 * L + 18) * s + 10 * (n - s) ≤ (8 * L + 18) * n).
      { replace n with (s + (n - s)) at 2 by lia. rewrite Nat.mul_add_distr_l.
        assert (10 * (n - s) ≤ (8 * L + 18) * (n - s)) by (apply Nat.mul_le_mono_r; lia). lia. }
      lia. }
    apply costs_bind. cost_call pm_find_run_cost; [lia|lia|].
    intros [st|res] k1 _ [Hk1 Hst]; [|apply costs_ret; lia].
    destruct Hst as [Hst Hk1'].
    apply costs_bind. cost_call pm_extend_cost; [lia|lia|].
    intros st' k2 _ [Hst' Hk2]. apply costs_bind, costs_usub. intros _.
    set (r := off - st') in *.
    assert (Hrun : rev (runs_at off ls) ++ [Run st' r] = rev (runs_at st' (r :: ls))).
    { cbn [runs_at rev]. by replace (st' + r) with off by lia. }
    rewrite Hrun.
    assert (Hk2' : k2 ≤ k + 10 * r) by lia.
    assert (Hpot : k2 + 4 * pot (r :: ls) ≤ (8 * L + 18) * (s + r)).
    { cbn [pot]. rewrite Nat.mul_add_distr_l.
      assert (r * S (length ls) ≤ r * (2 * L + 2)) by (apply Nat.mul_le_mono_l; lia). lia. }
    apply costs_bind. destruct (decide (st' = 0)) as [->|Hne].
    - eapply costs_mono; [apply (pm_collapse_loop_stop_cost _ n _ (r :: ls))|].
      + simpl. fold s. lia.
      + simpl length. rewrite Nat.sub_succ, Nat.sub_0_r.
        assert (k2 ≤ (8 * L + 18) * n) by (replace n with (s + r) by lia; lia).
        assert (n * length ls ≤ n * (2 * L + 1)) by (apply Nat.mul_le_mono_l; lia). lia.
      + intros runs k3 _ Hk3. destruct f as [|f]; [apply costs_nofuel|].
        cbn [pm_sort_loop Nat.ltb Nat.leb]. apply costs_bind, costs_dassert. by apply costs_ret.
    - eapply costs_mono; [apply (pm_collapse_loop_cost _ n _ st' (r :: ls) ((8 * L + 18) * (s + r)))|].
      + lia.
      + constructor; [lia|done].
      + simpl. by apply (fib_drop 1).
      + lia.
      + assert ((8 * L + 18) * (s + r) ≤ (8 * L + 18) * n) by (apply Nat.mul_le_mono_l; lia). lia.
      + intros runs k3 _ (ls' & -> & Hs' & Hpos' & Hfib' & Hk3).
        assert (sum_list (r :: ls) = s + r) as Hs2 by (simpl; fold s; lia).
        rewrite Hs2 in Hs'.
        apply IH; [lia|lia|done|done|by rewrite Hs'|done].
  Qed.
  Lemma pm_merge_sort_cost n cap B :
    (10 * Nat.log2 n + 20) * n ≤ B →
    costs (pm_merge_sort c n cap : P _) (λ _ k', k' ≤ B) B 0.
  Proof.
    intros HB. unfold pm_merge_sort. destruct (decide (n = 0)) as [->|Hn].
    { cbn. apply costs_bind, costs_dassert, costs_ret. lia. }
    apply (pm_sort_loop_cost (S n) n cap n []); simpl; auto with lia.
  Qed.
End chunk.

(** ** Merging in parallel. *)
Section merge.
  Context {T : Type} (c : cfg).
  Notation P A := (cmp_prog T A).
  Implicit Types (B k n : nat).

  Lemma costs_vget v i (Φ : T → nat → Prop) B k :
    (∀ x, Φ x k) → costs (vget v i : P T) Φ B k.
  Proof.
    intros H. unfold vget. destruct (_ <? _); [|apply costs_throw].
    apply costs_read. intros x. by apply costs_ret.
  Qed.
  Lemma costs_vcopy u j v i x (Φ : unit → nat → Prop) B k :
    Φ tt k → costs (vcopy u j v i x : P unit) Φ B k.
  Proof.
    intros H. cost_call costs_silent; [apply vcopy_silent|]. by intros [] ? _ ->.
  Qed.
  Lemma costs_vput v i x (Φ : unit → nat → Prop) B k :
    Φ tt k → costs (vput v i x : P unit) Φ B k.
  Proof.
    intros H. cost_call costs_silent; [apply vput_silent|]. by intros [] ? _ ->.
  Qed.

  Lemma split_search_right_cost fuel left right lm a b d B k :
    b - a < 2 ^ d → k + d ≤ B →
    costs (split_search_right fuel left right lm a b : P nat) (λ _ k', k' ≤ k + d) B k.
  Proof.
    revert a b d k. induction fuel as [|f IH]; intros a b d k Hd Hk; [apply costs_nofuel|].
    cbn [split_search_right]. destruct (Nat.ltb_spec a b); [|apply costs_ret; lia].
    destruct d as [|d]; [simpl in Hd; lia|]. rewrite Nat.pow_succ_r' in Hd.
    pose proof (Nat.div_mod (b - a) 2 ltac:(lia)).
    pose proof (Nat.mod_upper_bound (b - a) 2 ltac:(lia)).
    set (h := (b - a) / 2) in *.
    apply costs_bind, costs_vget. intros y. apply costs_bind, costs_vget. intros x.
    apply costs_bind, costs_is_less; [lia|]. intros [].
    all: (cost_call (IH _ _ d (S k)); [lia|lia|cost_fin]).
  Qed.
  Lemma split_search_left_cost fuel left right rm a b d B k :
    b - a < 2 ^ d → k + d ≤ B →
    costs (split_search_left fuel left right rm a b : P nat) (λ _ k', k' ≤ k + d) B k.
  Proof.
    revert a b d k. induction fuel as [|f IH]; intros a b d k Hd Hk; [apply costs_nofuel|].
    cbn [split_search_left]. destruct (Nat.ltb_spec a b); [|apply costs_ret; lia].
    destruct d as [|d]; [simpl in Hd; lia|]. rewrite Nat.pow_succ_r' in Hd.
    pose proof (Nat.div_mod (b - a) 2 ltac:(lia)).
    pose proof (Nat.mod_upper_bound (b - a) 2 ltac:(lia)).
    set (h := (b - a) / 2) in *.
    apply costs_bind, costs_vget. intros y. apply costs_bind, costs_vget. intros x.
    apply costs_bind, costs_is_less; [lia|]. intros [].
    all: (cost_call (IH _ _ d (S k)); [lia|lia|cost_fin]).
  Qed.
  Lemma lt_pow2_log2 n : n < 2 ^ (Nat.log2 n + 1).
  Proof.
    destruct (decide (n = 0)) as [->|]; [simpl; lia|].
    rewrite Nat.add_1_r. apply Nat.log2_spec. lia.
  Qed.
  (** Both parts of the split get a quarter of the elements, but for one. *)
  Lemma split_for_merge_calls left right :
    calls (split_for_merge left right : P (nat * nat))
      (λ r, (left.2 + right.2) ≤ 4 * (r.1 + r.2) + 4 ∧
            (r.1 ≤ left.2 → r.2 ≤ right.2 →
             left.2 + right.2 ≤ 4 * ((left.2 - r.1) + (right.2 - r.2)) + 4))
      (Nat.log2 (left.2 + right.2) + 1).
  Proof.
    set (L := Nat.log2 (left.2 + right.2)).
    assert (∀ x, x ≤ left.2 + right.2 → x < 2 ^ (L + 1)) as Hlog.
    { intros x Hx. eapply Nat.le_lt_trans; [exact Hx|apply lt_pow2_log2]. }
    unfold split_for_merge.
    pose proof (Nat.div_mod left.2 2 ltac:(lia)). pose proof (Nat.mod_upper_bound left.2 2 ltac:(lia)).
    pose proof (Nat.div_mod right.2 2 ltac:(lia)). pose proof (Nat.mod_upper_bound right.2 2 ltac:(lia)).
    set (hl := left.2 / 2) in *. set (hr := right.2 / 2) in *.
    destruct (Nat.leb_spec right.2 left.2).
    - eapply (calls_bind _ _ (λ _, True) _ (L + 1) 0); [| |lia].
      + eapply calls_mono; [eapply (costs_calls _ _ (L + 1) 0),
          (split_search_right_cost _ _ _ _ _ _ (L + 1)); [apply Hlog|]; lia|lia|done].
      + intros a _. apply calls_ret. simpl. lia.
    - eapply (calls_bind _ _ (λ _, True) _ (L + 1) 0); [| |lia].
      + eapply calls_mono; [eapply (costs_calls _ _ (L + 1) 0),
          (split_search_left_cost _ _ _ _ _ _ (L + 1)); [apply Hlog|]; lia|lia|done].
      + intros a _. apply calls_ret. simpl. lia.
  Qed.

  Lemma seq_merge_cost fuel left right dest ls rs ds B k :
    k + (left.2 - ls) + (right.2 - rs) ≤ B →
    costs (seq_merge fuel left right dest ls rs ds : P unit) (λ _ k', k' ≤ B) B k.
  Proof.
    revert ls rs ds k. induction fuel as [|f IH]; intros ls rs ds k Hk; [apply costs_nofuel|].
    cbn [seq_merge]. pose proof (λ a b e, state_drop_silent (T:=T) left right dest a b e) as Hsd.
    destruct (Nat.ltb_spec ls left.2), (Nat.ltb_spec rs right.2); cbn [andb];
      [|cost_call costs_silent; [apply Hsd|cost_fin]..].
    apply costs_bind, costs_on_unwind, costs_vget; [apply Hsd|]. intros x.
    apply costs_bind, costs_on_unwind, costs_vget; [apply Hsd|]. intros y.
    apply costs_bind, costs_on_unwind, costs_is_less; [apply Hsd|lia|]. intros [].
    all: apply costs_bind, costs_on_unwind, costs_vcopy; [apply Hsd|]; apply IH; lia.
  Qed.

  Lemma calls_vsplit v at_ :
    calls (vsplit v at_ : P (view * view)) (λ r, at_ ≤ v.2 ∧ r.1.2 = at_ ∧ r.2.2 = v.2 - at_) 0.
  Proof.
    unfold vsplit. destruct (Nat.leb_spec at_ v.2); [|apply calls_throw].
    apply calls_ret. simpl. auto.
  Qed.
  Lemma calls_vslice v a b :
    calls (vslice v a b : P view) (λ r, a ≤ b ∧ b ≤ v.2 ∧ r.2 = b - a) 0.
  Proof.
    unfold vslice. destruct (Nat.leb_spec a b), (Nat.leb_spec b v.2); try apply calls_throw.
    apply calls_ret. simpl. auto.
  Qed.

  Lemma three_log2 n : 16 ≤ n → 3 * Nat.log2 n ≤ n.
  Proof.
    intros Hn. assert (Hl : 4 ≤ Nat.log2 n) by (apply (Nat.log2_le_mono 16); done).
    assert (∀ k, 3 * (4 + k) ≤ 2 ^ (4 + k)) as H.
    { induction k as [|k IH]; [simpl; lia|].
      replace (4 + S k) with (S (4 + k)) by lia. rewrite Nat.pow_succ_r'. lia. }
    specialize (H (Nat.log2 n - 4)). replace (4 + (Nat.log2 n - 4)) with (Nat.log2 n) in H by lia.
    pose proof (Nat.log2_spec n ltac:(lia)). lia.
  Qed.
  Lemma log2_eighth n m : 0 < n → n ≤ 8 * m → Nat.log2 n ≤ Nat.log2 m + 3.
  Proof.
    intros Hn Hm. etrans; [apply Nat.log2_le_mono, Hm|].
    change 8 with (2 ^ 3). rewrite Nat.mul_comm, Nat.log2_mul_pow2 by lia. lia.
  Qed.

  Lemma par_merge_calls fuel left right dest b :
    let n := left.2 + right.2 in
    n ≤ b → (16 ≤ n → 2 * n ≤ b + 3 * Nat.log2 n) →
    calls (par_merge fuel left right dest : P unit) (λ _, True) b.
  Proof.
    cbv zeta. revert left right dest b. induction fuel as [|f IH]; intros left right dest b Hb Hb2.
    { done. }
    cbn [par_merge]. set (n := left.2 + right.2) in *.
    destruct (merge_sequential left.2 right.2) eqn:Hseq.
    { eapply calls_mono; [eapply (costs_calls _ _ b 0), seq_merge_cost; lia|lia|done]. }
    assert (1024 ≤ n) as Hn.
    { unfold merge_sequential in Hseq. rewrite !orb_false_iff in Hseq.
      destruct Hseq as [_ Hseq%N.ltb_ge]. fold n in Hseq. lia. }
    clear Hseq. set (L := Nat.log2 n) in *.
    assert (10 <= L) as HL by (apply (Nat.log2_le_mono 1024); done).
    specialize (Hb2 ltac:(lia)).
    pose proof (state_drop_silent (T:=T) left right dest 0 0 0) as Hsd.
    eapply (calls_bind _ _ _ _ (L + 1) (b - (L + 1))); [apply calls_on_unwind, split_for_merge_calls; done| |].
    2: { pose proof (three_log2 n ltac:(lia)). fold L in H. lia. }
    intros [lm rm] [H1 H2]. simpl in H1, H2.
    eapply (calls_bind _ _ _ _ 0 (b - (L + 1))); [apply calls_on_unwind, calls_vsplit; done| |lia].
    intros [[la ll] [ra rl]] (Hlm & H3 & H4). simpl in H3, H4. subst ll rl.
    eapply (calls_bind _ _ _ _ 0 (b - (L + 1))); [apply calls_on_unwind, calls_vsplit; done| |lia].
    intros [[la' ll] [ra' rl]] (Hrm & H3 & H4). simpl in H3, H4. subst ll rl.
    eapply (calls_bind _ _ _ _ 0 (b - (L + 1))); [apply calls_vsplit| |lia].
    intros [dl dr] _. specialize (H2 Hlm Hrm). fold n in H1, H2.
    set (n1 := lm + rm) in *. set (n2 := left.2 - lm + (right.2 - rm)) in *.
    assert (n1 + n2 = n) as Hsum by lia.
    pose proof (log2_eighth n n1 ltac:(lia) ltac:(lia)) as Hl1. fold L in Hl1.
    pose proof (log2_eighth n n2 ltac:(lia) ltac:(lia)) as Hl2. fold L in Hl2.
    pose proof (three_log2 n1 ltac:(lia)). pose proof (three_log2 n2 ltac:(lia)).
    eapply (calls_bind _ _ _ _ (b - (L + 1)) 0); [|done|lia].
    eapply (calls_join _ _ (λ _, True) (λ _, True) (2 * n1 - 3 * Nat.log2 n1) (2 * n2 - 3 * Nat.log2 n2)).
    - apply IH; simpl; fold n1; lia.
    - apply IH; simpl; fold n2; lia.
    - lia.
  Qed.

  (** Neighbouring chunks from [s] to [e]. *)
  Fixpoint chain (s : nat) (chunks : list (nat * nat)) (e : nat) : Prop :=
    match chunks with
    | [] => s = e
    | x :: rest => x.1 = s ∧ s ≤ x.2 ∧ chain x.2 rest e
    end.
  Lemma chain_le s ch e : chain s ch e → s ≤ e.
  Proof.
    revert s. induction ch as [|x ch IH]; intros s; simpl; [lia|].
    intros (_ & ? & H%IH). lia.
  Qed.
  Lemma chain_app s l1 l2 e : chain s (l1 ++ l2) e → ∃ m, chain s l1 m ∧ chain m l2 e.
  Proof.
    revert s. induction l1 as [|x l1 IH]; intros s; simpl; [eauto|].
    intros (? & ? & (m & ? & ?)%IH). eauto.
  Qed.
  Lemma chain_first s ch e x : chain s ch e → ch !! 0 = Some x → x.1 = s.
  Proof. destruct ch; simpl; [done|]. by intros [? _] [= ->]. Qed.
  Lemma chain_last s ch e x :
    chain s ch e → ch !! (length ch - 1) = Some x → x.2 = e.
  Proof.
    revert s. induction ch as [|y ch IH]; intros s; simpl; [done|].
    intros (? & ? & Hc). destruct ch as [|z ch]; simpl in *.
    - by intros [= ->].
    - intros Hx. eapply IH; [exact Hc|]. by rewrite Nat.sub_0_r.
  Qed.
  Lemma calls_chunk_get ch i :
    calls (chunk_get ch i : P (nat * nat)) (λ x, ch !! i = Some x) 0.
  Proof. unfold chunk_get. destruct (ch !! i); [by apply calls_ret|apply calls_throw]. Qed.
  Lemma calls_usub a b : calls (usub a b : P nat) (λ x, x = a - b) 0.
  Proof. unfold usub. destruct (_ <=? _); [by apply calls_ret|done]. Qed.
  Lemma calls_dassert b : calls (dassert c b : P unit) (λ _, True) 0.
  Proof. unfold dassert. destruct (_ && _); [apply calls_throw|by apply calls_ret]. Qed.

  Lemma pm_recurse_calls fuel v buf ch into_buf s e d b :
    chain s ch e → length ch ≤ 2 ^ d → 2 * (e - s) * d ≤ b →
    calls (pm_recurse c fuel v buf ch into_buf : P unit) (λ _, True) b.
  Proof.
    revert ch into_buf s e d b.
    induction fuel as [|f IH]; intros ch into_buf s e d b Hch Hd Hb; [done|].
    cbn [pm_recurse]. eapply (calls_bind _ _ _ _ 0 b); [apply calls_dassert| |lia]. intros [] _.
    destruct (Nat.eqb_spec (length ch) 1) as [H1|H1].
    { destruct into_buf; [|by apply calls_ret].
      eapply (calls_bind _ _ _ _ 0 b); [apply calls_chunk_get| |lia]. intros [x y] _.
      apply calls_silent. pose proof (vget_silent (T:=T)). pose proof (vcopy_silent (T:=T)).
      apply silent_for_up. intros i. apply silent_bind; auto. }
    eapply (calls_bind _ _ _ _ 0 b); [apply calls_chunk_get| |lia]. intros [start x1] Hst.
    eapply (calls_bind _ _ _ _ 0 b); [apply calls_chunk_get| |lia]. intros [mid x2] Hmid.
    eapply (calls_bind _ _ _ _ 0 b); [apply calls_usub| |lia]. intros len1 ->.
    eapply (calls_bind _ _ _ _ 0 b); [apply calls_chunk_get| |lia]. intros [x3 end_] Hend.
    apply (chain_first _ _ _ _ Hch) in Hst. apply (chain_last _ _ _ _ Hch) in Hend.
    simpl in Hst, Hend. subst start end_.
    destruct (if into_buf then (v, buf) else (buf, v)) as [src dest].
    eapply (calls_bind _ _ _ _ 0 b); [apply calls_usub| |lia]. intros glen ->.
    set (h := length ch / 2) in *.
    assert (0 < length ch) as Hpos by (apply lookup_lt_Some in Hmid; lia).
    pose proof (Nat.div_mod (length ch) 2 ltac:(lia)) as Hdm.
    pose proof (Nat.mod_upper_bound (length ch) 2 ltac:(lia)) as Hmo. fold h in Hdm.
    destruct d as [|d]; [simpl in Hd; lia|]. rewrite Nat.pow_succ_r' in Hd.
    rewrite <-(take_drop h ch) in Hch. apply chain_app in Hch as (m & Hc1 & Hc2).
    pose proof (chain_le _ _ _ Hc1). pose proof (chain_le _ _ _ Hc2).
    set (w := e - s) in *. rewrite Nat.mul_succ_r in Hb.
    eapply (calls_bind _ _ _ _ (2 * w * d) (2 * w)); [| |lia].
    { apply calls_on_unwind; [apply copy_on_drop_silent|].
      eapply (calls_join _ _ _ _ (2 * (m - s) * d) (2 * (e - m) * d)).
      - eapply IH; [exact Hc1| |reflexivity]. rewrite take_length. lia.
      - eapply IH; [exact Hc2| |reflexivity]. rewrite drop_length. lia.
      - rewrite <-Nat.mul_add_distr_r. apply Nat.mul_le_mono_r. lia. }
    intros r _. eapply (calls_bind _ _ _ _ 0 (2 * w)); [apply calls_vslice| |lia].
    intros [sl ll] (? & ? & Hll). eapply (calls_bind _ _ _ _ 0 (2 * w)); [apply calls_vslice| |lia].
    intros [sr rl] (? & ? & Hrl). eapply (calls_bind _ _ _ _ 0 (2 * w)); [apply calls_vslice| |lia].
    intros dst _. apply par_merge_calls; simpl in *; lia.
  Qed.
End merge.

(** ** Tasks. *)
Section bridge.
  Context {T Q R : Type}.
  Notation P A := (prog T Q R A).

  (** The calls of the items, from number [i] on, that [f] selects. *)
  Fixpoint chosen (f : nat → bool) (i : nat) (bs : list nat) : nat :=
    match bs with
    | [] => 0
    | b :: bs => (if f i then b else 0) + chosen f (S i) bs
    end.
  Lemma chosen_all f i bs : chosen f i bs + chosen (λ j, negb (f j)) i bs = sum_list bs.
  Proof.
    revert i. induction bs as [|b bs IH]; intros i; simpl; [done|].
    specialize (IH (S i)). destruct (f i); simpl; lia.
  Qed.
  Fixpoint taken {B} (f : nat → bool) (i : nat) (rs : list (option B)) : Prop :=
    match rs with
    | [] => True
    | r :: rs => (match r with Some _ => f i = true | None => f i = false end) ∧ taken f (S i) rs
    end.
  Fixpoint taken_arm {B} (f : nat → bool) (i : nat) (rs : list (option B + exn)) : Prop :=
    match rs with
    | [] => True
    | r :: rs => arm (λ o, match o with Some _ => f i = true | None => f i = false end) r ∧
                 taken_arm f (S i) rs
    end.
  Lemma taken_map {B} f i (rs : list (option B)) : taken_arm f i (map inl rs) → taken f i rs.
  Proof. revert i. induction rs as [|r rs IH]; intros i; simpl; [done|]. intros [? ?]. auto. Qed.

  Lemma par_each_first_calls {B} f (ts : list (P B)) bs i :
    Forall2 (λ t b, calls t (λ _, True) b) ts bs →
    calls (par_each (bridge_first f i ts)) (taken_arm f i) (chosen f i bs).
  Proof.
    intros H. revert i. induction H as [|t b ts bs Ht H IH]; intros i; simpl; [by apply calls_ret|].
    set (ok := λ o : option B, match o with Some _ => f i = true | None => f i = false end).
    eapply (calls_par _ _ _ ok (taken_arm f (S i)) _ (if f i then b else 0) (chosen f (S i) bs) 0);
      [| | |lia].
    - destruct (f i) eqn:Hi; [|by apply calls_ret].
      eapply (calls_bind _ _ _ _ b 0); [exact Ht| |lia]. intros x _. by apply calls_ret.
    - apply IH.
    - intros x [y|e] Hx Hy; [|apply calls_throw]. apply calls_ret. split; [|done].
      by destruct x.
  Qed.
  Lemma all_done_calls {B} (rs : list (B + exn)) :
    calls (all_done rs : P (list B)) (λ bs, rs = map inl bs) 0.
  Proof.
    induction rs as [|[b|e] rs IH]; simpl; [by apply calls_ret| |apply calls_throw].
    eapply (calls_bind _ _ _ _ 0 0); [exact IH| |lia]. intros bs ->. by apply calls_ret.
  Qed.
  Lemma par_each_rest_calls {B} f (ts : list (P B)) bs i rs :
    Forall2 (λ t b, calls t (λ _, True) b) ts bs → taken f i rs →
    calls (par_each (bridge_rest rs ts)) (λ _, True) (chosen (λ j, negb (f j)) i bs).
  Proof.
    intros H. revert i rs.
    induction H as [|t b ts bs Ht H IH]; intros i rs Hrs.
    { destruct rs as [|[]]; by apply calls_ret. }
    destruct rs as [|r rs]; [by apply calls_ret|]. destruct Hrs as [Hr Hrs].
    assert (∀ t', calls t' (λ _, True) (if negb (f i) then b else 0) →
      calls (par_each (t' :: bridge_rest rs ts)) (λ _, True) (chosen (λ j, negb (f j)) i (b :: bs))) as Hall.
    { intros t' Ht'. cbn [par_each].
      eapply (calls_par _ _ _ _ _ _ _ _ 0); [exact Ht'|apply IH, Hrs| |].
      - intros x [y|e] _ _; [by apply calls_ret|apply calls_throw].
      - cbn [chosen]. lia. }
    destruct r as [x|]; apply Hall; rewrite Hr; simpl; [by apply calls_ret|done].
  Qed.
  Lemma par_bridge_calls {B} f (ts : list (P B)) bs :
    Forall2 (λ t b, calls t (λ _, True) b) ts bs →
    calls (par_bridge f ts) (λ _, True) (sum_list bs).
  Proof.
    intros H. unfold par_bridge. pose proof (chosen_all f 0 bs).
    eapply (calls_bind _ _ _ _ (chosen f 0 bs) (chosen (λ j, negb (f j)) 0 bs));
      [by apply par_each_first_calls| |lia].
    intros rs Hrs. eapply (calls_bind _ _ _ _ 0 (chosen (λ j, negb (f j)) 0 bs)); [apply all_done_calls| |apply Nat.le_refl].
    intros os ->. apply taken_map in Hrs.
    eapply (calls_bind _ _ _ _ _ 0); [by apply par_each_rest_calls| |rewrite Nat.add_0_r; apply Nat.le_refl].
    intros rs _. eapply calls_mono; [apply all_done_calls|lia|done].
  Qed.
End bridge.

Section sort.
  Context {T : Type} (c : cfg).
  Notation P A := (cmp_prog T A).
  Implicit Types (k n : nat).

  Notation bounds_of := (zip_with (λ '(l, m) (res : ms_result), (l, l + m, res))).
  Lemma axis_chunks_end fuel n l : n ≤ l → axis_chunks fuel n l = [].
  Proof.
    intros H. destruct fuel; [done|]. cbn [axis_chunks]. by rewrite (proj2 (Nat.ltb_ge l n) H).
  Qed.
  Lemma axis_chunks_bounds fuel n l :
    l ≤ n →
    l + sum_list (axis_chunks fuel n l).*2 ≤ n ∧ length (axis_chunks fuel n l) ≤ fuel ∧
    ∀ rs : list ms_result, ∃ e, e ≤ n ∧ chain l (bounds_of (axis_chunks fuel n l) rs).*1 e.
  Proof.
    revert l. induction fuel as [|f IH]; intros l Hl; cbn [axis_chunks].
    { split; [simpl; lia|]. split; [simpl; lia|]. intros rs. by exists l. }
    destruct (Nat.ltb_spec l n) as [Hn|Hn].
    2: { split; [simpl; lia|]. split; [simpl; lia|]. intros rs. by exists l. }
    destruct (decide (l + CHUNK_LENGTH ≤ n)) as [Hc|Hc].
    - destruct (IH (l + CHUNK_LENGTH) Hc) as (H1 & H2 & H3).
      rewrite (Nat.min_l CHUNK_LENGTH) by lia. rewrite fmap_cons.
      set (rest := axis_chunks f n (l + CHUNK_LENGTH)) in *.
      change (sum_list ((l, CHUNK_LENGTH).2 :: rest.*2)) with (CHUNK_LENGTH + sum_list rest.*2).
      split; [lia|]. split; [simpl length; lia|].
      intros [|r rs]; [exists l; by split|]. destruct (H3 rs) as (e & He & Hch).
      exists e. split; [done|]. cbn [zip_with]. rewrite fmap_cons. cbn [chain fst snd].
      split; [done|]. split; [lia|done].
    - rewrite (axis_chunks_end f n) by lia. rewrite (Nat.min_r CHUNK_LENGTH) by lia.
      split; [simpl; lia|]. split; [simpl; lia|].
      intros [|r rs]; [exists l; by split|]. exists n. split; [done|].
      cbn. split; [done|]. lia.
  Qed.

  Lemma calls_get n i : calls (get n i : P T) (λ _, True) 0.
  Proof. apply calls_silent. auto with polite. Qed.
  Lemma calls_is_less (x y : T) : calls (is_less x y) (λ _, True) 1.
  Proof.
    eapply calls_mono; [eapply (costs_calls _ (λ _ _, True) 1 0)|lia|done].
    apply costs_is_less; [lia|done].
  Qed.
  Lemma calls_finish (b : bool) n x y :
    calls (if b then slice n x y MPartition.reverse else Ret tt : P unit) (λ _, True) 0.
  Proof.
    destruct b; [|by apply calls_ret].
    eapply calls_mono; [eapply (costs_calls _ (λ _ _, True) 0 0)|lia|done].
    apply costs_slice. intros _ _. eapply costs_mono; [apply costs_silent, reverse_silent|done].
  Qed.
  Lemma pm_concat_calls n a b res rest e k :
    a ≤ b → chain b rest.*1 e → length rest ≤ k →
    calls (pm_concat n a b res rest : P (list (nat * nat)))
      (λ ch, chain a ch e ∧ length ch ≤ S (length rest)) k.
  Proof.
    revert a b res k. induction rest as [|[[x y] r] rest IH]; intros a b res k Hab Hch Hk.
    - cbn [pm_concat]. eapply (calls_bind _ _ _ _ 0 k); [apply calls_finish| |lia].
      intros [] _. simpl in Hch. subst e. apply calls_ret. simpl. auto.
    - cbn [pm_concat]. rewrite fmap_cons in Hch. cbn [chain fst snd] in Hch.
      destruct Hch as (-> & Hby & Hch). simpl length in *.
      eapply (calls_bind _ _ (λ _, True) _ 1 (k - 1)); [| |lia].
      { destruct (_ && _); [|by apply calls_ret].
        eapply (calls_bind _ _ _ _ 0 1); [apply calls_get| |lia]. intros p _.
        eapply (calls_bind _ _ _ _ 0 1); [apply calls_usub| |lia]. intros x1 _.
        eapply (calls_bind _ _ _ _ 0 1); [apply calls_get| |lia]. intros q _.
        eapply (calls_bind _ _ _ _ 1 0); [apply calls_is_less| |lia]. intros l _.
        by apply calls_ret. }
      intros [] _.
      + eapply calls_mono; [apply (IH a y res (k - 1)); [lia|done|lia]|lia|].
        intros ch [? ?]. split; [done|lia].
      + eapply (calls_bind _ _ _ _ 0 (k - 1)); [apply calls_finish| |lia]. intros [] _.
        eapply (calls_bind _ _ _ _ (k - 1) 0); [apply (IH b y r (k - 1)); [lia|done|lia]| |lia].
        intros ch [Hc Hl]. apply calls_ret. split; [|simpl; lia]. cbn. split; [done|]. split; [done|done].
  Qed.

  Lemma chunk_task_calls n l m :
    m ≤ n → calls (chunk_task c n l m : P ms_result) (λ _, True) ((10 * Nat.log2 n + 20) * m).
  Proof.
    intros Hm. apply calls_relocate.
    eapply calls_mono; [eapply (costs_calls _ _ ((10 * Nat.log2 n + 20) * m) 0)|lia|done].
    apply pm_merge_sort_cost. apply Nat.mul_le_mono_r.
    pose proof (Nat.log2_le_mono _ _ Hm). lia.
  Qed.

  Lemma chunk_tasks_calls n bs :
    sum_list bs.*2 ≤ n →
    Forall2 (λ t b, calls t (λ _, True) b)
      (map (λ '(l, m), chunk_task c n l m : P ms_result) bs)
      (map (λ m, (10 * Nat.log2 n + 20) * m) bs.*2).
  Proof.
    induction bs as [|[l m] bs IH]; intros Hs; [constructor|].
    change (m + sum_list bs.*2 ≤ n) in Hs.
    change ((((l, m) :: bs).*2)) with (m :: bs.*2). cbn [map]. constructor.
    - apply chunk_task_calls. lia.
    - apply IH. lia.
  Qed.

  Lemma par_sort_calls take_item n :
    calls (par_sort c take_item n : P unit) (λ _, True) (20 * n * (Nat.log2 n + 1)).
  Proof.
    unfold par_sort, par_merge_sort. set (L := Nat.log2 n).
    destruct (zst c); [by apply calls_ret|].
    destruct (Nat.leb_spec n PM_MAX_INSERTION) as [Hn|Hn].
    { unfold PM_MAX_INSERTION in Hn.
      destruct (Nat.leb_spec 2 n) as [H2|H2]; [|by apply calls_ret].
      assert ((n - 1) * (n - 1) ≤ 20 * n) by (apply Nat.mul_le_mono; lia).
      assert (20 * n * 1 ≤ 20 * n * (L + 1)) by (apply Nat.mul_le_mono_l; lia).
      set (B := 20 * n * (L + 1)) in *.
      eapply calls_mono; [eapply (costs_calls _ _ B 0)|lia|done].
      eapply (costs_for_down 0 (n - 1) _ (λ j k', k' + j * (n - 1) ≤ (n - 1) * (n - 1))).
      - lia.
      - intros j k' Hj Hk'. simpl in Hk'. set (p := j * (n - 1)) in *. set (q := (n - 1) * (n - 1)) in *.
        apply costs_slice. intros _ _. cost_call pm_insert_head_cost; [lia|]. cost_fin. }
    unfold PM_MAX_INSERTION in Hn.
    assert (4 ≤ L) as HL by (apply (Nat.log2_le_mono 16); lia).
    assert ((10 * L + 20) * n + (2 * n * (L + 1) + n) ≤ 20 * n * (L + 1)) as Hall.
    { assert (n * 4 ≤ n * L) by (apply Nat.mul_le_mono_l; lia). lia. }
    destruct (n <=? CHUNK_LENGTH).
    { eapply (calls_bind _ _ (λ _, True) _ ((10 * L + 20) * n) 0); [| |lia].
      - eapply calls_mono; [eapply (costs_calls _ _ ((10 * L + 20) * n) 0)|lia|done].
        by apply pm_merge_sort_cost.
      - intros res _. destruct (ms_eqb _ _); [apply calls_silent, reverse_silent|by apply calls_ret]. }
    destruct (axis_chunks_bounds n n 0 ltac:(lia)) as (Hsum & Hlen & Hchain).
    set (bounds := axis_chunks n n 0) in *. simpl in Hsum.
    eapply (calls_bind _ _ (λ _, True) _ ((10 * L + 20) * n) (2 * n * (L + 1) + n)); [| |exact Hall].
    { eapply calls_mono; [apply (par_bridge_calls _ _ (map (λ m, (10 * L + 20) * m) bounds.*2))| |done].
      - by apply chunk_tasks_calls.
      - etrans; [|apply (Nat.mul_le_mono_l _ _ (10 * L + 20) Hsum)].
        generalize (10 * L + 20). intros w. generalize (bounds.*2). intros ms. clear.
        induction ms as [|m ms IH]; simpl; lia. }
    intros results _. destruct (Hchain results) as (e & He & Hch).
    assert (length (bounds_of bounds results) ≤ n) as Hlz by (rewrite zip_with_length; lia).
    destruct (bounds_of bounds results) as [|[[a b] res] rest].
    { apply (pm_recurse_calls c _ _ _ [] _ 0 0 0); [done|simpl; lia|lia]. }
    rewrite fmap_cons in Hch. cbn [chain fst snd] in Hch. destruct Hch as (-> & Hb & Hch).
    simpl in Hlz.
    eapply (calls_bind _ _ _ _ n (2 * n * (L + 1))); [apply pm_concat_calls; [exact Hb|exact Hch|lia]| |lia].
    intros ch [Hch' Hl]. eapply (pm_recurse_calls c _ _ _ ch _ 0 e (L + 1)); [exact Hch'| |].
    - etrans; [|apply Nat.lt_le_incl, lt_pow2_log2]. lia.
    - apply Nat.mul_le_mono_r. lia.
  Qed.
End sort.

Lemma par_sort_by_calls_run {T S} (c : cfg) take_item (o : S → T * T → option comparison * S) s
    (l junk : list T) :
  let '(_, (_, tr), _) :=
    run (logged o) (par_sort_by c take_item (length l)) (s, []) (l ++ junk) in
  length tr ≤ 20 * length l * (Nat.log2 (length l) + 1).
Proof.
  pose proof (calls_run o (par_sort_by c take_item (length l)) _ _ s [] (l ++ junk)
    (calls_by_compare _ _ _ (par_sort_calls c take_item (length l)))) as H.
  destruct (run _ _ _ _) as [[[a|e| |] [s' tr]] l']; try done. by destruct H.
Qed.
Lemma par_sort_by_calls_schedule {T} (c : cfg) take_item (ans : T * T → option comparison → Prop)
    (l junk : list T) m st :
  calls_made ans m (par_sort_by c take_item (length l), l ++ junk) st →
  m ≤ 20 * length l * (Nat.log2 (length l) + 1).
Proof.
  apply calls_schedules with (Ψ := λ _, True). apply calls_by_compare, par_sort_calls.
Qed.
