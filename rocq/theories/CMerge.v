(** * The stable sort makes O(n log n) calls, for every comparator. *)
From Verif Require Export TLinear.
From stdpp Require Import list.

Section leaves.
  Context {T : Type} (c : cfg).
  Implicit Types (B k n : nat).

  Local Hint Resolve merge_hole_drop_silent buf_get_silent : polite.
  Lemma copy_out_silent cap n base i cnt (buf : list T) :
    silent (copy_out cap n base i cnt buf).
  Proof. revert i buf. induction cnt; intros i buf; simpl; polite. Qed.

  Lemma merge_fwd_cost fuel n mid (buf : list T) left right out B k :
    k + (mid - left) + (n - right) ≤ B →
    costs (merge_fwd fuel n mid buf left right out)
      (λ _ k', k' ≤ k + (mid - left) + (n - right)) B k.
  Proof.
    revert left right out k. induction fuel as [|f IH]; intros left right out k Hk; simpl.
    { apply costs_nofuel. }
    destruct (Nat.ltb_spec left mid), (Nat.ltb_spec right n); simpl;
      [|cost_call costs_silent; [polite|cost_fin]..].
    unfold buf_get.
    repeat cost_step; try (polite); try lia.
    all: cost_call IH; [lia|cost_fin].
  Qed.
  Lemma merge_bwd_cost fuel n (buf : list T) left right out B k :
    k + left + right ≤ B →
    costs (merge_bwd fuel n buf left right out) (λ _ k', k' ≤ k + left + right) B k.
  Proof.
    revert left right out k. induction fuel as [|f IH]; intros left right out k Hk; simpl.
    { apply costs_nofuel. }
    destruct (Nat.ltb_spec 0 left), (Nat.ltb_spec 0 right); simpl;
      [|cost_call costs_silent; [polite|cost_fin]..].
    unfold buf_get.
    repeat cost_step; try (polite); try lia.
    all: cost_call IH; [|]; repeat case_match; cost_fin.
  Qed.
  Lemma merge_cost cap n mid B k :
    mid ≤ n → k + n ≤ B → costs (MMerge.merge (T:=T) cap n mid) (λ _ k', k' ≤ k + n) B k.
  Proof.
    intros Hm Hk. unfold MMerge.merge. repeat cost_step.
    all: eapply costs_mono; [apply costs_silent; apply copy_out_silent|intros buf k' _ ->].
    - cost_call merge_fwd_cost; [lia|cost_fin].
    - cost_call merge_bwd_cost; [lia|cost_fin].
  Qed.

  Lemma streak_loop_cost r fuel n e B k :
    2 ≤ e → e ≤ n → k + (n - e) ≤ B →
    costs (streak_loop (T:=T) r fuel n e)
      (λ e' k', e ≤ e' ∧ e' ≤ n ∧ k' ≤ k + (e' - e) + 1 ∧ k' ≤ k + (n - e)) B k.
  Proof.
    revert e k. induction fuel as [|f IH]; intros e k H2 He Hk; simpl; repeat cost_step; try lia.
    cost_call (IH (S e) (S k)); [lia|lia|lia|]. cost_fin.
  Qed.
  Lemma find_streak_cost n B k :
    0 < n → k + (n - 1) ≤ B →
    costs (find_streak (T:=T) n) (λ p k', 0 < p.1 ∧ p.1 ≤ n ∧ k' ≤ k + p.1) B k.
  Proof.
    intros H0 Hk. unfold find_streak. repeat cost_step; simpl; try lia.
    cost_call (streak_loop_cost r (S n) n 2); [lia|lia|lia|].
    intros e k' _ (? & ? & ? & ?). repeat cost_step. simpl. lia.
  Qed.
  Lemma provide_sorted_batch_cost n start e B k :
    start ≤ e → e ≤ n → k + 9 * Nat.min 10 (n - start) ≤ B →
    costs (provide_sorted_batch (T:=T) c n start e)
      (λ e' k', e ≤ e' ∧ e' ≤ n ∧ k' + (e - start) ≤ k + 10 * (e' - start)) B k.
  Proof.
    intros Hs He Hk. unfold provide_sorted_batch, MIN_INSERTION_RUN. repeat cost_step; [|lia].
    apply andb_true_iff in Heqb as [Hd%Nat.ltb_lt Hlt%Nat.ltb_lt].
    set (m := (start + 10) `min` n - start).
    assert (Hm : (m - (e - start) `max` 1) * (m - 1) ≤ 9 * m).
    { etrans; [apply Nat.mul_le_mono; [apply Nat.le_sub_l|]|]; [|rewrite Nat.mul_comm; reflexivity].
      unfold m. lia. }
    cost_call insertion_sort_shift_left_cost; [unfold m in *; lia|].
    intros [] k' _ Hk'. apply costs_ret. unfold m in *. lia.
  Qed.
End leaves.

(** ** The stack of runs, as the list of the lengths, top first. *)
Fixpoint runs_at (off : nat) (ls : list nat) : list run_t :=
  match ls with
  | [] => []
  | n :: ls => Run off n :: runs_at (off + n) ls
  end.
Lemma runs_at_length off ls : length (runs_at off ls) = length ls.
Proof. revert off. induction ls; intros; simpl; auto. Qed.
Lemma runs_at_app off l1 l2 :
  runs_at off (l1 ++ l2) = runs_at off l1 ++ runs_at (off + sum_list l1) l2.
Proof.
  revert off. induction l1 as [|a l1 IH]; intros off; simpl.
  - by rewrite Nat.add_0_r.
  - rewrite IH. do 3 f_equal. lia.
Qed.
Lemma runs_at_merge l1 a b l2 :
  delete (length l1) (<[length l1 + 1 := Run (sum_list l1) (a + b)]>
    (runs_at 0 (l1 ++ a :: b :: l2))) = runs_at 0 (l1 ++ (a + b) :: l2).
Proof.
  rewrite !runs_at_app. simpl.
  rewrite <-(runs_at_length 0 l1) at 1 2. rewrite insert_app_r. simpl.
  rewrite delete_middle. do 3 f_equal. lia.
Qed.
Lemma sum_list_rev ls : sum_list (rev ls) = sum_list ls.
Proof. induction ls as [|a ls IH]; simpl; [done|]. rewrite sum_list_with_app, IH. simpl. lia. Qed.

Lemma lookup_total_end {A} `{!Inhabited A} (l1 l2 : list A) i k :
  i = length l1 + k → (l1 ++ l2) !!! i = l2 !!! k.
Proof.
  intros ->. rewrite !list_lookup_total_alt. f_equal.
  rewrite lookup_app_r by lia. f_equal. lia.
Qed.

(** The conditions of [collapse] on the lengths (except for the end of the array). *)
Definition settled (ls : list nat) : Prop :=
  match ls with
  | z :: y :: r =>
      z < y ∧
      match r with
      | x :: r => y + z < x ∧ match r with w :: _ => x + y < w | [] => True end
      | [] => True
      end
  | _ => True
  end.

Lemma collapse_view ls stop :
  match collapse (runs_at 0 (rev ls)) stop with
  | None => length ls ≤ 1 ∨ (sum_list ls ≠ stop ∧ settled ls)
  | Some r =>
      (∃ z y x rest, ls = z :: y :: x :: rest ∧ x < z ∧ r = length rest) ∨
      (∃ z y rest, ls = z :: y :: rest ∧ r = length rest ∧
         (match rest with x :: _ => z ≤ x | [] => True end) ∧
         (sum_list ls = stop ∨ ¬ settled ls))
  end.
Proof.
  assert (Hg : ∀ pre post k, k < length post →
    runs_at 0 (pre ++ post) !!! (length pre + k) = runs_at (sum_list pre) post !!! k).
  { intros pre post k Hk. rewrite runs_at_app. simpl.
    apply lookup_total_end. by rewrite runs_at_length. }
  unfold collapse. rewrite runs_at_length, rev_length.
  destruct ls as [|z [|y r]]; simpl; [lia|lia|].
  set (L := rev (z :: y :: r)).
  assert (HL : rev r ++ [y; z] = L) by (unfold L; simpl; by rewrite <-app_assoc).
  simpl in HL.
  assert (Hr : length (rev r) = length r) by apply rev_length.
  assert (Hsr : sum_list (rev r) = sum_list r) by apply sum_list_rev.
  assert (H1 : runs_at 0 ((rev r ++ [y]) ++ [z]) !!! S (length r) = Run (sum_list r + y) z).
  { rewrite <-app_assoc. simpl.
    replace (S (length r)) with (length (rev r) + 1) by lia. rewrite Hg by (simpl; lia).
    simpl. by rewrite Hsr. }
  assert (H2 : runs_at 0 ((rev r ++ [y]) ++ [z]) !!! (length r) = Run (sum_list r) y).
  { rewrite <-app_assoc. simpl.
    replace (length r) with (length (rev r) + 0) by lia. rewrite Hg by (simpl; lia).
    simpl. by rewrite Hsr. }
  rewrite H1, Nat.sub_0_r, H2. simpl. clear H1 H2 Hr Hsr.
  destruct r as [|x r]; simpl.
  { rewrite !orb_false_r, Nat.add_0_r, !(Nat.add_comm y z).
    destruct (Nat.eqb_spec (z + y) stop); simpl; [right; repeat eexists; auto|].
    destruct (Nat.leb_spec y z); simpl.
    - right. repeat eexists; auto. right. lia.
    - right. done. }
  assert (H3 : runs_at 0 (((rev r ++ [x]) ++ [y]) ++ [z]) !!! (length r) = Run (sum_list r) x).
  { rewrite <-!app_assoc. simpl.
    replace (length r) with (length (rev r) + 0) by (rewrite rev_length; lia).
    rewrite Hg by (simpl; lia). simpl. by rewrite sum_list_rev. }
  rewrite ?Nat.sub_0_r, H3. simpl. clear H3.
  assert (Hw : r_len (runs_at 0 (((rev r ++ [x]) ++ [y]) ++ [z]) !!! (length r - 1)) =
               match r with w :: _ => w | [] => x end).
  { destruct r as [|w r]; simpl; [done|]. rewrite <-!app_assoc. simpl.
    replace (length r - 0) with (length (rev r) + 0) by (rewrite rev_length; lia).
    rewrite Hg by (simpl; lia). done. }
  rewrite Hw. clear Hw L HL Hg.
  destruct (_ || _ || _ || _) eqn:Hc.
  - assert (Hset : x + sum_list r + y + z = stop ∨
      ¬ (z < y ∧ y + z < x ∧ match r with w :: _ => x + y < w | [] => True end)).
    { rewrite !orb_true_iff, andb_true_iff, Nat.eqb_eq, !Nat.leb_le in Hc.
      destruct Hc as [[[?|?]|?]|[? ?]]; [left; lia|right; lia|right; lia|].
      right. destruct r; simpl in *; lia. }
    destruct (Nat.ltb_spec x z).
    + left. by exists z, y, x, r.
    + right. exists z, y, (x :: r). repeat split; auto.
      destruct Hset as [Hset|Hset]; [left; simpl in *; lia|right; exact Hset].
  - right. rewrite !orb_false_iff, andb_false_iff, Nat.eqb_neq, !Nat.leb_gt in Hc.
    destruct Hc as [[[? ?] ?] H4]. split; [simpl; lia|]. repeat split; try lia.
    destruct r; [done|]. simpl in *. lia.
Qed.

(** ** Amortisation.  [pot] weighs each run with its height in the stack. *)
Fixpoint pot (ls : list nat) : nat :=
  match ls with
  | [] => 0
  | z :: r => z * S (length r) + pot r
  end.
(** Calls that need not be paid yet, because another merge is certain. *)
Definition debt (ls : list nat) : nat :=
  match ls with
  | z :: y :: r =>
      if (y <=? z) || (match r with x :: _ => x <=? y + z | [] => false end) then 2 * z else 0
  | _ => 0
  end.
Lemma debt_pot ls : debt ls ≤ 4 * pot ls.
Proof. destruct ls as [|z [|y r]]; simpl; [lia|lia|]. case_match; lia. Qed.
Lemma settled_debt ls : settled ls → debt ls = 0.
Proof.
  destruct ls as [|z [|y [|x r]]]; simpl; try done.
  - intros [H _]. rewrite orb_false_r, (proj2 (Nat.leb_gt _ _) H). done.
  - intros (H1 & H2 & _).
    by rewrite (proj2 (Nat.leb_gt _ _) H1), (proj2 (Nat.leb_gt _ _) H2).
Qed.

(** Merging below the top. *)
Lemma merge_xy z y x r M k :
  x < z → k + 4 * pot (z :: y :: x :: r) ≤ M + debt (z :: y :: x :: r) →
  k + (x + y) + 4 * pot (z :: (x + y) :: r) ≤ M + debt (z :: (x + y) :: r).
Proof.
  intros Hx Hk. assert (debt (z :: y :: x :: r) ≤ 2 * z) by (unfold debt; destruct (_ || _); lia).
  cbn [pot] in *. simpl length in *. lia.
Qed.
(** Merging at the top. *)
Lemma merge_yz z y r M k :
  (match r with x :: _ => z ≤ x | [] => True end) → ¬ settled (z :: y :: r) →
  k + 4 * pot (z :: y :: r) ≤ M + debt (z :: y :: r) →
  k + (y + z) + 4 * pot ((y + z) :: r) ≤ M + debt ((y + z) :: r).
Proof.
  intros Hx Hns Hk. cbn [pot] in *. simpl length in *.
  assert (Hd : k + 4 * ((y + z) * S (length r) + pot r) + 4 * z ≤ M + debt (z :: y :: r)) by lia.
  clear Hk.
  assert (debt (z :: y :: r) ≤ 2 * z) by (unfold debt; destruct (_ || _); lia).
  destruct (decide (y ≤ z)) as [Hyz|Hyz].
  - assert (0 ≤ debt ((y + z) :: r)) by lia. lia.
  - destruct r as [|x r]; [simpl in Hns; lia|].
    destruct (decide (x ≤ y + z)) as [Hxy|Hxy].
    + assert (debt ((y + z) :: x :: r) = 2 * (y + z)) as ->.
      { simpl. by rewrite (proj2 (Nat.leb_le _ _) Hxy). }
      lia.
    + assert (debt (z :: y :: x :: r) = 0) as Hd0.
      { simpl. rewrite (proj2 (Nat.leb_gt y z)), (proj2 (Nat.leb_gt x (y + z))) by lia. done. }
      destruct r as [|w r]; [simpl in Hns; lia|].
      assert (w ≤ x + y) by (simpl in Hns; lia).
      assert (debt ((y + z) :: x :: w :: r) = 2 * (y + z)) as ->.
      { simpl. rewrite (proj2 (Nat.leb_le w (x + (y + z)))) by lia. by rewrite orb_true_r. }
      lia.
Qed.

(** ** Stacks with rapidly decreasing runs have logarithmic height. *)
Fixpoint fib (ls : list nat) : Prop :=
  match ls with
  | z :: r =>
      match r with
      | y :: r' => z < y ∧ match r' with x :: _ => y + z < x | [] => True end
      | [] => True
      end ∧ fib r
  | [] => True
  end.
Lemma fib_height ls :
  ∀ a z y, a ≤ z → a ≤ y → fib (z :: y :: ls) →
  a * 2 ^ (S (length ls / 2)) ≤ sum_list (z :: y :: ls).
Proof.
  assert (H : ∀ m ls, length ls ≤ m → ∀ a z y, a ≤ z → a ≤ y → fib (z :: y :: ls) →
    a * 2 ^ (S (length ls / 2)) ≤ sum_list (z :: y :: ls)).
  { clear ls. induction m as [|m IH]; intros ls Hm a z y Hz Hy Hf.
    { destruct ls; simpl in *; [|lia]. lia. }
    destruct ls as [|x [|w ls]].
    - simpl. lia.
    - change (length [x] / 2) with 0. simpl in *. lia.
    - assert (fib (x :: w :: ls)) by apply Hf.
      assert (2 * a ≤ x ∧ 2 * a ≤ w) as [Hx Hw] by (simpl in Hf; lia).
      pose proof (IH ls ltac:(simpl in Hm; lia) (2 * a) x w Hx Hw ltac:(done)) as H'.
      change (length (x :: w :: ls)) with (2 + length ls).
      replace ((2 + length ls) / 2) with (S (length ls / 2)).
      + simpl sum_list in *. rewrite (Nat.pow_succ_r' 2 (S _)). lia.
      + change (2 + length ls) with (1 * 2 + length ls).
        rewrite Nat.div_add_l by lia. lia. }
  intros a z y. by apply (H (length ls)).
Qed.
Lemma fib_length ls n :
  fib ls → Forall (λ z, 0 < z) ls → sum_list ls ≤ n → 0 < n →
  length ls ≤ 2 * Nat.log2 n + 1.
Proof.
  intros Hf Hpos Hsum Hn. destruct ls as [|z [|y ls]]; simpl; [lia|lia|].
  apply Forall_cons in Hpos as [Hz Hpos]. apply Forall_cons in Hpos as [Hy _].
  pose proof (fib_height ls 1 z y Hz Hy Hf) as H.
  assert (H2 : 2 ^ S (length ls / 2) ≤ n) by lia.
  apply Nat.log2_le_pow2 in H2; [|done].
  pose proof (Nat.div_mod (length ls) 2). pose proof (Nat.mod_upper_bound (length ls) 2). lia.
Qed.
Lemma fib_settled ls : settled ls → fib (drop 2 ls) → fib ls.
Proof.
  destruct ls as [|z [|y [|x [|w r]]]]; try done; simpl; intros Hs Hf; repeat split; try lia.
  all: tauto.
Qed.
Lemma fib_drop n ls : fib ls → fib (drop n ls).
Proof.
  revert ls. induction n as [|n IH]; intros ls Hf; [done|].
  destruct ls as [|z ls]; [done|]. simpl. apply IH, Hf.
Qed.

Section collapse.
  Context {T : Type} (c : cfg).

  (** One merge. *)
  Lemma collapse_step_cost fuel cap n l1 a b l2 Φ B k :
    sum_list (l1 ++ a :: b :: l2) ≤ n → k + (a + b) ≤ B →
    (∀ k', k' ≤ k + (a + b) →
       costs (collapse_loop (T:=T) fuel cap n (runs_at 0 (l1 ++ (a + b) :: l2))) Φ B k') →
    collapse (runs_at 0 (l1 ++ a :: b :: l2)) n = Some (length l1) →
    costs (collapse_loop (T:=T) (S fuel) cap n (runs_at 0 (l1 ++ a :: b :: l2))) Φ B k.
  Proof.
    intros Hsum Hk Hrest Hc. cbn [collapse_loop]. rewrite Hc.
    assert (Hga : runs_at 0 (l1 ++ a :: b :: l2) !! length l1 = Some (Run (sum_list l1) a)).
    { rewrite runs_at_app. simpl. rewrite <-(runs_at_length 0 l1). apply lookup_middle. }
    assert (Hgb : runs_at 0 (l1 ++ a :: b :: l2) !! (length l1 + 1)
                  = Some (Run (sum_list l1 + a) b)).
    { rewrite runs_at_app. simpl. rewrite lookup_app_r; rewrite runs_at_length; [|lia].
      by replace (length l1 + 1 - length l1) with 1 by lia. }
    unfold run_get. rewrite Hga, Hgb. repeat cost_step. simpl.
    cost_call merge_cost; [lia|simpl in *; lia|].
    intros [] k' _ Hk'. rewrite runs_at_merge. apply Hrest. simpl in *. lia.
  Qed.

  Lemma collapse_loop_cost fuel cap n ls M B k :
    sum_list ls < n → Forall (λ z, 0 < z) ls → fib (drop 2 ls) →
    k + 4 * pot ls ≤ M + debt ls → M ≤ B →
    costs (collapse_loop (T:=T) fuel cap n (runs_at 0 (rev ls)))
      (λ runs k', ∃ ls', runs = runs_at 0 (rev ls') ∧ sum_list ls' = sum_list ls ∧
         Forall (λ z, 0 < z) ls' ∧ fib ls' ∧ k' + 4 * pot ls' ≤ M) B k.
  Proof.
    revert ls k. induction fuel as [|f IH]; intros ls k Hsum Hpos Hfib Hk HM.
    { apply costs_nofuel. }
    pose proof (collapse_view ls n) as Hv.
    destruct (collapse (runs_at 0 (rev ls)) n) as [r|] eqn:Hc.
    - destruct Hv as [(z & y & x & rest & -> & Hxz & ->)|(z & y & rest & -> & -> & Hx & Hs)].
      + assert (Hrev : rev (z :: y :: x :: rest) = rev rest ++ x :: y :: [z])
          by (simpl; by rewrite <-!app_assoc).
        rewrite Hrev in *.
        pose proof (merge_xy z y x rest M k Hxz Hk) as Hm.
        pose proof (debt_pot (z :: (x + y) :: rest)).
        assert (Hs : sum_list (rev rest ++ x :: y :: [z]) = sum_list (z :: y :: x :: rest)).
        { by rewrite <-Hrev, sum_list_rev. }
        apply collapse_step_cost; [lia|lia| |by rewrite rev_length].
        intros k' Hk'.
        replace (rev rest ++ x + y :: [z]) with (rev (z :: (x + y) :: rest))
          by (simpl; by rewrite <-!app_assoc).
        cost_call (IH (z :: (x + y) :: rest)).
        * simpl in *. lia.
        * apply Forall_cons in Hpos as [? Hpos]. apply Forall_cons in Hpos as [? Hpos].
          apply Forall_cons in Hpos as [? Hpos]. repeat constructor; [done|lia|done].
        * simpl in *. apply Hfib.
        * lia.
        * done.
        * intros runs k'' _ (ls' & H1 & H2 & H3). exists ls'. split; [done|].
          split; [|done]. rewrite H2. simpl. lia.
      + destruct Hs as [Hs|Hs]; [lia|].
        assert (Hrev : rev (z :: y :: rest) = rev rest ++ y :: z :: [])
          by (simpl; by rewrite <-!app_assoc).
        rewrite Hrev in *.
        pose proof (merge_yz z y rest M k Hx Hs Hk) as Hm.
        pose proof (debt_pot ((y + z) :: rest)).
        assert (Hs' : sum_list (rev rest ++ y :: z :: []) = sum_list (z :: y :: rest)).
        { by rewrite <-Hrev, sum_list_rev. }
        apply collapse_step_cost; [lia|lia| |by rewrite rev_length].
        intros k' Hk'.
        replace (rev rest ++ [y + z]) with (rev ((y + z) :: rest)) by done.
        cost_call (IH ((y + z) :: rest)).
        * simpl in *. lia.
        * apply Forall_cons in Hpos as [? Hpos]. apply Forall_cons in Hpos as [? Hpos].
          constructor; [lia|done].
        * exact (fib_drop 1 rest Hfib).
        * lia.
        * done.
        * intros runs k'' _ (ls' & H1 & H2 & H3). exists ls'. split; [done|].
          split; [|done]. rewrite H2. simpl. lia.
    - cbn [collapse_loop]. rewrite Hc. apply costs_ret. exists ls.
      assert (Hset : settled ls).
      { destruct Hv as [Hv|[_ Hv]]; [|done].
        destruct ls as [|? [|]]; simpl in *; [done|done|lia]. }
      rewrite (settled_debt _ Hset) in Hk. repeat split; auto; [|lia].
      by apply fib_settled.
  Qed.

  (** The last run ends at the end of the array: everything is merged. *)
  Lemma collapse_loop_stop_cost fuel cap n ls B k :
    sum_list ls ≤ n → k + n * (length ls - 1) ≤ B →
    costs (collapse_loop (T:=T) fuel cap n (runs_at 0 (rev ls)))
      (λ _ k', k' ≤ B) B k.
  Proof.
    revert ls k. induction fuel as [|f IH]; intros ls k Hsum Hk.
    { apply costs_nofuel. }
    pose proof (collapse_view ls n) as Hv.
    destruct (collapse (runs_at 0 (rev ls)) n) as [r|] eqn:Hc.
    - destruct Hv as [(z & y & x & rest & -> & Hxz & ->)|(z & y & rest & -> & -> & Hx & Hs)].
      + assert (Hrev : rev (z :: y :: x :: rest) = rev rest ++ x :: y :: [z])
          by (simpl; by rewrite <-!app_assoc).
        rewrite Hrev in *.
        assert (Hs : sum_list (rev rest ++ x :: y :: [z]) = sum_list (z :: y :: x :: rest)).
        { by rewrite <-Hrev, sum_list_rev. }
        simpl in Hsum, Hk. simpl in Hs.
        apply collapse_step_cost; [lia|lia| |by rewrite rev_length].
        intros k' Hk'.
        replace (rev rest ++ x + y :: [z]) with (rev (z :: (x + y) :: rest))
          by (simpl; by rewrite <-!app_assoc).
        apply IH; simpl; lia.
      + assert (Hrev : rev (z :: y :: rest) = rev rest ++ y :: z :: [])
          by (simpl; by rewrite <-!app_assoc).
        rewrite Hrev in *.
        assert (Hs' : sum_list (rev rest ++ y :: z :: []) = sum_list (z :: y :: rest)).
        { by rewrite <-Hrev, sum_list_rev. }
        simpl in Hsum, Hk. simpl in Hs'.
        apply collapse_step_cost; [lia|lia| |by rewrite rev_length].
        intros k' Hk'.
        replace (rev rest ++ [y + z]) with (rev ((y + z) :: rest)) by done.
        apply IH; simpl; lia.
    - cbn [collapse_loop]. rewrite Hc. apply costs_ret. lia.
  Qed.

  Local Arguments collapse_loop : simpl never.
  Lemma merge_sort_loop_cost fuel cap n ls B k :
    0 < n → sum_list ls < n → Forall (λ z, 0 < z) ls → fib ls →
    k + 4 * pot ls ≤ (8 * Nat.log2 n + 18) * sum_list ls →
    (10 * Nat.log2 n + 20) * n ≤ B →
    costs (merge_sort_loop (T:=T) c fuel cap n (sum_list ls) (sum_list ls) (runs_at 0 (rev ls)))
      (λ _ k', k' ≤ B) B k.
  Proof.
    intros Hn. revert ls k. induction fuel as [|f IH]; intros ls k Hsum Hpos Hfib Hk HB.
    { apply costs_nofuel. }
    cbn [merge_sort_loop]. rewrite (proj2 (Nat.ltb_lt _ _) Hsum).
    set (s := sum_list ls) in *. set (L := Nat.log2 n) in *.
    assert (Hlen : length ls ≤ 2 * L + 1) by (apply fib_length; auto with lia).
    assert (HkB : k ≤ (8 * L + 18) * s) by lia.
    assert (Hsn : (8 * L + 18) * s + 10 * (n - s) ≤ B).
    { assert ((8 * L + 18) * s + 10 * (n - s) ≤ (8 * L + 18) * n).
      { replace n with (s + (n - s)) at 2 by lia. rewrite Nat.mul_add_distr_l.
        assert (10 * (n - s) ≤ (8 * L + 18) * (n - s)) by (apply Nat.mul_le_mono_r; lia). lia. }
      lia. }
    apply costs_bind, costs_slice. intros _ _.
    cost_call find_streak_cost; [lia|lia|].
    intros [e rv] k1 _ (He0 & Hen & Hk1). simpl in He0, Hen, Hk1. cbv beta iota zeta.
    apply costs_bind. eapply (costs_mono _ (λ _ k', k' = k1)).
    { destruct rv; [|by apply costs_ret].
      apply costs_slice. intros _ _. apply costs_silent, reverse_silent. }
    intros [] k2 _ ->. apply costs_bind.
    cost_call provide_sorted_batch_cost; [lia|lia|lia|].
    intros e' k2 _ (He' & Hen' & Hk2). apply costs_bind, costs_usub. intros Hse.
    set (r := e' - s) in *.
    assert (Hrun : runs_at 0 (rev ls) ++ [Run s r] = runs_at 0 (rev (r :: ls))).
    { simpl. rewrite runs_at_app, sum_list_rev. done. }
    rewrite Hrun.
    assert (Hk2' : k2 ≤ k + 10 * r) by lia.
    assert (Hpot : k2 + 4 * pot (r :: ls) ≤ (8 * L + 18) * (s + r)).
    { cbn [pot]. rewrite Nat.mul_add_distr_l.
      assert (r * S (length ls) ≤ r * (2 * L + 2)) by (apply Nat.mul_le_mono_l; lia). lia. }
    apply costs_bind. destruct (decide (e' = n)) as [->|Hne].
    - eapply costs_mono; [apply (collapse_loop_stop_cost _ _ n (r :: ls))|].
      + simpl. fold s. lia.
      + simpl length. rewrite Nat.sub_succ, Nat.sub_0_r.
        assert (k2 ≤ (8 * L + 18) * n) by (replace n with (s + r) by lia; lia).
        assert (n * length ls ≤ n * (2 * L + 1)) by (apply Nat.mul_le_mono_l; lia). lia.
      + intros runs k3 _ Hk3. destruct f as [|f]; [apply costs_nofuel|].
        cbn [merge_sort_loop]. rewrite Nat.ltb_irrefl. by apply costs_ret.
    - eapply costs_mono; [apply (collapse_loop_cost _ _ n (r :: ls) ((8 * L + 18) * (s + r)))|].
      + simpl. fold s. lia.
      + constructor; [lia|done].
      + simpl. by apply (fib_drop 1).
      + lia.
      + assert ((8 * L + 18) * (s + r) ≤ (8 * L + 18) * n) by (apply Nat.mul_le_mono_l; lia). lia.
      + intros runs k3 _ (ls' & -> & Hs' & Hpos' & Hfib' & Hk3).
        assert (sum_list (r :: ls) = s + r) as Hs2 by (simpl; fold s; lia).
        rewrite Hs2 in Hs'. replace e' with (sum_list ls') by lia.
        apply IH; [lia|done|done|by rewrite Hs'|done].
  Qed.

  Lemma stable_sort_cost n :
    costs (stable_sort (T:=T) c n)
      (λ _ k', k' ≤ 20 * n * (Nat.log2 n + 1)) (20 * n * (Nat.log2 n + 1)) 0.
  Proof.
    unfold stable_sort. case_match; [apply costs_ret; lia|].
    unfold merge_sort, MS_MAX_INSERTION. repeat cost_step; [|lia|].
    - assert ((n - 1) * (n - 1) ≤ 20 * n) by (apply Nat.mul_le_mono; lia).
      assert (20 * n * 1 ≤ 20 * n * (Nat.log2 n + 1)) by (apply Nat.mul_le_mono_l; lia).
      cost_call insertion_sort_shift_left_cost; [lia|]. cost_fin.
    - cost_call (merge_sort_loop_cost (S n) (n / 2) n []).
      + lia.
      + simpl. lia.
      + constructor.
      + done.
      + simpl. lia.
      + lia.
      + intros runs k' _ Hk'. by apply costs_dassert.
  Qed.
End collapse.

Lemma sort_by_cost {T S} (c : cfg) (o : S → T * T → option comparison * S) s (l : list T) :
  let '(_, (_, tr), _) := run (logged o) (sort_by c (length l)) (s, []) l in
  length tr ≤ 20 * length l * (Nat.log2 (length l) + 1).
Proof.
  pose proof (wpg_run_compare ans_all o (stable_sort c (length l)) _ _ s l ltac:(done)
    (costs_wp ans_all _ _ _ _ _ _ l (Nat.le_0_l _)
      (stable_sort_spec c ans_all (length l) l eq_refl) (stable_sort_cost c (length l)))) as H.
  unfold sort_by. destruct (run _ _ _ _) as [[[a|e| |] [s' tr]] l']; try done; by destruct H.
Qed.

