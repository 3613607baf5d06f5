(** * Arrays on which the stable sort frees its run stack with a wrong length if
    the allocator fails at the right moment. *)
From Verif Require Export PAlloc.
From stdpp Require Import list.

Local Transparent bind on_unwind.
Local Arguments bind {T Q R A B} !p f.
Local Arguments on_unwind {T Q R A} c !p.

(** Non-decreasing streaks of the given lengths, each below the one before. *)
Fixpoint stairs (ls : list nat) : list nat :=
  match ls with [] => [] | m :: ls => replicate m (length ls) ++ stairs ls end.

Lemma stairs_length ls : length (stairs ls) = sum_list ls.
Proof.
  induction ls as [|m ls IH]; [done|]. simpl. by rewrite app_length, replicate_length, IH.
Qed.
Lemma stairs_below ls x : x ∈ stairs ls → x < length ls.
Proof.
  induction ls as [|m ls IH]; simpl; [by intros ?%elem_of_nil|].
  intros [[-> ?]%elem_of_replicate|H]%elem_of_app; [lia|]. apply IH in H. lia.
Qed.

Section streak.
  Notation ans := (ans_lt Nat.ltb).

  Lemma streak_stairs fuel m v rest (l : list nat) e :
    l = replicate m v ++ rest → (∀ x, x ∈ rest → x < v) → 1 < e → e ≤ m →
    length l < fuel + e →
    wp ans (streak_loop false fuel (length l) e) (λ j l', j = m ∧ l' = l) (upanic ans l) l.
  Proof.
    intros -> Hr He. revert e He. induction fuel as [|f IH]; intros e He Hem Hf.
    { rewrite app_length, replicate_length in Hf. lia. }
    cbn [streak_loop]. destruct (Nat.ltb_spec e (length (replicate m v ++ rest))) as [Hlt|Hge].
    - apply wp_bind, wp_uget; [lia|lia|]. intros x Hx.
      apply wp_bind, wp_uget; [lia|lia|]. intros y Hy.
      rewrite lookup_app_l, lookup_replicate in Hy by (rewrite replicate_length; lia).
      destruct Hy as [-> _].
      apply wp_bind, wp_is_less; [|done].
      intros r [= ->]. cbn [fst snd].
      destruct (decide (e = m)) as [->|Hne].
      + rewrite lookup_app_r, replicate_length, Nat.sub_diag in Hx by (rewrite replicate_length; lia).
        rewrite (proj2 (Nat.ltb_lt x v)) by (apply Hr; by eapply elem_of_list_lookup_2).
        by apply wp_ret.
      + rewrite lookup_app_l, lookup_replicate in Hx by (rewrite replicate_length; lia).
        destruct Hx as [-> _]. rewrite Nat.ltb_irrefl. apply IH; lia.
    - rewrite app_length, replicate_length in Hge. apply wp_ret. split; [lia|done].
  Qed.

  Lemma find_streak_stairs m v rest (l : list nat) :
    l = replicate m v ++ rest → (∀ x, x ∈ rest → x < v) → 2 ≤ m →
    wp ans (find_streak (length l)) (λ p l', p = (m, false) ∧ l' = l) (upanic ans l) l.
  Proof.
    intros -> Hr Hm. unfold find_streak.
    assert (Hl : length (replicate m v ++ rest) = m + length rest)
      by (by rewrite app_length, replicate_length).
    rewrite (proj2 (Nat.ltb_ge _ _)) by lia.
    apply wp_bind, wp_uget; [lia|lia|]. intros x Hx.
    apply wp_bind, wp_uget; [lia|lia|]. intros y Hy.
    rewrite lookup_app_l, lookup_replicate in Hx, Hy by (rewrite replicate_length; lia).
    destruct Hx as [-> _], Hy as [-> _].
    apply wp_bind, wp_is_less; [|done].
    intros r [= ->]. cbn [fst snd]. rewrite Nat.ltb_irrefl. apply wp_bind.
    eapply wp_mono; [eapply (streak_stairs (S (length (replicate m v ++ rest))) m v rest); [done|done|lia|lia|lia]| |done].
    intros j l' _ [-> ->]. by apply wp_ret.
  Qed.

  Lemma run_find_streak_stairs pre m v rest :
    (∀ x, x ∈ rest → x < v) → 2 ≤ m →
    let l := pre ++ replicate m v ++ rest in
    run (pure_less Nat.ltb) (slice (length l) (length pre) (length l) find_streak) tt l =
      (Done (m, false), tt, l).
  Proof.
    intros Hr Hm l.
    destruct (run_pure (slice (length l) (length pre) (length l) find_streak) Nat.ltb
      (λ p l', p = (m, false) ∧ l' = l) l) as (p & l' & -> & -> & ->); [|done].
    unfold l. replace (pre ++ replicate m v ++ rest) with (pre ++ (replicate m v ++ rest) ++ []) at 3 4
      by (by rewrite app_nil_r).
    apply wp_slice_app; [done|by rewrite app_length|done|].
    wp_apply (find_streak_stairs m v rest); [done|done|done| |].
    - intros p l' _ [-> ->] _. by rewrite app_nil_r.
    - intros e l' _ (_ & (q & Hq) & _). done.
  Qed.
End streak.

Lemma collapse_settled ls stop :
  sum_list ls ≠ stop → fib ls → collapse (runs_at 0 (rev ls)) stop = None.
Proof.
  intros Hs Hf. pose proof (collapse_view ls stop) as Hc.
  destruct (collapse _ _) as [r|]; [exfalso|done].
  destruct Hc as [(z & y & x & rest & -> & ? & _)|(z & y & rest & -> & _ & _ & [?|H])].
  - simpl in Hf. lia.
  - done.
  - apply H. destruct rest as [|x [|w rest]]; simpl in *; lia.
Qed.

Section fail.
  Context {A : Type} (c : cfg) (al : A → block_kind → nat → option nat * A).
  Context (fr : A → block_kind → nat → nat → A).
  Notation env := (environment (pure_less Nat.ltb) al fr).

  Lemma stairs_step f cap pre m ls done rv a hs :
    let l := pre ++ stairs (m :: ls) in
    rvok rv (runs_at 0 (rev done)) → sum_list done = length pre → length done < rv_cap rv →
    10 ≤ m → stairs ls ≠ [] → fib (m :: done) →
    ∃ rv', rvok rv' (runs_at 0 (rev (m :: done))) ∧ live rv' = live rv ∧
      run env (merge_sort_loop_mem c (S f) cap (length l) (length pre) (length pre) rv)
        (Env tt a (Some (live rv :: hs))) l =
      run env (merge_sort_loop_mem c f cap (length l) (length pre + m) (length pre + m) rv')
        (Env tt a (Some (live rv' :: hs))) l.
  Proof.
    intros l Hok Hsum Hcap Hm Hls Hfib.
    assert (Hl : length l = length pre + m + length (stairs ls)).
    { unfold l. simpl. rewrite !app_length, replicate_length. lia. }
    assert (length (stairs ls) ≠ 0) by (by destruct (stairs ls)).
    cbn [merge_sort_loop_mem]. rewrite (proj2 (Nat.ltb_lt _ _)) by lia.
    rewrite run_bind, run_guarded.
    pose proof (run_find_streak_stairs pre m (length ls) (stairs ls) (stairs_below ls)
      ltac:(lia)) as Hst. cbv zeta in Hst.
    change (pre ++ replicate m (length ls) ++ stairs ls) with l in Hst. rewrite Hst.
    rewrite run_bind, run_guarded. cbn [run].
    rewrite run_bind, run_guarded. unfold provide_sorted_batch, assert, MIN_INSERTION_RUN.
    rewrite !(proj2 (Nat.leb_le _ _)) by lia.
    cbn [bind andb]. rewrite (proj2 (Nat.ltb_ge _ _)) by lia. cbn [andb run].
    rewrite run_bind, run_guarded. unfold usub. rewrite (proj2 (Nat.leb_le _ _)) by lia. cbn [run].
    replace (length pre + m - length pre) with m by lia.
    destruct (rv_push_room (pure_less Nat.ltb) al fr rv _ (Run (length pre) m) tt a
      (Some (live rv :: hs)) l Hok) as (rv' & Hp & Hok' & Hlive).
    { by rewrite runs_at_length, rev_length. }
    rewrite run_bind, Hp.
    assert (Hr : runs_at 0 (rev done) ++ [Run (length pre) m] = runs_at 0 (rev (m :: done))).
    { simpl. rewrite runs_at_app, sum_list_rev, Hsum. done. }
    rewrite Hr in Hok'. exists rv'. split; [done|]. split; [done|].
    rewrite run_bind. cbn [collapse_loop_mem].
    rewrite (rv_slice_ok rv' _ Hok'). cbn [bind].
    rewrite collapse_settled; [|simpl; lia|done]. cbn [run]. by rewrite Hlive.
  Qed.

  Lemma stairs_loop f cap ms ls done pre rv a hs :
    let l := pre ++ stairs (ms ++ ls) in
    rvok rv (runs_at 0 (rev done)) → sum_list done = length pre →
    length ms + length done ≤ rv_cap rv →
    Forall (λ m, 10 ≤ m) ms → stairs ls ≠ [] → fib (rev ms ++ done) →
    ∃ rv', rvok rv' (runs_at 0 (rev (rev ms ++ done))) ∧ live rv' = live rv ∧
      run env (merge_sort_loop_mem c (length ms + f) cap (length l) (length pre) (length pre) rv)
        (Env tt a (Some (live rv :: hs))) l =
      run env (merge_sort_loop_mem c f cap (length l) (length pre + sum_list ms)
        (length pre + sum_list ms) rv') (Env tt a (Some (live rv' :: hs))) l.
  Proof.
    revert done pre rv. induction ms as [|m ms IH]; intros done pre rv l Hok Hsum Hcap Hms Hls Hfib.
    { exists rv. split; [done|]. split; [done|]. simpl. by rewrite Nat.add_0_r. }
    apply Forall_cons in Hms as [Hm Hms]. simpl in Hcap.
    replace (rev (m :: ms) ++ done) with (rev ms ++ m :: done) in * by (simpl; by rewrite <-app_assoc).
    assert (Hls' : stairs (ms ++ ls) ≠ []).
    { intros H. apply (f_equal length) in H. rewrite stairs_length, sum_list_with_app in H.
      rewrite <-stairs_length in H. assert (length (stairs ls) ≠ 0) by (by destruct (stairs ls)).
      simpl in H. rewrite stairs_length in *. lia. }
    destruct (stairs_step (length ms + f) cap pre m (ms ++ ls) done rv a hs) as (rv1 & Hok1 & Hl1 & Hr1);
      [done|done|lia|done|done| |].
    { apply (fib_drop (length (rev ms))) in Hfib. by rewrite drop_app in Hfib. }
    assert (Hl : l = (pre ++ replicate m (length (ms ++ ls))) ++ stairs (ms ++ ls)).
    { unfold l. simpl. by rewrite app_assoc. }
    assert (Hpm : length pre + m = length (pre ++ replicate m (length (ms ++ ls)))).
    { by rewrite app_length, replicate_length. }
    destruct (IH (m :: done) (pre ++ replicate m (length (ms ++ ls))) rv1)
      as (rv2 & Hok2 & Hl2 & Hr2); [done| |by injection Hl1 as _ ->; simpl; lia|done|done|done|].
    { simpl. lia. }
    exists rv2. split; [done|]. split; [by rewrite Hl2|].
    change (length (m :: ms) + f) with (S (length ms + f)).
    cbn [app] in Hr1. change (m :: ms ++ ls) with ((m :: ms) ++ ls) in Hr1.
    unfold l. rewrite Hr1. fold l. rewrite Hl, Hpm, Hr2, <-Hpm.
    replace (length pre + sum_list (m :: ms)) with (length pre + m + sum_list ms) by (simpl; lia). done.
  Qed.

  (** The 17th run does not fit, the third allocation fails, and the old block of
      16 runs is freed as one of 32. *)
  Lemma stairs_fail ms a0 a1 a2 a3 p0 p1 :
    let l := stairs (ms ++ [1]) in
    zst c = false → length ms = 16 → Forall (λ m, 10 ≤ m) ms → fib (rev ms) →
    al a0 ElemBlock (length l / 2) = (Some p0, a1) → al a1 RunBlock 16 = (Some p1, a2) →
    al a2 RunBlock 32 = (None, a3) →
    ∃ a4, run env (stable_sort_mem c (length l)) (Env tt a0 (Some [])) l =
      (Panicked AssertPanic, Env tt a4 None, l).
  Proof.
    intros l Hz H16 Hms Hfib Ha0 Ha1 Ha2.
    assert (Hl : length l = sum_list ms + 1).
    { unfold l. rewrite stairs_length, sum_list_with_app. done. }
    assert (Hl20 : 20 < length l).
    { destruct ms as [|x [|y [|z ms]]]; simpl in H16; try lia.
      apply Forall_cons in Hms as [? [? [? _]%Forall_cons]%Forall_cons]. simpl in Hl. lia. }
    unfold stable_sort_mem. rewrite Hz. unfold merge_sort_mem, MS_MAX_INSERTION.
    assert (Hd : dassert c (negb (zst c)) = Ret tt :> cmp_prog nat unit).
    { unfold dassert. rewrite Hz. simpl. by rewrite andb_false_r. }
    rewrite Hd, run_bind, run_lift. cbn [run]. rewrite (proj2 (Nat.leb_gt _ _)) by lia.
    unfold alloc. cbn [bind run environment allocator_state closure_state blocks].
    rewrite Ha0. cbn [bind]. rewrite run_bind, run_on_unwind, run_bind.
    unfold rv_new, alloc, START_RUN_CAPACITY.
    cbn [bind run environment allocator_state closure_state blocks]. rewrite Ha1. cbn [bind run].
    set (b := (ElemBlock, p0, length l / 2)).
    set (rv := RunVec p1 16 0 (replicate 16 None)).
    change (RunBlock, p1, 16) with (live rv).
    destruct (stairs_loop (S (length l) - 16) (length l / 2) ms [1] [] [] rv a2 [b])
      as (rv' & Hok & Hlive & Hrun); [apply rvok_new|done|simpl; lia|done|done|by rewrite app_nil_r|].
    cbv zeta in Hrun. cbn [length app] in Hrun. fold l in Hrun.
    replace (length ms + (S (length l) - 16)) with (S (length l)) in Hrun by lia.
    rewrite run_bind, Hrun, Hl. clear Hrun. cbn [Nat.add].
    replace (S (sum_list ms + 1) - 16) with (S (sum_list ms + 1 - 16)) by lia.
    cbn [merge_sort_loop_mem]. rewrite (proj2 (Nat.ltb_lt _ _)) by lia.
    rewrite run_bind, run_guarded.
    assert (Hst : run (pure_less Nat.ltb) (slice (sum_list ms + 1) (sum_list ms) (sum_list ms + 1)
      find_streak) tt l = (Done (1, false), tt, l)).
    { unfold slice. rewrite !(proj2 (Nat.leb_le _ _)) by lia. cbn [andb].
      replace (sum_list ms + 1 - sum_list ms) with 1 by lia. done. }
    rewrite Hst. rewrite run_bind, run_guarded. cbn [run].
    rewrite run_bind, run_guarded. unfold provide_sorted_batch, assert.
    rewrite !(proj2 (Nat.leb_le _ _)) by lia. cbn [bind andb].
    rewrite Nat.ltb_irrefl, andb_false_r. cbn [run].
    rewrite run_bind, run_guarded. unfold usub. rewrite (proj2 (Nat.leb_le _ _)) by lia. cbn [run].
    rewrite run_bind. unfold rv_push.
    destruct Hok as (_ & Hlen & _). rewrite runs_at_length, rev_length, app_length, rev_length in Hlen.
    simpl in Hlen. injection Hlive as Hp Hc. simpl in Hc. rewrite Hlen, Hc, H16.
    rewrite Nat.add_0_r, Nat.eqb_refl. rewrite run_bind, run_bind, run_on_unwind. unfold alloc.
    cbn [bind run environment allocator_state closure_state blocks]. cbn [Nat.mul Nat.add].
    rewrite Ha2. unfold rv_drop, dealloc, live, b.
    cbn [bind run environment allocator_state closure_state blocks rv_ptr rv_cap free_block].
    rewrite Hc. do 2 (rewrite decide_False by congruence). cbn. by eexists.
  Qed.
End fail.

(** Sixteen runs on the border of what [collapse] tolerates. *)
Definition border_runs : list nat :=
  N.to_nat <$> [11466; 7086; 4379; 2706; 1672; 1033; 638; 394; 243; 150; 92; 57; 34; 22; 11; 10]%N.

Lemma stable_sort_wrong_free {A} c (al : A → block_kind → nat → option nat * A) fr a0 a1 a2 a3 p0 p1 :
  let l := stairs (border_runs ++ [1]) in
  zst c = false →
  al a0 ElemBlock (length l / 2) = (Some p0, a1) → al a1 RunBlock 16 = (Some p1, a2) →
  al a2 RunBlock 32 = (None, a3) →
  N.of_nat (length l) = 29994%N ∧
  ∃ a4, run (environment (pure_less Nat.ltb) al fr) (stable_sort_mem c (length l)) (Env tt a0 (Some [])) l =
    (Panicked AssertPanic, Env tt a4 None, l).
Proof.
  intros l Hz Ha0 Ha1 Ha2. split.
  - unfold l. rewrite stairs_length, sum_list_with_app. unfold border_runs.
    cbn [fmap list_fmap sum_list_with]. unfold id. lia.
  - eapply stairs_fail; eauto.
    + unfold border_runs. apply Forall_fmap. repeat (constructor; [unfold compose; lia|]). constructor.
    + unfold border_runs. cbn [fmap list_fmap rev app fib]. lia.
Qed.

(** ** The statements of PropAlloc.v *)
Section final.
  Context {T S A : Type} (c : cfg) (less : S → T * T → option bool * S).
  Context (al : A → block_kind → nat → option nat * A) (fr : A → block_kind → nat → nat → A).

  Lemma stable_sort_frees s a (l : list T) :
    (∀ a k len, (al a k len).1 ≠ None) →
    ∃ r s' l' a', run less (stable_sort c (length l)) s l = (r, s', l') ∧
      run (environment less al fr) (stable_sort_mem c (length l)) (Env s a (Some [])) l =
        (r, Env s' a' (Some []), l') ∧
      (r = Done tt ∨ r = Panicked UserPanic) ∧ Permutation l l'.
  Proof.
    intros Hn. destruct (stable_sort_sim c less al fr (λ _ _, True) ltac:(done) ltac:(done) ltac:(done) s a l)
      as [(r & s' & l' & a' & H1 & H2)|[Hs _]].
    - done.
    - left. intros ? ? _. apply Hn.
    - destruct (stable_sort_all c less s l) as (r1 & s1 & l1 & Hr & Hc & Hp).
      rewrite H1 in Hr. simplify_eq. exists r1, s1, l1, a'. auto.
    - destruct Hs. split; intros; apply Hn.
  Qed.

  Lemma stable_sort_null s a (l : list T) :
    ((∀ a len, 16 < len → (al a RunBlock len).1 ≠ None) ∨ (N.of_nat (length l) ≤ 29993)%N) →
    ∃ r s' l' a',
      run (environment less al fr) (stable_sort_mem c (length l)) (Env s a (Some [])) l =
        (r, Env s' a' (Some []), l') ∧
      (run less (stable_sort c (length l)) s l = (r, s', l') ∨
       (¬ (∀ a k len, (al a k len).1 ≠ None) ∧ r = Panicked AssertPanic ∧ s' = s ∧ l' = l)).
  Proof.
    intros Hn. destruct (stable_sort_sim c less al fr (λ _ _, True) ltac:(done) ltac:(done) ltac:(done) s a l)
      as [(r & s' & l' & a' & H1 & H2)|(Hnn & _ & a' & H)]; [done|naive_solver| |].
    - exists r, s', l', a'. auto.
    - exists (Panicked AssertPanic), s, l, a'. split; [done|]. right. split; [|done].
      intros Hn'. destruct Hnn. split; intros; apply Hn'.
  Qed.
End final.

(** Allocator that returns null when it is called for the third time. *)
Definition third_null (a : nat) (k : block_kind) (len : nat) : option nat * nat :=
  (if a =? 2 then None else Some a, Datatypes.S a).

Lemma third_null_wrong_free :
  ∃ (l : list nat) a', N.of_nat (length l) = 29994%N ∧
    run (environment (pure_less Nat.ltb) third_null (λ a _ _ _, a))
      (stable_sort_mem (Cfg false false true false) (length l)) (Env tt 0 (Some [])) l =
      (Panicked AssertPanic, Env tt a' None, l).
Proof.
  exists (stairs (border_runs ++ [1])).
  destruct (stable_sort_wrong_free (Cfg false false true false) third_null (λ a _ _ _, a) 0 1 2 3 0 1)
    as (Hl & a' & Hr); try reflexivity. exists a'. by split.
Qed.
