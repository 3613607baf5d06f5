(** * Proofs about MAlloc.v: the sort with [RunVec] and an allocator does what the
    sort of MMerge.v does, and returns all memory. *)
From Verif Require Export HeapSpec CMerge TSort.
From stdpp Require Import list.

Local Transparent bind on_unwind costs with_asks.
Local Arguments with_asks {T Q R Q' R'} h {A} !p.
Local Arguments costs {T Q R A} !p Φ B k.
Local Arguments bind {T Q R A B} !p f.
Local Arguments on_unwind {T Q R A} c !p.

Lemma run_on_unwind {T Q R S A} (o : S → Q → R * S) cl (p : prog T Q R A) s l :
  run o (on_unwind cl p) s l =
    match run o p s l with
    | (Panicked e, s', l') =>
        match run o cl s' l' with
        | (Done _, s'', l'') => (Panicked e, s'', l'')
        | (Panicked e', s'', l'') => (Panicked e', s'', l'')
        | (Undefined, s'', l'') => (Undefined, s'', l'')
        | (Diverged, s'', l'') => (Diverged, s'', l'')
        end
    | r => r
    end.
Proof.
  revert s l.
  induction p as [A a|A e|A i k IH|A i x k IH|A q k IH|A B' C p1 IH1 p2 IH2 k IH| |];
    intros s l; simpl; try done.
  - rewrite run_bind. by destruct (run o cl s l) as [[[] ?] ?].
  - destruct (l !! i); [|done]. apply IH.
  - case_decide; [|done]. apply IH.
  - destruct (o s q) as [r s']. apply IH.
  - destruct (run o p1 s l) as [[[b|e1| |] s1] l1]; simpl; try done;
      destruct (run o p2 s1 l1) as [[[d|e2| |] s2] l2]; simpl; try done; apply IH.
Qed.

(** What [costs] says about returned values. *)
Lemma costs_run_done {T Q R S A} (o : S → Q → R * S) (p : prog T Q R A) Φ B k s l a s' l' :
  costs p Φ B k → run o p s l = (Done a, s', l') → ∃ k', Φ a k'.
Proof.
  revert s l k.
  induction p as [A a0|A e|A i f IH|A i x f IH|A q f IH|A B' C p1 IH1 p2 IH2 f IH| |];
    intros s l k Hc Hr; simpl in *; simplify_eq; try done.
  - by eexists.
  - destruct (l !! i); [|done]. by eapply IH.
  - case_decide; [|done]. by eapply IH.
  - destruct (o s q) as [r s1]. destruct Hc as [_ Hc]. by eapply IH.
Qed.

Section sim.
  Context {T S A : Type} (c : cfg).
  Context (less : S → T * T → option bool * S).
  Context (al : A → block_kind → nat → option nat * A).
  Context (fr : A → block_kind → nat → nat → A).
  Notation env := (environment less al fr).
  Notation P B := (prog T (mem_question T) mem_answer B).
  Implicit Types (rv : run_vec) (runs : list run_t) (hs : memory).

  Lemma run_lift {B} (p : cmp_prog T B) s a h l :
    run env (lift p) (Env s a h) l =
      let '(r, s', l') := run less p s l in (r, Env s' a h, l').
  Proof.
    unfold lift. revert s l.
    induction p as [B b|B e|B i k IH|B i x k IH|B [x y] k IH|B B' C p1 IH1 p2 IH2 k IH| |];
      intros s l; cbn; try done.
    - destruct (l !! i); [|done]. apply IH.
    - case_decide; [|done]. apply IH.
    - destruct (less s (x, y)) as [r s']. apply IH.
    - rewrite IH1. destruct (run less p1 s l) as [[[b|e1| |] s1] l1]; try done;
        rewrite IH2; destruct (run less p2 s1 l1) as [[[d|e2| |] s2] l2]; try done; apply IH.
  Qed.

  (** The vector holds the runs. *)
  Definition rvok rv runs : Prop :=
    length (rv_slots rv) = rv_cap rv ∧ rv_len rv = length runs ∧
    length runs ≤ rv_cap rv ∧ 16 ≤ rv_cap rv ∧ take (length runs) (rv_slots rv) = Some <$> runs.
  Definition live rv : mem_block := (RunBlock, rv_ptr rv, rv_cap rv).

  Lemma mapM_id_Some runs : mapM id (Some <$> runs) = Some runs.
  Proof. apply mapM_Some. induction runs; simpl; by constructor. Qed.
  Lemma rv_slice_ok rv runs : rvok rv runs → (rv_slice rv : P _) = Ret runs.
  Proof.
    intros (H1 & H2 & H3 & H4 & H5). unfold rv_slice.
    rewrite (proj2 (Nat.leb_le _ _)) by lia. by rewrite H2, H5, mapM_id_Some.
  Qed.
  Lemma rv_index_ok rv runs i r : rvok rv runs → runs !! i = Some r → (rv_index rv i : P _) = Ret r.
  Proof.
    intros (H1 & H2 & H3 & H4 & H5) Hi. pose proof (lookup_lt_Some _ _ _ Hi).
    unfold rv_index. rewrite (proj2 (Nat.ltb_lt _ _)) by lia.
    assert (rv_slots rv !! i = Some (Some r)) as ->; [|done].
    rewrite <-(lookup_take _ (length runs)) by done. rewrite H5, list_lookup_fmap. by rewrite Hi.
  Qed.
  Lemma rv_assign_ok rv runs i v :
    rvok rv runs → i < length runs →
    ∃ rv', (rv_assign rv i v : P _) = Ret rv' ∧ rvok rv' (<[i:=v]> runs) ∧ live rv' = live rv.
  Proof.
    intros (H1 & H2 & H3 & H4 & H5) Hi. unfold rv_assign.
    rewrite !(proj2 (Nat.ltb_lt _ _)) by lia. eexists. split; [done|]. split; [|done].
    unfold rvok. simpl. rewrite !insert_length. repeat split; auto.
    rewrite take_insert_lt by done. rewrite H5. by rewrite list_fmap_insert.
  Qed.
  Lemma rv_remove_ok rv runs i :
    rvok rv runs → i < length runs →
    ∃ rv', (rv_remove rv i : P _) = Ret rv' ∧ rvok rv' (delete i runs) ∧ live rv' = live rv.
  Proof.
    intros (H1 & H2 & H3 & H4 & H5) Hi. unfold rv_remove.
    rewrite (proj2 (Nat.leb_gt _ _)) by lia. rewrite (proj2 (Nat.leb_le _ _)) by lia.
    eexists. split; [done|]. split; [|done]. unfold rvok. simpl.
    assert (Hl : length (delete i runs) = length runs - 1).
    { rewrite length_delete; [done|]. by apply lookup_lt_is_Some. }
    rewrite Hl, !app_length, !take_length, !drop_length.
    repeat split; [lia|lia|lia|lia|].
    rewrite app_assoc, take_app_alt.
    2:{ rewrite app_length, !take_length, drop_length. lia. }
    rewrite delete_take_drop, fmap_app, fmap_take, fmap_drop, <-H5.
    rewrite take_take, Nat.min_l by lia. f_equal.
    rewrite Nat.add_1_r. replace (length runs) with (Datatypes.S i + (length runs - i - 1)) by lia.
    rewrite <-take_drop_commute, H2. done.
  Qed.

  Lemma run_rv_drop rv s a hs l :
    run env (rv_drop rv) (Env s a (Some (live rv :: hs))) l =
      (Done tt, Env s (fr a RunBlock (rv_ptr rv) (rv_cap rv)) (Some hs), l).
  Proof. unfold rv_drop, dealloc. simpl. by rewrite decide_True. Qed.

  (** Code under the guard of the vector. *)
  Lemma run_guarded {B} rv (p : cmp_prog T B) s a hs l :
    run env (on_unwind (rv_drop rv) (lift p)) (Env s a (Some (live rv :: hs))) l =
      match run less p s l with
      | (Panicked e, s', l') =>
          (Panicked e, Env s' (fr a RunBlock (rv_ptr rv) (rv_cap rv)) (Some hs), l')
      | (r, s', l') => (r, Env s' a (Some (live rv :: hs)), l')
      end.
  Proof.
    rewrite run_on_unwind, run_lift.
    destruct (run less p s l) as [[[b|e| |] s'] l']; try done.
    by rewrite run_rv_drop.
  Qed.

  Lemma collapse_sim fuel cap n rv runs s a hs l :
    rvok rv runs →
    match run less (collapse_loop fuel cap n runs) s l with
    | (Done runs', s', l') =>
        ∃ rv', run env (collapse_loop_mem fuel cap n rv) (Env s a (Some (live rv :: hs))) l =
          (Done rv', Env s' a (Some (live rv' :: hs)), l') ∧ rvok rv' runs'
    | (Panicked e, s', l') =>
        ∃ a', run env (collapse_loop_mem fuel cap n rv) (Env s a (Some (live rv :: hs))) l =
          (Panicked e, Env s' a' (Some hs), l')
    | (Undefined, s', l') =>
        ∃ a' h', run env (collapse_loop_mem fuel cap n rv) (Env s a (Some (live rv :: hs))) l =
          (Undefined, Env s' a' h', l')
    | (Diverged, s', l') =>
        ∃ a' h', run env (collapse_loop_mem fuel cap n rv) (Env s a (Some (live rv :: hs))) l =
          (Diverged, Env s' a' h', l')
    end.
  Proof.
    revert rv runs s l. induction fuel as [|f IH]; intros rv runs s l Hok; [by eexists _, _|].
    cbn [collapse_loop collapse_loop_mem]. rewrite (rv_slice_ok rv runs Hok). simpl.
    destruct (collapse runs n) as [r|] eqn:Hc; [|by exists rv].
    pose proof (collapse_some _ _ _ Hc) as Hr.
    destruct (lookup_lt_is_Some_2 runs r) as [x Hx]; [lia|].
    destruct (lookup_lt_is_Some_2 runs (r + 1)) as [y Hy]; [lia|].
    unfold run_get. rewrite Hx, Hy. rewrite (rv_index_ok rv runs r x Hok Hx).
    simpl. rewrite (rv_index_ok rv runs (r + 1) y Hok Hy). simpl.
    rewrite !run_bind, run_guarded.
    destruct (run less (slice _ _ _ _) s l) as [[[b|e| |] s1] l1]; [|by eauto..].
    destruct (rv_assign_ok rv runs (r + 1) (Run (r_start x) (r_len x + r_len y)) Hok)
      as (rv1 & -> & Hok1 & Hl1); [lia|].
    simpl. destruct (rv_remove_ok rv1 _ r Hok1) as (rv2 & -> & Hok2 & Hl2);
      [rewrite insert_length; lia|].
    simpl. rewrite <-Hl1, <-Hl2. by apply IH.
  Qed.

  Lemma rv_push_room rv runs v s a h l :
    rvok rv runs → length runs < rv_cap rv →
    ∃ rv', run env (rv_push rv v) (Env s a h) l = (Done rv', Env s a h, l) ∧
      rvok rv' (runs ++ [v]) ∧ live rv' = live rv.
  Proof.
    intros (H1 & H2 & H3 & H4 & H5) Hroom. unfold rv_push.
    destruct (Nat.eqb_spec (rv_len rv) (rv_cap rv)); [lia|]. simpl.
    rewrite (proj2 (Nat.ltb_lt _ _)) by lia. eexists. split; [done|]. split; [|done].
    unfold rvok. simpl. rewrite insert_length, app_length. simpl. split_and!; auto with lia.
    rewrite H2, Nat.add_1_r, (take_S_r _ _ (Some v)).
    - rewrite take_insert by lia. by rewrite H5, fmap_app.
    - apply list_lookup_insert. lia.
  Qed.
  Lemma rv_push_grow rv runs v s a hs l p a' :
    rvok rv runs → length runs = rv_cap rv → al a RunBlock (rv_cap rv * 2) = (Some p, a') →
    ∃ rv' a'', run env (rv_push rv v) (Env s a (Some (live rv :: hs))) l =
      (Done rv', Env s a'' (Some (live rv' :: hs)), l) ∧ rvok rv' (runs ++ [v]).
  Proof.
    intros (H1 & H2 & H3 & H4 & H5) Hfull Hal. unfold rv_push.
    destruct (Nat.eqb_spec (rv_len rv) (rv_cap rv)); [|lia]. simpl.
    rewrite Hal. simpl.
    rewrite (proj2 (Nat.leb_le (rv_cap rv) (length _))) by lia.
    rewrite (proj2 (Nat.leb_le (rv_cap rv) (rv_cap rv * 2))) by lia. simpl.
    rewrite decide_False by (intros [= ? ?]; lia). rewrite decide_True by done. simpl.
    rewrite app_length, take_length, replicate_length.
    rewrite (proj2 (Nat.ltb_lt _ _)) by lia.
    exists (RunVec p (rv_cap rv * 2) (rv_len rv + 1) (<[rv_len rv := Some v]>
      (take (rv_cap rv) (rv_slots rv) ++ replicate (rv_cap rv * 2 - rv_cap rv) None))).
    eexists. split; [reflexivity|].
    unfold rvok. cbn [rv_slots rv_cap rv_len].
    rewrite insert_length, !app_length, take_length, replicate_length. cbn [length].
    split_and!; [lia..|].
    rewrite H2, Nat.add_1_r, (take_S_r _ _ (Some v)).
    - rewrite take_insert by lia. rewrite take_app_alt.
      + rewrite Hfull in H5. by rewrite H5, fmap_app.
      + rewrite take_length. lia.
    - apply list_lookup_insert. rewrite app_length, take_length, replicate_length. lia.
  Qed.

  (** A stack of 16 runs of at least 10 elements, none of which can be merged,
      takes at least 29993 elements. *)
  Lemma fib_16 ls : fib ls → Forall (λ z, 10 ≤ z) ls → 16 ≤ length ls → (29993 ≤ N.of_nat (sum_list ls))%N.
  Proof.
    intros Hf Hp Hl. do 16 (destruct ls as [|? ls]; [simpl in Hl; lia|]).
    assert (H0 : 10 ≤ n) by (by apply Forall_cons in Hp as [? _]). clear Hp Hl.
    cbn [fib] in Hf. cbn [sum_list sum_list_with]. unfold id. 
    assert (Hr : 0 ≤ sum_list ls) by lia. simpl. revert Hr. generalize (sum_list ls).
    intros r _. destruct ls; lia.
  Qed.

  Lemma collapse_loop_least m fuel cap n runs s l runs' s' l' :
    run less (collapse_loop fuel cap n runs) s l = (Done runs', s', l') →
    Forall (λ r, m ≤ r_len r) runs → Forall (λ r, m ≤ r_len r) runs'.
  Proof.
    revert runs s l. induction fuel as [|f IH]; intros runs s l; [done|]. cbn [collapse_loop].
    destruct (collapse runs n) as [r|]; [|by intros [= <- _ _]].
    rewrite run_bind. unfold run_get. destruct (runs !! r) as [x|] eqn:Hx; [|done]. cbn [run].
    rewrite run_bind. destruct (runs !! (r + 1)) as [y|] eqn:Hy; [|done]. cbn [run].
    rewrite run_bind. destruct (run less (slice _ _ _ _) s l) as [[[u|e| |] s1] l1]; try done.
    intros Hr Hf. eapply IH; [exact Hr|].
    assert (Hxm : m ≤ r_len x) by (by eapply (Forall_lookup_1 _ _ _ _ Hf)).
    apply Forall_delete, Forall_insert; [done|]. simpl. lia.
  Qed.

  Lemma batch_least n start e s l e' s' l' :
    start ≤ e → run less (provide_sorted_batch c n start e) s l = (Done e', s', l') →
    start + 10 ≤ e' ∨ n ≤ e'.
  Proof.
    intros Hse. unfold provide_sorted_batch, MIN_INSERTION_RUN, assert.
    destruct (_ && _); [|done]. cbn [bind].
    destruct (_ && _) eqn:Hb.
    - rewrite run_bind. destruct (run less (slice _ _ _ _) s l) as [[[u|x| |] s1] l1]; try done.
      intros [= <- _ _]. lia.
    - intros [= <- _ _]. apply andb_false_iff in Hb as [Hb%Nat.ltb_ge|Hb%Nat.ltb_ge]; lia.
  Qed.

  (** An invariant of the allocator's state and the blocks that are allocated. *)
  Context (I : A → memory → Prop).
  Hypothesis I_null : ∀ a hs k len a', I a hs → al a k len = (None, a') → I a' hs.
  Hypothesis I_alloc : ∀ a hs k len p a',
    I a hs → al a k len = (Some p, a') → I a' ((k, p, len) :: hs).
  Hypothesis I_free : ∀ a hs k p len hs',
    I a hs → free_block hs (k, p, len) = Some hs' → I (fr a k p len) hs'.

  Lemma run_keeps {B} (p : P B) (e : env_state S A) l :
    (∀ hs, blocks e = Some hs → I (allocator_state e) hs) →
    ∀ hs, blocks (run env p e l).1.2 = Some hs → I (allocator_state (run env p e l).1.2) hs.
  Proof.
    revert e l.
    induction p as [B b|B e0|B i k IH|B i x k IH|B q k IH|B B' C p1 IH1 p2 IH2 k IH| |];
      intros e l He; cbn [run]; try done.
    - destruct (l !! i); [by apply IH|done].
    - case_decide; [by apply IH|done].
    - destruct (env e q) as [r e'] eqn:Hq. apply IH. destruct e as [s a h].
      destruct q as [x y|kd len|kd p len]; cbn in Hq, He.
      + destruct (less s (x, y)) as [v s']. by injection Hq as <- <-.
      + destruct (al a kd len) as [[p|] a'] eqn:Hal; injection Hq as <- <-; cbn; intros hs Hhs.
        * destruct h as [h|]; [|done]. injection Hhs as <-. by eapply I_alloc; [apply He|].
        * eapply I_null; [by apply He|done].
      + injection Hq as <- <-. cbn. destruct h as [h|]; [|done]. intros hs Hhs.
        by eapply I_free; [apply He|].
    - specialize (IH1 e l He). destruct (run env p1 e l) as [[[b|e1| |] s1] l1]; cbn in IH1; try done;
        specialize (IH2 s1 l1 IH1); destruct (run env p2 s1 l1) as [[[d|e2| |] s2] l2]; cbn in IH2;
        try done; by apply IH.
  Qed.
  Lemma run_keeps_all {B} (p : P B) s a hs l r s' a' hs' l' :
    I a hs → run env p (Env s a (Some hs)) l = (r, Env s' a' (Some hs'), l') → I a' hs'.
  Proof.
    intros HI Hr. pose proof (run_keeps p (Env s a (Some hs)) l) as H. rewrite Hr in H.
    apply H; [|done]. by intros ? [= <-].
  Qed.

  (** The first two requests are granted. *)
  Definition serves (n : nat) : Prop :=
    (∀ a, I a [] → (al a ElemBlock (n / 2)).1 ≠ None) ∧
    (∀ a buf, I a [(ElemBlock, buf, n / 2)] → (al a RunBlock 16).1 ≠ None).
  (** The run stack can always be enlarged. *)
  Definition can_grow : Prop := ∀ a len, 16 < len → (al a RunBlock len).1 ≠ None.
  (** It can be enlarged as long as it is not too long. *)
  Definition grows (n : nat) : Prop :=
    ∀ a buf p cap, I a [(RunBlock, p, cap); (ElemBlock, buf, n / 2)] → 16 ≤ cap →
      cap ≤ 2 * Nat.log2 (n / 10) + 1 → (al a RunBlock (cap * 2)).1 ≠ None.
  (** Why pushing another run finds room or gets memory. *)
  Definition room (n e : nat) runs : Prop :=
    can_grow ∨ n ≤ e ∨
    (((N.of_nat n ≤ 29993)%N ∨ grows n) ∧ ∃ ls, runs = runs_at 0 (rev ls) ∧ sum_list ls = e ∧
       Forall (λ z, 10 ≤ z) ls ∧ fib ls).

  Lemma runs_at_least (m : nat) s ls :
    Forall (λ r, m ≤ r_len r) (runs_at s ls) ↔ Forall (λ z, m ≤ z) ls.
  Proof.
    revert s. induction ls as [|z ls IH]; intros s; simpl; [by split; constructor|].
    by rewrite !Forall_cons, IH.
  Qed.

  Lemma room_step n e e' cap fuel runs s l runs' s' l' :
    room n e runs → e < n → e + 10 ≤ e' ∨ n ≤ e' → e' ≤ n →
    run less (collapse_loop fuel cap n (runs ++ [Run e (e' - e)])) s l = (Done runs', s', l') →
    room n e' runs'.
  Proof.
    intros [?|[?|(Hn & ls & -> & Hsum & Hpos & Hfib)]] He He' Hen Hrun; [by left|lia|].
    destruct (decide (e' = n)) as [->|Hne]; [right; left; done|].
    right. right. split; [done|].
    assert (Hr : runs_at 0 (rev ls) ++ [Run e (e' - e)] = runs_at 0 (rev (e' - e :: ls))).
    { simpl. rewrite runs_at_app, sum_list_rev. simpl. by rewrite Hsum. }
    rewrite Hr in Hrun.
    assert (Hs : sum_list (e' - e :: ls) = e') by (simpl; lia).
    pose proof (collapse_loop_cost (T:=T) fuel cap n (e' - e :: ls)
      (4 * pot (e' - e :: ls)) (4 * pot (e' - e :: ls)) 0) as Hc.
    destruct (costs_run_done less _ _ _ _ _ _ _ _ _ (Hc ltac:(lia) ltac:(constructor; [lia|eapply Forall_impl; [exact Hpos|simpl; lia]])
      ltac:(by apply (fib_drop 1)) ltac:(lia) ltac:(lia)) Hrun) as (k' & ls' & Hls & ? & _ & ? & _).
    exists ls'. split_and!; auto; [lia|].
    rewrite <- (rev_involutive ls'). apply Forall_rev, (runs_at_least 10 0). rewrite <- Hls.
    apply (collapse_loop_least _ _ _ _ _ _ _ _ _ _ Hrun).
    apply (runs_at_least 10 0), Forall_rev. constructor; [lia|done].
  Qed.

  Lemma fib_length_10 ls n :
    fib ls → Forall (λ z, 10 ≤ z) ls → sum_list ls ≤ n → length ls ≤ 2 * Nat.log2 (n / 10) + 1.
  Proof.
    intros Hf Hp Hn. destruct ls as [|z [|y ls]]; cbn [length]; [lia|lia|].
    apply Forall_cons in Hp as [Hz Hp]. apply Forall_cons in Hp as [Hy _].
    pose proof (fib_height ls 10 z y Hz Hy Hf) as H.
    assert (2 ^ Datatypes.S (length ls / 2) ≤ n / 10) as H'.
    { apply Nat.div_le_lower_bound; lia. }
    assert (Datatypes.S (length ls / 2) ≤ Nat.log2 (n / 10)).
    { rewrite <-(Nat.log2_pow2 (Datatypes.S (length ls / 2))) by lia. by apply Nat.log2_le_mono. }
    pose proof (Nat.div_mod (length ls) 2 ltac:(lia)).
    pose proof (Nat.mod_upper_bound (length ls) 2 ltac:(lia)). lia.
  Qed.

  Lemma push_sim n e rv runs v s a buf hs l :
    hs = [(ElemBlock, buf, n / 2)] → I a (live rv :: hs) → rvok rv runs → room n e runs → e < n →
    ∃ rv' a', run env (rv_push rv v) (Env s a (Some (live rv :: hs))) l =
      (Done rv', Env s a' (Some (live rv' :: hs)), l) ∧ rvok rv' (runs ++ [v]).
  Proof.
    intros Hhs HI Hok Hroom He. destruct (decide (length runs < rv_cap rv)) as [Hlt|Hge].
    { destruct (rv_push_room rv runs v s a (Some (live rv :: hs)) l Hok Hlt)
        as (rv' & Hr & Hok' & Hl). exists rv', a. by rewrite Hr, Hl. }
    pose proof Hok as (_ & _ & Hle & H16 & _).
    destruct Hroom as [Hnn|[?|(Hn & ls & -> & Hsum & Hpos & Hfib)]]; [|lia|].
    - destruct (al a RunBlock (rv_cap rv * 2)) as [[p|] a'] eqn:Hal.
      + eapply rv_push_grow; [done|lia|done].
      + exfalso. apply (Hnn a (rv_cap rv * 2)); [lia|]. by rewrite Hal.
    - pose proof Hge as Hge'. rewrite runs_at_length, rev_length in Hge'.
      pose proof Hle as Hle'. rewrite runs_at_length, rev_length in Hle'.
      destruct Hn as [Hn|Hgr].
      { exfalso. pose proof (fib_16 ls Hfib Hpos ltac:(lia)). lia. }
      destruct (al a RunBlock (rv_cap rv * 2)) as [[p|] a'] eqn:Hal.
      + eapply rv_push_grow; [done|lia|done].
      + exfalso. subst hs. apply (Hgr a buf (rv_ptr rv) (rv_cap rv) HI ltac:(lia)); [|by rewrite Hal].
        pose proof (fib_length_10 ls n Hfib Hpos ltac:(lia)). lia.
  Qed.

  Lemma loop_sim fuel cap n e rv runs s a buf hs l :
    hs = [(ElemBlock, buf, n / 2)] → I a (live rv :: hs) → rvok rv runs → room n e runs →
    match run less (merge_sort_loop c fuel cap n e e runs) s l with
    | (Done runs', s', l') =>
        ∃ rv' a', run env (merge_sort_loop_mem c fuel cap n e e rv) (Env s a (Some (live rv :: hs))) l =
          (Done rv', Env s' a' (Some (live rv' :: hs)), l') ∧ rvok rv' runs'
    | (Panicked x, s', l') =>
        ∃ a', run env (merge_sort_loop_mem c fuel cap n e e rv) (Env s a (Some (live rv :: hs))) l =
          (Panicked x, Env s' a' (Some hs), l')
    | (Undefined, s', l') =>
        ∃ a' h', run env (merge_sort_loop_mem c fuel cap n e e rv) (Env s a (Some (live rv :: hs))) l =
          (Undefined, Env s' a' h', l')
    | (Diverged, s', l') =>
        ∃ a' h', run env (merge_sort_loop_mem c fuel cap n e e rv) (Env s a (Some (live rv :: hs))) l =
          (Diverged, Env s' a' h', l')
    end.
  Proof.
    intros Hhs.
    revert e rv runs s a l. induction fuel as [|f IH]; intros e rv runs s a l HI Hok Hroom; [by eexists _, _|].
    cbn [merge_sort_loop merge_sort_loop_mem].
    destruct (Nat.ltb_spec e n) as [He|He]; [|by eexists _, _].
    rewrite !run_bind, run_guarded.
    destruct (run less (slice n e n find_streak) s l) as [[[[se wr]|x| |] s1] l1] eqn:H1; [|by eauto..].
    assert (He1 : 1 ≤ se ∧ e + se ≤ n).
    { eapply (costs_run_done less _ (λ r _, 1 ≤ r.1 ∧ e + r.1 ≤ n) (n + 5) 0) in H1
        as [k' H1]; [exact H1|].
      apply costs_slice. intros _ _. eapply costs_mono; [apply find_streak_cost; lia|].
      intros [se' wr'] k _. simpl. lia. }
    rewrite !run_bind, run_guarded.
    destruct (run less (if wr then _ else _) s1 l1) as [[[b|x| |] s2] l2]; [|by eauto..].
    rewrite !run_bind, run_guarded.
    destruct (run less (provide_sorted_batch c n e (e + se)) s2 l2) as [[[e'|x| |] s3] l3] eqn:H3;
      [|by eauto..].
    pose proof H3 as H3'.
    assert (He' : e + se ≤ e' ∧ e' ≤ n).
    { eapply (costs_run_done less _ (λ r _, e + se ≤ r ∧ r ≤ n) (n + 500) 0) in H3
        as [k' H3]; [exact H3|].
      eapply costs_mono; [apply provide_sorted_batch_cost; lia|]. cbv beta. intros; lia. }
    rewrite !run_bind, run_guarded.
    unfold usub. rewrite (proj2 (Nat.leb_le e e')) by lia. cbn [run].
    destruct (push_sim n e rv runs (Run e (e' - e)) s3 a buf hs l3 Hhs HI Hok Hroom He) as (rv1 & a1 & Hp & Hok1).
    pose proof (run_keeps_all _ _ _ _ _ _ _ _ _ _ HI Hp) as HI1.
    rewrite !run_bind, Hp, run_bind.
    assert (Hl : rv_len rv1 = Datatypes.S (length runs)).
    { destruct Hok1 as (_ & -> & _). rewrite app_length. simpl. lia. }
    pose proof (collapse_sim (Datatypes.S (rv_len rv1)) cap n rv1 _ s3 a1 hs l3 Hok1) as Hc.
    rewrite Hl in *.
    destruct (run less (collapse_loop _ _ _ _) s3 l3) as [[[runs'|x| |] s4] l4] eqn:H4.
    - destruct Hc as (rv2 & Hrv2 & Hok2).
      pose proof (run_keeps_all _ _ _ _ _ _ _ _ _ _ HI1 Hrv2) as HI2.
      rewrite Hrv2. apply IH; [done|done|].
      eapply room_step; [exact Hroom|lia| |lia|exact H4].
      eapply (batch_least n e (e + se)); [lia|exact H3'].
    - destruct Hc as (a' & ->). eauto.
    - destruct Hc as (a' & h' & ->). eauto.
    - destruct Hc as (a' & h' & ->). eauto.
  Qed.

  Lemma rvok_new p : rvok (RunVec p 16 0 (replicate 16 None)) [].
  Proof. unfold rvok. simpl. repeat split; lia. Qed.

  (** The sort with [RunVec] and allocator [p] does what the sort [q] does and
      returns all memory. *)
  Definition same_sort (p : P unit) (q : cmp_prog T unit) s a l : Prop :=
    match run less q s l with
    | (Done r, s', l') => ∃ a', run env p (Env s a (Some [])) l = (Done r, Env s' a' (Some []), l')
    | (Panicked e, s', l') =>
        ∃ a', run env p (Env s a (Some [])) l = (Panicked e, Env s' a' (Some []), l')
    | (Undefined, _, _) | (Diverged, _, _) => True
    end.

  Lemma same_sort_lift q s a l : same_sort (lift q) q s a l.
  Proof. unfold same_sort. rewrite run_lift. destruct (run less q s l) as [[[] ?] ?]; eauto. Qed.

  Lemma merge_sort_sim n s a l :
    zst c = false → I a [] → can_grow ∨ (N.of_nat n ≤ 29993)%N ∨ grows n →
    same_sort (merge_sort_mem c n) (merge_sort c n) s a l ∨
    (¬ serves n ∧ 20 < n ∧
     ∃ a', run env (merge_sort_mem c n) (Env s a (Some [])) l =
       (Panicked AssertPanic, Env s a' (Some []), l)).
  Proof.
    intros Hz HI Hn. unfold merge_sort_mem, merge_sort, MS_MAX_INSERTION.
    assert (Hd : dassert c (negb (zst c)) = Ret tt :> cmp_prog T unit).
    { unfold dassert. rewrite Hz. simpl. by rewrite andb_false_r. }
    rewrite Hd. cbn [lift with_asks bind].
    destruct (Nat.leb_spec n 20) as [Hs|Hs]; [left; apply same_sort_lift|].
    destruct (al a ElemBlock (n / 2)) as [[buf|] a1] eqn:Hbuf.
    2: { right. split; [|split; [done|]].
         - intros [H _]. apply (H a HI). by rewrite Hbuf.
         - eexists. unfold alloc. cbn. rewrite Hbuf. reflexivity. }
    pose proof (I_alloc _ _ _ _ _ _ HI Hbuf) as HI1.
    destruct (al a1 RunBlock 16) as [[rp|] a2] eqn:Hrun.
    2: { right. split; [|split; [done|]].
         - intros [_ H]. apply (H a1 buf HI1). by rewrite Hrun.
         - eexists. unfold alloc. cbn [bind run environment allocator_state closure_state blocks].
           rewrite Hbuf. cbn [bind]. rewrite run_bind, run_on_unwind, run_bind.
           unfold rv_new, alloc, START_RUN_CAPACITY.
           cbn [bind run environment allocator_state closure_state blocks]. rewrite Hrun. cbn.
           rewrite decide_True by done. reflexivity. }
    pose proof (I_alloc _ _ _ _ _ _ HI1 Hrun) as HI2.
    left. unfold same_sort, alloc. cbn [bind run environment allocator_state closure_state blocks].
    rewrite Hbuf. cbn [bind]. rewrite !run_bind, run_on_unwind, run_bind.
    unfold rv_new, alloc, START_RUN_CAPACITY.
    cbn [bind run environment allocator_state closure_state blocks]. rewrite Hrun. cbn [bind run].
    set (b := (ElemBlock, buf, n / 2)).
    set (rv := RunVec rp 16 0 (replicate 16 None)).
    change (RunBlock, rp, 16) with (live rv).
    pose proof (loop_sim (Datatypes.S n) (n / 2) n 0 rv [] s a2 buf [b] l eq_refl HI2 (rvok_new rp)) as Hloop.
    rewrite run_bind.
    destruct (run less (merge_sort_loop c _ _ _ _ _ _) s l) as [[[runs'|x| |] s1] l1].
    - destruct Hloop as (rv' & a' & Hl & Hok).
      { destruct Hn; [by left|]. right; right. split; [done|]. exists []. by repeat constructor. }
      destruct (run less (dassert c _) s1 l1) as [[[[]|x| |] s2] l2] eqn:Hda; try done;
        eexists; rewrite Hl, (rv_slice_ok _ _ Hok); cbn [bind];
        rewrite run_bind, run_guarded, Hda.
      + rewrite run_rv_drop. cbn. rewrite decide_True by done. reflexivity.
      + cbn. rewrite decide_True by done. reflexivity.
    - destruct Hloop as (a' & Hl).
      { destruct Hn; [by left|]. right; right. split; [done|]. exists []. by repeat constructor. }
      eexists. rewrite Hl. cbn. rewrite decide_True by done. reflexivity.
    - done.
    - done.
  Qed.

  Lemma stable_sort_sim s a l :
    I a [] → can_grow ∨ (N.of_nat (length l) ≤ 29993)%N ∨ grows (length l) →
    (∃ r s' l' a', run less (stable_sort c (length l)) s l = (r, s', l') ∧
       run env (stable_sort_mem c (length l)) (Env s a (Some [])) l = (r, Env s' a' (Some []), l')) ∨
    (¬ serves (length l) ∧ 20 < length l ∧
     ∃ a', run env (stable_sort_mem c (length l)) (Env s a (Some [])) l =
       (Panicked AssertPanic, Env s a' (Some []), l)).
  Proof.
    intros HI Hn. unfold stable_sort_mem. destruct (zst c) eqn:Hz.
    { left. unfold stable_sort. rewrite Hz. by eexists _, _, _, _. }
    destruct (merge_sort_sim (length l) s a l Hz HI Hn) as [H|?]; [|by right].
    left. destruct (stable_sort_all c less s l) as (r & s' & l' & Hr & Hcases & _).
    unfold same_sort in H. assert (Hms : stable_sort c (length l) = merge_sort (T:=T) c (length l)).
    { unfold stable_sort. by rewrite Hz. }
    rewrite Hms in *. rewrite Hr in H.
    destruct Hcases as [-> | ->]; destruct H as [a' H]; by eexists _, _, _, _.
  Qed.
End sim.
