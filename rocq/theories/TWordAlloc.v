(** * TWordAlloc: the stable sort with its allocator, [usize] arithmetic and layouts does what
    the model of MAlloc does, whatever the comparator and the allocator answer. *)
From Verif Require Export MWordAlloc TWordMerge PAlloc.
From Coq Require Import NArith.

Local Transparent bind on_unwind.
Local Arguments with_asks {T Q R Q' R'} h {A} !p.

Section lift.
  Context {T : Type}.
  Notation P A := (prog T (mem_question T) mem_answer A).

  Lemma doomed_lift {A} (q : cmp_prog T A) : doomed q → doomed (lift q).
  Proof.
    intros H. unfold lift. induction H; cbn [with_asks]; try (constructor; auto; fail).
    destruct q as [a b]. cbn [bind]. constructor. auto.
  Qed.
  Lemma tracks_lift {A} (φ : A → Prop) (p q : cmp_prog T A) : tracks φ p q → tracks φ (lift p) (lift q).
  Proof.
    intros H. induction H; try (unfold lift; cbn [with_asks]; constructor; auto; fail).
    - unfold lift. destruct q as [a b]. cbn [with_asks bind]. constructor. intros r. apply H0.
    - by apply tracks_doomed, doomed_lift.
  Qed.
  Lemma tracks_unwind_free {A} (φ : A → Prop) k b len (p q : P A) :
    tracks φ p q → tracks φ (on_unwind (dealloc k b len) p) (on_unwind (dealloc k b len) q).
  Proof.
    intros H. induction H; cbn [on_unwind]; try (constructor; auto; fail).
    - unfold dealloc. cbn [bind]. constructor. intros r. constructor.
    - apply tracks_doomed. induction H; cbn [on_unwind]; try (constructor; auto; fail).
      unfold dealloc. cbn [bind]. constructor. intros r. by constructor.
  Qed.
End lift.

Section words.
  Context {T : Type} (c : cfg) (esize ealign : N).
  Notation P A := (prog T (mem_question T) mem_answer A).
  Implicit Types (rv : run_vec) (runs : list run_t).

  Definition roomy rv : Prop := 16 ≤ rv_cap rv ≤ 256.
  Lemma layout_run len : 1 ≤ len ≤ 512 → layout (T:=T) c esize ealign RunBlock len = Ret tt.
  Proof.
    intros H. unfold layout, block_bytes, block_align, words, word_bytes.
    destruct (wide c); rewrite (proj2 (N.ltb_lt _ _)), (proj2 (N.ltb_lt _ _)) by lia; done.
  Qed.
  Lemma rv_drop_ok rv : roomy rv → rv_drop_w (T:=T) c esize ealign rv = rv_drop rv.
  Proof. intros H. unfold rv_drop_w, dealloc_w. rewrite layout_run; [done|]. unfold roomy in H. lia. Qed.
  Lemma tracks_guarded {A} (φ : A → Prop) rv (p q : cmp_prog T A) : roomy rv → tracks φ p q →
    tracks φ (guarded c esize ealign rv p) (on_unwind (rv_drop rv) (lift q)).
  Proof.
    intros Hr H. unfold guarded. rewrite rv_drop_ok by done. by apply tracks_unwind_free, tracks_lift.
  Qed.
  Lemma guarded_uadd {A} rv a b (f : nat → P A) : (N.of_nat a + N.of_nat b < words c)%N →
    bind (guarded c esize ealign rv (uadd c a b)) f = f (a + b).
  Proof. intros H. unfold guarded, uadd. by rewrite (proj2 (N.ltb_lt _ _)). Qed.
  Lemma guarded_umul {A} rv a b (f : nat → P A) : (N.of_nat a * N.of_nat b < words c)%N →
    bind (guarded c esize ealign rv (umul c a b)) f = f (a * b).
  Proof. intros H. unfold guarded, umul. by rewrite (proj2 (N.ltb_lt _ _)). Qed.
  Lemma guarded_wsub {A} rv a b (f : nat → P A) : b ≤ a →
    bind (guarded c esize ealign rv (wsub c a b)) f = f (a - b).
  Proof. intros H. unfold guarded, wsub. by rewrite (proj2 (Nat.leb_le _ _)). Qed.

  (** The stack as MAlloc and PAlloc see it, with room for few runs. *)
  Lemma rv_index_w_ok rv i : roomy rv → rv_index_w (T:=T) c esize ealign rv i = rv_index rv i.
  Proof. intros H. unfold rv_index_w, rv_index. by rewrite rv_drop_ok. Qed.
  Lemma rv_assign_w_ok rv i v : roomy rv → rv_assign_w (T:=T) c esize ealign rv i v = rv_assign rv i v.
  Proof. intros H. unfold rv_assign_w, rv_assign. by rewrite rv_drop_ok. Qed.
  Lemma rv_remove_w_ok rv runs i : roomy rv → rvok rv runs →
    rv_remove_w (T:=T) c esize ealign rv i = rv_remove rv i.
  Proof.
    intros H (H1 & H2 & H3 & H4 & H5). unfold rv_remove_w, rv_remove. rewrite rv_drop_ok by done.
    destruct (Nat.leb_spec (rv_len rv) i); [done|]. rewrite !guarded_wsub by lia.
    destruct (_ <=? _); [|done].
    by replace (i + (rv_len rv - i - 1)) with (rv_len rv - 1) by lia.
  Qed.
  Lemma tracks_push rv runs v : roomy rv → rvok rv runs → length runs ≤ 127 →
    tracks (λ rv', roomy rv' ∧ rvok rv' (runs ++ [v]))
      (rv_push_w (T:=T) c esize ealign rv v) (rv_push rv v).
  Proof.
    intros H (H1 & H2 & H3 & H4 & H5) Hl. unfold rv_push_w, rv_push. unfold roomy in *.
    pose proof (words_ge c) as Hw. change (2 ^ 32)%N with 4294967296%N in Hw.
    destruct (Nat.eqb_spec (rv_len rv) (rv_cap rv)) as [E|E].
    - rewrite guarded_umul by lia.
      rewrite rv_drop_ok by (unfold roomy; simpl; lia).
      unfold alloc_w, dealloc_w. rewrite !layout_run by lia. rewrite !bind_of_ret.
      rewrite (proj2 (Nat.leb_le (rv_cap rv) (length _))) by lia.
      rewrite (proj2 (Nat.leb_le (rv_cap rv) (rv_cap rv * 2))) by lia. cbn [andb].
      unfold alloc, rv_drop, dealloc. cbn [on_unwind bind].
      constructor. intros [?|[p|]|]; cbn [on_unwind bind];
        [constructor; intros _; constructor| |constructor; intros _; constructor..].
      constructor. intros _. cbn [bind rv_len rv_cap rv_slots rv_ptr].
      rewrite app_length, take_length, replicate_length.
      rewrite (proj2 (Nat.ltb_lt _ _)) by lia. rewrite guarded_uadd by (simpl; lia).
      constructor. split; [simpl; lia|].
      unfold rvok. cbn [rv_slots rv_cap rv_len].
      rewrite insert_length, !app_length, take_length, replicate_length. cbn [length].
      split_and!; [lia..|].
      rewrite H2, Nat.add_1_r, (take_S_r _ _ (Some v)).
      + rewrite take_insert by lia. rewrite take_app_alt.
        * rewrite <-H2, E in H5. by rewrite H5, fmap_app.
        * rewrite take_length. lia.
      + apply list_lookup_insert. rewrite app_length, take_length, replicate_length. lia.
    - rewrite !bind_of_ret. rewrite (proj2 (Nat.ltb_lt _ _)) by lia. rewrite guarded_uadd by lia.
      constructor. split; [simpl; lia|].
      unfold rvok. cbn [rv_slots rv_cap rv_len]. rewrite insert_length, app_length. cbn [length].
      split_and!; [lia..|].
      rewrite H2, Nat.add_1_r, (take_S_r _ _ (Some v)).
      + rewrite take_insert by lia. by rewrite H5, fmap_app.
      + apply list_lookup_insert. lia.
  Qed.

  Lemma runs_at_bounded off ls n : off + sum_list ls ≤ n → bounded n (runs_at off ls).
  Proof.
    revert off. induction ls as [|z ls IH]; intros off H k r Hk; [done|].
    simpl in H, Hk. destruct k as [|k]; simpl in Hk; [injection Hk as <-; simpl; lia|].
    by apply (IH (off + z) ltac:(lia) k r).
  Qed.

  (** One step of the loop that merges runs. *)
  Lemma tracks_collapse_step (φ : run_vec → Prop) f cap n l1 a b l2 rv :
    allowed c n → roomy rv → rvok rv (runs_at 0 (l1 ++ a :: b :: l2)) →
    sum_list (l1 ++ a :: b :: l2) ≤ n → length (l1 ++ a :: b :: l2) ≤ 256 →
    (∀ rv', roomy rv' → rvok rv' (runs_at 0 (l1 ++ (a + b) :: l2)) →
       tracks φ (collapse_loop_mem_w (T:=T) c esize ealign f cap n rv') (collapse_loop_mem f cap n rv')) →
    collapse (runs_at 0 (l1 ++ a :: b :: l2)) n = Some (length l1) →
    tracks φ (collapse_loop_mem_w (T:=T) c esize ealign (S f) cap n rv) (collapse_loop_mem (S f) cap n rv).
  Proof.
    intros Hn Hr Hok Hsum Hlen IH Hc. pose proof (words_ge c) as Hw.
    change (2 ^ 32)%N with 4294967296%N in Hw. pose proof Hn as Hn'. unfold allowed in Hn'.
    cbn [collapse_loop_mem_w collapse_loop_mem]. rewrite !(rv_slice_ok _ _ Hok), !bind_of_ret.
    rewrite Hc. eapply (tracks_bind_ret (λ o, o = Some (length l1)) _ _ (Some (length l1))).
    { change (@Ret T (mem_question T) mem_answer _ (Some (length l1))) with
        (on_unwind (@rv_drop T rv) (lift (@Ret T (T * T) (option bool) _ (Some (length l1))))).
      apply tracks_guarded; [done|]. rewrite <-Hc. apply tracks_collapse; [done|].
      by apply runs_at_bounded. }
    intros _.
    assert (Hga : runs_at 0 (l1 ++ a :: b :: l2) !! length l1 = Some (Run (sum_list l1) a)).
    { rewrite runs_at_app. simpl. rewrite <-(runs_at_length 0 l1). apply lookup_middle. }
    assert (Hgb : runs_at 0 (l1 ++ a :: b :: l2) !! (length l1 + 1)
                  = Some (Run (sum_list l1 + a) b)).
    { rewrite runs_at_app. simpl. rewrite lookup_app_r; rewrite runs_at_length; [|lia].
      by replace (length l1 + 1 - length l1) with 1 by lia. }
    rewrite sum_list_with_app in Hsum. simpl in Hsum. rewrite app_length in Hlen. simpl in Hlen.
    rewrite rv_index_w_ok by done. rewrite !(rv_index_ok rv _ _ _ Hok Hga), !bind_of_ret.
    rewrite guarded_uadd by lia. rewrite rv_index_w_ok by done.
    rewrite !(rv_index_ok rv _ _ _ Hok Hgb), !bind_of_ret. cbn [r_start r_len].
    rewrite guarded_uadd by (unfold id in *; lia).
    eapply (tracks_bind (λ _, True)).
    { apply tracks_guarded; [done|]. apply tracks_slice. intros. apply tracks_merge.
      eapply allowed_le; [exact Hn|lia]. }
    intros _ _. rewrite !guarded_uadd by (unfold id in *; lia). rewrite rv_assign_w_ok by done.
    destruct (rv_assign_ok (T:=T) rv _ (length l1 + 1) (Run (sum_list l1) (a + b)) Hok) as (rv1 & -> & Hok1 & Hl1).
    { rewrite runs_at_length, app_length. simpl. lia. }
    rewrite !bind_of_ret. assert (Hr1 : roomy rv1) by (unfold roomy; injection Hl1 as _ ->; done).
    rewrite (rv_remove_w_ok _ _ _ Hr1 Hok1).
    destruct (rv_remove_ok (T:=T) rv1 _ (length l1) Hok1) as (rv2 & -> & Hok2 & Hl2).
    { rewrite insert_length, runs_at_length, app_length. simpl. lia. }
    rewrite !bind_of_ret. rewrite runs_at_merge in Hok2. apply IH; [|done].
    unfold roomy. by injection Hl2 as _ ->.
  Qed.
  Lemma tracks_collapse_end (φ : run_vec → Prop) f cap n ls rv :
    allowed c n → roomy rv → rvok rv (runs_at 0 ls) → sum_list ls ≤ n →
    collapse (runs_at 0 ls) n = None → φ rv →
    tracks φ (collapse_loop_mem_w (T:=T) c esize ealign (S f) cap n rv) (collapse_loop_mem (S f) cap n rv).
  Proof.
    intros Hn Hr Hok Hsum Hc Hφ.
    cbn [collapse_loop_mem_w collapse_loop_mem]. rewrite !(rv_slice_ok _ _ Hok), !bind_of_ret.
    rewrite Hc. eapply (tracks_bind_ret (λ o, o = None) _ _ None).
    { change (@Ret T (mem_question T) mem_answer (option nat) None) with
        (on_unwind (@rv_drop T rv) (lift (@Ret T (T * T) (option bool) (option nat) None))).
      apply tracks_guarded; [done|]. rewrite <-Hc. apply tracks_collapse; [done|].
      by apply runs_at_bounded. }
    intros _. by constructor.
  Qed.

  (** What is known of the stack between two runs. *)
  Definition stacked n rv ls : Prop :=
    roomy rv ∧ rvok rv (runs_at 0 (rev ls)) ∧
    (sum_list ls < n → Forall (λ z, 0 < z) ls ∧ fib ls).

  Lemma tracks_collapse_mem f cap n ls rv : allowed c n →
    roomy rv → rvok rv (runs_at 0 (rev ls)) → sum_list ls ≤ n → length ls ≤ 256 →
    (sum_list ls < n → Forall (λ z, 0 < z) ls ∧ fib (drop 2 ls)) →
    tracks (λ rv', ∃ ls', stacked n rv' ls' ∧ sum_list ls' = sum_list ls)
      (collapse_loop_mem_w (T:=T) c esize ealign f cap n rv) (collapse_loop_mem f cap n rv).
  Proof.
    intros Hn. revert ls rv. induction f as [|f IH]; intros ls rv Hr Hok Hsum Hlen Hinv;
      [apply tracks_doomed; constructor|].
    pose proof (collapse_view ls n) as Hv.
    destruct (collapse (runs_at 0 (rev ls)) n) as [r|] eqn:Hc.
    - destruct Hv as [(z & y & x & rest & -> & Hxz & ->)|(z & y & rest & -> & -> & Hx & Hs)].
      + assert (Hrev : rev (z :: y :: x :: rest) = rev rest ++ x :: y :: [z])
          by (simpl; by rewrite <-!app_assoc).
        assert (Hs : sum_list (rev rest ++ x :: y :: [z]) = sum_list (z :: y :: x :: rest))
          by (by rewrite <-Hrev, sum_list_rev).
        assert (Hl : length (rev rest ++ x :: y :: [z]) = length (z :: y :: x :: rest))
          by (by rewrite <-Hrev, rev_length).
        rewrite Hrev in Hok, Hc.
        apply (tracks_collapse_step _ f cap n (rev rest) x y [z]);
          [done|done|done|lia|lia| |by rewrite rev_length].
        intros rv' Hr' Hok'.
        replace (rev rest ++ x + y :: [z]) with (rev (z :: (x + y) :: rest)) in Hok'
          by (simpl; by rewrite <-!app_assoc).
        eapply tracks_mono; [apply (IH (z :: (x + y) :: rest)); [done|done| | |]|].
        * simpl in *. lia.
        * simpl in *. lia.
        * intros Hlt. destruct Hinv as [Hpos Hfib]; [simpl in *; lia|].
          apply Forall_cons_1 in Hpos as [? Hpos]. apply Forall_cons_1 in Hpos as [? Hpos].
          apply Forall_cons_1 in Hpos as [? Hpos]. split; [repeat constructor; [done|lia|done]|].
          simpl in *. apply Hfib.
        * intros rv'' (ls' & ? & H2). exists ls'. split; [done|]. rewrite H2. simpl. lia.
      + assert (Hrev : rev (z :: y :: rest) = rev rest ++ y :: z :: [])
          by (simpl; by rewrite <-!app_assoc).
        assert (Hs' : sum_list (rev rest ++ y :: z :: []) = sum_list (z :: y :: rest))
          by (by rewrite <-Hrev, sum_list_rev).
        assert (Hl : length (rev rest ++ y :: z :: []) = length (z :: y :: rest))
          by (by rewrite <-Hrev, rev_length).
        rewrite Hrev in Hok, Hc.
        apply (tracks_collapse_step _ f cap n (rev rest) y z []);
          [done|done|done|lia|lia| |by rewrite rev_length].
        intros rv' Hr' Hok'.
        replace (rev rest ++ [y + z]) with (rev ((y + z) :: rest)) in Hok' by done.
        eapply tracks_mono; [apply (IH ((y + z) :: rest)); [done|done| | |]|].
        * simpl in *. lia.
        * simpl in *. lia.
        * intros Hlt. destruct Hinv as [Hpos Hfib]; [simpl in *; lia|].
          apply Forall_cons_1 in Hpos as [? Hpos]. apply Forall_cons_1 in Hpos as [? Hpos].
          split; [constructor; [lia|done]|]. exact (fib_drop 1 rest Hfib).
        * intros rv'' (ls' & ? & H2). exists ls'. split; [done|]. rewrite H2. simpl. lia.
    - eapply tracks_collapse_end; [done|done|exact Hok|by rewrite sum_list_rev|done|].
      exists ls. split; [|done]. split_and!; [done|done|]. intros Hlt.
      destruct (Hinv Hlt) as [Hpos Hfib]. split; [done|].
      assert (Hset : settled ls).
      { destruct Hv as [Hv|[_ Hv]]; [|done].
        destruct ls as [|? [|]]; simpl in *; [done|done|lia]. }
      by apply fib_settled.
  Qed.

  Lemma fib_few n ls : allowed c n → fib ls → Forall (λ z, 0 < z) ls → sum_list ls ≤ n → length ls ≤ 127.
  Proof.
    intros Hn Hf Hp Hs. destruct (decide (n = 0)) as [->|Hn0].
    { destruct ls as [|z ls]; [simpl; lia|]. apply Forall_cons_1 in Hp as [? _]. simpl in Hs. lia. }
    pose proof (fib_length ls n Hf Hp Hs ltac:(lia)) as H.
    assert (Nat.log2 n < 63); [|lia].
    destruct (decide (Nat.log2 n < 63)) as [|Hge]; [done|exfalso].
    pose proof (Nat.log2_spec n ltac:(lia)) as [Hlo _].
    assert (2 ^ 63 ≤ 2 ^ Nat.log2 n) as Hp2 by (apply Nat.pow_le_mono_r; lia).
    unfold allowed, words in Hn.
    assert (N.of_nat (2 ^ 63) ≤ N.of_nat n)%N as Hbig by lia.
    rewrite Nat2N.inj_pow in Hbig.
    change (N.of_nat 2 ^ N.of_nat 63)%N with 9223372036854775808%N in Hbig.
    change (2 ^ 64)%N with 18446744073709551616%N in Hn. change (2 ^ 32)%N with 4294967296%N in Hn.
    destruct (wide c); lia.
  Qed.

  Lemma tracks_streak_pos want f n e : allowed c n → 1 ≤ e → e ≤ n →
    tracks (λ j, 1 ≤ j ≤ n) (streak_loop_w (T:=T) c want f n e) (streak_loop want f n e).
  Proof.
    intros Hn. revert e. induction f as [|f IH]; intros e H1 He; [apply tracks_doomed; constructor|].
    cbn [streak_loop_w streak_loop]. destruct (Nat.ltb_spec e n); [|by constructor].
    eapply tracks_bind; [apply tracks_uget|]. intros a _. rewrite wsub_ok by done.
    eapply tracks_bind; [apply tracks_uget|]. intros b _.
    eapply (tracks_bind (λ _, True)); [by apply tracks_refl|]. intros r _.
    destruct (Bool.eqb r want); [|by constructor]. unfold allowed in Hn. rewrite uadd_ok by lia.
    rewrite Nat.add_1_r. apply IH; lia.
  Qed.
  Lemma tracks_find_streak_pos n : allowed c n → 1 ≤ n →
    tracks (λ '(e, _), 1 ≤ e ≤ n) (find_streak_w (T:=T) c n) (find_streak n).
  Proof.
    intros Hn H1. unfold find_streak_w, find_streak. destruct (Nat.ltb_spec n 2); [constructor; lia|].
    eapply tracks_bind; [apply tracks_uget|]. intros a _.
    eapply tracks_bind; [apply tracks_uget|]. intros b _.
    eapply (tracks_bind (λ _, True)); [by apply tracks_refl|]. intros r _.
    eapply tracks_bind; [apply tracks_streak_pos; lia || done|]. intros e ?. by constructor.
  Qed.
  Lemma tracks_sorted_batch_pos n start end_ : allowed c n → start < end_ →
    tracks (λ e, start < e ≤ n) (provide_sorted_batch_w (T:=T) c n start end_) (provide_sorted_batch c n start end_).
  Proof.
    intros Hn Hse. unfold provide_sorted_batch_w, provide_sorted_batch.
    eapply tracks_bind; [apply tracks_assert|].
    intros _ [?%Nat.leb_le ?%Nat.leb_le]%andb_prop. rewrite wsub_ok by done. cbv zeta.
    destruct (_ && _); [|by constructor]. pose proof (words_ge c). unfold allowed in Hn.
    change (2 ^ 32)%N with 4294967296%N in *.
    rewrite uadd_ok by (unfold MIN_INSERTION_RUN; lia).
    eapply (tracks_bind (λ _, True)).
    - apply tracks_slice. intros. apply tracks_shift_left. unfold allowed. lia.
    - intros _ _. constructor. unfold MIN_INSERTION_RUN. lia.
  Qed.

  Lemma tracks_loop_mem f cap n ls rv : allowed c n → stacked n rv ls → sum_list ls ≤ n →
    tracks roomy (merge_sort_loop_mem_w (T:=T) c esize ealign f cap n (sum_list ls) (sum_list ls) rv)
      (merge_sort_loop_mem c f cap n (sum_list ls) (sum_list ls) rv).
  Proof.
    intros Hn. revert ls rv. induction f as [|f IH]; intros ls rv (Hr & Hok & Hinv) Hsum;
      [apply tracks_doomed; constructor|].
    cbn [merge_sort_loop_mem_w merge_sort_loop_mem].
    destruct (Nat.ltb_spec (sum_list ls) n) as [Hlt|]; [|by constructor].
    destruct (Hinv Hlt) as [Hpos Hfib]. pose proof (fib_few n ls Hn Hfib Hpos Hsum) as Hfew.
    pose proof Hn as Hn'. unfold allowed in Hn'. set (start := sum_list ls) in *.
    eapply tracks_bind.
    { apply tracks_guarded; [done|]. apply (tracks_slice (λ '(e, _), 1 ≤ e ≤ n - start)). intros.
      apply tracks_find_streak_pos; [|lia]. eapply allowed_le; [exact Hn|lia]. }
    intros [e was] [He1 He2]. rewrite guarded_uadd by lia. cbv zeta.
    eapply (tracks_bind (λ _, True)).
    { apply tracks_guarded; [done|]. destruct was; [|by constructor]. apply tracks_slice. intros.
      apply tracks_reverse. eapply allowed_le; [exact Hn|lia]. }
    intros _ _. eapply tracks_bind.
    { apply tracks_guarded; [done|]. apply tracks_sorted_batch_pos; [done|lia]. }
    intros end_ [Hs He]. eapply tracks_bind; [apply tracks_guarded; [done|apply tracks_wsub]|].
    intros ? [-> _].
    eapply tracks_bind; [apply (tracks_push _ _ _ Hr Hok); by rewrite runs_at_length, rev_length|].
    cbv beta. intros rv1 [Hr1 Hok1].
    assert (Hruns : runs_at 0 (rev ls) ++ [Run start (end_ - start)] = runs_at 0 (rev (end_ - start :: ls))).
    { simpl. rewrite runs_at_app, sum_list_rev. simpl. done. }
    rewrite Hruns in Hok1.
    assert (Hs' : sum_list (end_ - start :: ls) = end_) by (simpl; unfold start, id in *; lia).
    eapply tracks_bind.
    { apply (tracks_collapse_mem _ _ _ (end_ - start :: ls)); [done|done|done|lia|simpl; lia|].
      intros _. split; [constructor; [lia|done]|]. apply (fib_drop 1 ls Hfib). }
    cbv beta. intros rv2 (ls' & Hst & Hsl). rewrite Hs' in Hsl. rewrite <-Hsl. apply IH; [done|lia].
  Qed.

  Definition array_fits n : Prop := (0 < ealign)%N ∧ (ealign ≤ esize)%N ∧ (2 * (N.of_nat n * esize) < words c)%N.
  Lemma array_fits_allowed n : array_fits n → allowed c n.
  Proof.
    intros (H1 & H2 & H3). unfold allowed. assert (N.of_nat n * 1 ≤ N.of_nat n * esize)%N; [|lia].
    apply N.mul_le_mono_l. lia.
  Qed.
  Lemma layout_elem n : array_fits n → 2 ≤ n → layout (T:=T) c esize ealign ElemBlock (n / 2) = Ret tt.
  Proof.
    intros (H1 & H2 & H3) Hn. unfold layout, block_bytes, block_align.
    assert (Hh : 1 ≤ n / 2 ∧ n / 2 + 1 ≤ n).
    { pose proof (Nat.div_mod n 2 ltac:(lia)). pose proof (Nat.mod_upper_bound n 2 ltac:(lia)). lia. }
    set (h := n / 2) in *. clearbody h.
    assert (Ha : (1 * esize ≤ N.of_nat h * esize)%N) by (apply N.mul_le_mono_r; lia).
    assert (Hb : ((N.of_nat h + 1) * esize ≤ N.of_nat n * esize)%N) by (apply N.mul_le_mono_r; lia).
    rewrite N.mul_add_distr_r in Hb.
    rewrite (proj2 (N.ltb_lt _ _)), (proj2 (N.ltb_lt _ _)) by lia. done.
  Qed.

  Lemma tracks_stable_sort_mem n : array_fits n →
    tracks (λ _, True) (stable_sort_mem_w (T:=T) c esize ealign n) (stable_sort_mem c n).
  Proof.
    intros Hf. pose proof (array_fits_allowed n Hf) as Hn.
    unfold stable_sort_mem_w, stable_sort_mem, merge_sort_mem_w, merge_sort_mem.
    destruct (zst c); [by constructor|].
    eapply (tracks_bind (λ _, True)); [by apply tracks_lift, tracks_refl|]. intros _ _.
    destruct (Nat.leb_spec n MS_MAX_INSERTION) as [|Hl].
    { apply tracks_lift. destruct (2 <=? n); [by apply tracks_shift_left|by constructor]. }
    unfold MS_MAX_INSERTION in Hl. unfold alloc_w, dealloc_w.
    rewrite layout_elem by (done || lia). rewrite !bind_of_ret.
    eapply (tracks_bind (λ _, True)); [by apply tracks_refl|]. intros buf _. rewrite !bind_of_ret.
    eapply (tracks_bind (λ _, True)); [|intros _ _; by apply tracks_refl].
    apply tracks_unwind_free.
    unfold rv_new_w, rv_new, alloc_w. rewrite layout_run by (unfold START_RUN_CAPACITY; lia).
    rewrite bind_of_ret. eapply (tracks_bind (λ rv, stacked n rv [])).
    { eapply (tracks_bind (λ _, True)); [by apply tracks_refl|]. intros p _. constructor.
      split_and!; [unfold roomy; simpl; unfold START_RUN_CAPACITY; lia|apply rvok_new|].
      intros _. split; constructor. }
    intros rv Hrv. eapply tracks_bind.
    { apply (tracks_loop_mem _ _ n []); [done|done|simpl; lia]. }
    intros rv' Hr. eapply (tracks_bind (λ _, True)); [by apply tracks_refl|]. intros runs _.
    eapply (tracks_bind (λ _, True)); [apply tracks_guarded; [done|by apply tracks_refl]|].
    intros _ _. rewrite rv_drop_ok by done. by apply tracks_refl.
  Qed.
End words.
