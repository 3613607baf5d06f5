(** * Proofs about MDedup.v. *)
From Verif Require Export Ghost MDedup.
From stdpp Require Import list.

Section dedup.
  Context {T : Type}.
  Implicit Types (l m : list T).

  (** The effect of the logged calls on the multiset of elements: each call
      replaces its two arguments by their new values and touches nothing else. *)
  Definition new_values (r : dedup_answer T) : T * T :=
    match r with Bucket _ a b => (a, b) | BucketPanic a b => (a, b) end.
  Inductive rewrites : list T → list ((T * T) * dedup_answer T) → list T → Prop :=
  | rewrites_nil l m : Permutation l m → rewrites l [] m
  | rewrites_cons l x y rest r tr m :
      Permutation l (x :: y :: rest) →
      rewrites ((new_values r).1 :: (new_values r).2 :: rest) tr m →
      rewrites l (((x, y), r) :: tr) m.

  Lemma rewrites_perm l tr m m' : rewrites l tr m → Permutation m m' → rewrites l tr m'.
  Proof.
    induction 1 as [l m H|l x y rest r tr m H Hr IH]; intros Hm.
    - constructor. by etrans.
    - econstructor; [done|auto].
  Qed.
  Lemma rewrites_snoc l tr m x y r rest m' :
    rewrites l tr m → Permutation m (x :: y :: rest) →
    Permutation ((new_values r).1 :: (new_values r).2 :: rest) m' →
    rewrites l (tr ++ [((x, y), r)]) m'.
  Proof.
    induction 1 as [l m H|l x' y' rest' r' tr m H Hr IH]; intros Hm Hm'; simpl.
    - eapply rewrites_cons; [by etrans|]. by constructor.
    - eapply rewrites_cons; [done|auto].
  Qed.
  Lemma rewrites_length l tr m : rewrites l tr m → length m = length l.
  Proof.
    induction 1 as [l m H|l x y rest r tr m H Hr IH].
    - by rewrite H.
    - rewrite IH, H. done.
  Qed.

  Lemma split_two l j i x y :
    j < i → l !! i = Some x → l !! j = Some y →
    ∃ l1 l2 l3, l = l1 ++ y :: l2 ++ x :: l3 ∧ length l1 = j ∧ length l1 + S (length l2) = i.
  Proof.
    intros Hji Hi Hj.
    apply elem_of_list_split_length in Hj as (l1 & m & -> & ->).
    rewrite lookup_app_r in Hi by lia.
    destruct (i - length l1) as [|k] eqn:Hk; [lia|]. simpl in Hi.
    apply elem_of_list_split_length in Hi as (l2 & l3 & -> & ->).
    exists l1, l2, l3. split; [done|]. split; [done|lia].
  Qed.

  Lemma perm_two_updates l j i x y x' y' :
    j < i → l !! i = Some x → l !! j = Some y →
    ∃ rest, Permutation l (x :: y :: rest) ∧
            Permutation (x' :: y' :: rest) (<[j:=y']> (<[i:=x']> l)).
  Proof.
    intros Hji Hi Hj. destruct (split_two _ _ _ _ _ Hji Hi Hj) as (l1 & l2 & l3 & -> & <- & <-).
    exists (l1 ++ l2 ++ l3).
    assert (Hp : ∀ u v, Permutation (l1 ++ v :: l2 ++ u :: l3) (u :: v :: l1 ++ l2 ++ l3)).
    { intros u v. rewrite <-Permutation_middle, app_assoc, <-Permutation_middle, <-app_assoc.
      apply Permutation_swap. }
    split; [apply Hp|].
    rewrite insert_app_r. simpl. rewrite insert_app_r_alt by lia. rewrite Nat.sub_diag. simpl.
    rewrite insert_app_r_alt by lia. rewrite Nat.sub_diag. simpl. symmetry. apply Hp.
  Qed.

  Definition answered (r : dedup_answer T) : Prop :=
    match r with Bucket _ _ _ => True | BucketPanic _ _ => False end.

  Lemma dedup_loop_spec ok l0 cnt r w tr m :
    1 ≤ w → w ≤ r → r + cnt = length m → rewrites l0 tr m → Forall (λ e, answered e.2) tr →
    wpg (log_ans ok) (dedup_loop (length m) cnt r w)
      (λ w' tr' m', 1 ≤ w' ≤ length m ∧ rewrites l0 tr' m' ∧
                    Forall (λ e, answered e.2) tr' ∧ length tr' = length tr + cnt)
      (λ e tr' m', e = UserPanic ∧ rewrites l0 tr' m' ∧
                   ∃ tr0 q x y, tr' = tr0 ++ [(q, BucketPanic x y)] ∧
                     Forall (λ e, answered e.2) tr0 ∧ length tr' ≤ length tr + cnt)
      tr m.
  Proof.
    revert r w tr m. induction cnt as [|cnt IH]; intros r w tr m Hw Hwr Hlen Hrw Hans; simpl.
    { apply wpg_ret. split; [lia|]. split; [done|]. split; [done|]. lia. }
    apply wpg_bind, wpg_usub; [lia|]. apply wpg_bind. unfold same_bucket.
    destruct (Nat.eqb_spec r (w - 1)) as [He|Hne]; [lia|].
    apply wpg_bind, wpg_uget; [lia|lia|]. intros x Hx.
    apply wpg_bind, wpg_uget; [lia|lia|]. intros y Hy.
    apply wpg_ask. intros a tr' [_ ->].
    assert (Hrw' : rewrites l0 (tr ++ [((x, y), a)])
      (<[w - 1:=(new_values a).2]> (<[r:=(new_values a).1]> m))).
    { destruct (perm_two_updates m (w - 1) r x y (new_values a).1 (new_values a).2)
        as (rest & H1 & H2); [lia|done|done|].
      eapply rewrites_snoc; [exact Hrw|exact H1|exact H2]. }
    destruct a as [same x' y'|x' y']; simpl in Hrw'.
    2: { apply wpg_bind, wpg_uput; [lia|lia|].
         apply wpg_bind, wpg_uput; [lia|rewrite insert_length; lia|].
         apply wpg_throw. split; [done|]. split; [done|].
         eexists tr, _, _, _. split; [done|]. split; [done|]. rewrite app_length. simpl. lia. }
    assert (Hans' : Forall (λ e, answered e.2) (tr ++ [(x, y, Bucket same x' y')])).
    { apply Forall_app. split; [done|]. by repeat constructor. }
    apply wpg_bind, wpg_uput; [lia|lia|].
    apply wpg_bind, wpg_uput; [lia|rewrite insert_length; lia|]. apply wpg_ret.
    set (m1 := <[w - 1:=y']> (<[r:=x']> m)) in *.
    assert (Hm1 : length m1 = length m) by (unfold m1; by rewrite !insert_length).
    assert (Hcont : ∀ m2 w2, 1 ≤ w2 → w2 ≤ S r → Permutation m1 m2 →
      wpg (log_ans ok) (dedup_loop (length m) cnt (S r) w2)
        (λ w' tr' m', 1 ≤ w' ≤ length m ∧ rewrites l0 tr' m' ∧
                      Forall (λ e, answered e.2) tr' ∧ length tr' = length tr + S cnt)
        (λ e tr' m', e = UserPanic ∧ rewrites l0 tr' m' ∧
                   ∃ tr0 q x y, tr' = tr0 ++ [(q, BucketPanic x y)] ∧
                     Forall (λ e, answered e.2) tr0 ∧ length tr' ≤ length tr + S cnt)
        (tr ++ [(x, y, Bucket same x' y')]) m2).
    { intros m2 w2 Hw2 Hw2r Hm2.
      assert (Hl2 : length m2 = length m) by (rewrite <-Hm2; done).
      rewrite <-Hl2. eapply wpg_mono; [apply (IH (S r) w2)| |].
      - done.
      - done.
      - lia.
      - by eapply rewrites_perm.
      - done.
      - intros w' tr' m' _ (? & ? & ? & Ht). rewrite app_length in Ht. simpl in Ht.
        split; [done|]. split; [done|]. split; [done|]. lia.
      - intros e tr' m' _ (? & ? & tr0 & q & x2 & y2 & ? & ? & Ht).
        rewrite app_length in Ht. simpl in Ht. split; [done|]. split; [done|].
        exists tr0, q, x2, y2. split; [done|]. split; [done|]. lia. }
    destruct same.
    - apply Hcont; [lia|lia|done].
    - apply wpg_bind. destruct (Nat.eqb_spec r w) as [->|Hrw2].
      + apply wpg_ret. apply Hcont; [lia|lia|done].
      + apply wpg_uswap; [lia|lia|lia|]. apply Hcont; [lia|lia|].
        symmetry. apply swapl_perm; lia.
  Qed.

  (** ** Any closure. *)
  Lemma partition_dedup_by_any {S} (o : S → T * T → dedup_answer T * S) s l :
    ∃ r s' tr l', run (logged o) (partition_dedup_by (length l)) (s, []) l = (r, (s', tr), l') ∧
      rewrites l tr l' ∧
      match r with
      | Done (v1, v2) =>
          Forall (λ e, answered e.2) tr ∧ length tr = length l - 1 ∧
          v1.1 = 0 ∧ v1.2 ≤ length l ∧ v2.2 = length l - v1.2 ∧ (v2.1 = v1.2 ∨ v2.2 = 0)
      | Panicked e =>
          e = UserPanic ∧ ∃ tr0 q x y, tr = tr0 ++ [(q, BucketPanic x y)] ∧
            Forall (λ e, answered e.2) tr0
      | _ => False
      end.
  Proof.
    assert (Hw : wpg (log_ans (λ _ _, True)) (partition_dedup_by (length l))
      (λ v tr' m', rewrites l tr' m' ∧ Forall (λ e, answered e.2) tr' ∧
         length tr' = length l - 1 ∧ v.1.1 = 0 ∧ v.1.2 ≤ length l ∧ v.2.2 = length l - v.1.2 ∧
         (v.2.1 = v.1.2 ∨ v.2.2 = 0))
      (λ e tr' m', e = UserPanic ∧ rewrites l tr' m' ∧
         ∃ tr0 q x y, tr' = tr0 ++ [(q, BucketPanic x y)] ∧ Forall (λ e, answered e.2) tr0) [] l).
    { unfold partition_dedup_by. destruct (Nat.leb_spec (length l) 1) as [H1|H1].
      - apply wpg_bind. unfold split_views. apply wpg_bind, wpg_assert; [by apply Nat.leb_le; lia|].
        apply wpg_ret, wpg_ret. split; [by constructor|]. split; [constructor|].
        simpl. repeat split; lia.
      - apply wpg_bind. eapply wpg_mono; [apply (dedup_loop_spec _ l)| |].
        + lia.
        + lia.
        + lia.
        + by constructor.
        + constructor.
        + intros w tr' m' Hm' (Hw & Hr & Ha & Ht). unfold split_views.
          apply wpg_bind, wpg_assert; [by apply Nat.leb_le; lia|]. apply wpg_ret.
          split; [done|]. split; [done|]. simpl in *. repeat split; lia.
        + intros e tr' m' _ (-> & Hr & tr0 & q & x & y & -> & Ha & _). eauto 10. }
    eapply (wpg_run_logged _ o _ _ _ s l) in Hw; [|done].
    destruct (run (logged o) _ _ _) as [[[[v1 v2]|e| |] [s' tr]] l']; try done.
    - destruct Hw as (? & ?). simpl in *. eexists _, s', tr, l'. done.
    - destruct Hw as (? & ? & ?). eexists _, s', tr, l'. split; [done|]. split; [done|]. done.
  Qed.

  (** ** Pure closures. *)
  (** [same] as a closure that leaves its arguments alone. *)
  Definition pure_bucket (same : T → T → bool) : unit → T * T → dedup_answer T * unit :=
    λ s '(a, b), (Bucket (same a b) a b, s).
  Definition ans_bucket (same : T → T → bool) : T * T → dedup_answer T → Prop :=
    λ '(a, b) r, r = Bucket (same a b) a b.

  Lemma keep_firsts_snoc same k l x :
    keep_firsts same k (l ++ [x]) =
      keep_firsts same k l ++
      (if same x (default k (last (keep_firsts same k l))) then [] else [x]).
  Proof.
    revert k. induction l as [|y l IH]; intros k; simpl.
    - by destruct (same x k).
    - destruct (same y k); [apply IH|]. rewrite IH. simpl. rewrite last_cons.
      by destruct (last (keep_firsts same y l)).
  Qed.
  Lemma firsts_snoc same l x K k :
    firsts same l = K ++ [k] →
    firsts same (l ++ [x]) = firsts same l ++ (if same x k then [] else [x]).
  Proof.
    destruct l as [|k0 l]; simpl.
    { by destruct K. }
    intros H. rewrite keep_firsts_snoc. simpl.
    assert (last (k0 :: keep_firsts same k0 l) = Some k) as Hl by (by rewrite H, last_snoc).
    rewrite last_cons in Hl. by destruct (last (keep_firsts same k0 l)); simplify_eq/=.
  Qed.

  Lemma swapl_app_mid (K D R : list T) d x :
    swapl (length K + S (length D)) (length K) (K ++ (d :: D) ++ x :: R) =
      K ++ x :: (D ++ [d]) ++ R.
  Proof.
    unfold swapl.
    rewrite (lookup_app_r K), Nat.add_comm, Nat.add_sub by lia.
    rewrite lookup_app_r, Nat.sub_diag by (simpl; lia). simpl.
    rewrite (lookup_app_r K), Nat.sub_diag by lia. simpl.
    rewrite (insert_app_r_alt K) by lia.
    replace (S (length D + length K) - length K) with (S (length D)) by lia. simpl.
    rewrite insert_app_r_alt, Nat.sub_diag by lia. simpl.
    rewrite insert_app_r_alt, Nat.sub_diag by lia. simpl. by rewrite <-app_assoc.
  Qed.

  Lemma dedup_loop_pure same K D P R :
    P ≠ [] → K = firsts same P → Permutation (K ++ D) P →
    wp (ans_bucket same) (dedup_loop (length (P ++ R)) (length R) (length P) (length K))
      (λ w m, w = length (firsts same (P ++ R)) ∧ take w m = firsts same (P ++ R) ∧
              Permutation m (P ++ R))
      (λ _ _, False) (K ++ D ++ R).
  Proof.
    revert K D P. induction R as [|x R IH]; intros K D P HP HK HKD; simpl.
    { rewrite !app_nil_r. apply wp_ret. subst K. split; [done|]. rewrite take_app. done. }
    assert (HlP : length P = length K + length D) by (rewrite <-HKD, app_length; done).
    assert (HKs : ∃ K0 k, K = K0 ++ [k]).
    { destruct K as [|k K _] using rev_ind; [|by eauto]. by destruct P. }
    destruct HKs as (K0 & k & HK0).
    assert (HlK : length K = S (length K0)) by (rewrite HK0, app_length; simpl; lia).
    pose proof (firsts_snoc same P x K0 k ltac:(congruence)) as Hsn.
    assert (HPx : P ++ x :: R = (P ++ [x]) ++ R) by (by rewrite <-app_assoc).
    apply wp_bind, wp_usub; [lia|]. apply wp_bind. unfold same_bucket.
    destruct (Nat.eqb_spec (length P) (length K - 1)) as [He|Hne]; [lia|].
    apply wp_bind, wp_uget; [rewrite app_length; simpl; lia|rewrite !app_length; simpl; lia|].
    intros x' Hx'. rewrite HlP in Hx'.
    rewrite app_assoc, lookup_app_r in Hx' by (rewrite app_length; lia).
    rewrite app_length, Nat.sub_diag in Hx'. injection Hx' as <-.
    apply wp_bind, wp_uget; [rewrite app_length; simpl; lia|rewrite !app_length; simpl; lia|].
    intros k' Hk'. rewrite HlK, Nat.sub_succ, Nat.sub_0_r in Hk'.
    rewrite HK0, <-app_assoc, lookup_app_r, Nat.sub_diag in Hk' by lia. injection Hk' as <-.
    apply wp_ask. intros r ->.
    assert (Hid1 : <[length P:=x]> (K ++ D ++ x :: R) = K ++ D ++ x :: R).
    { apply list_insert_id. rewrite app_assoc, lookup_app_r by (rewrite app_length; lia).
      by rewrite app_length, HlP, Nat.sub_diag. }
    assert (Hid2 : <[length K - 1:=k]> (K ++ D ++ x :: R) = K ++ D ++ x :: R).
    { apply list_insert_id. rewrite HlK, Nat.sub_succ, Nat.sub_0_r, HK0, <-app_assoc.
      by rewrite lookup_app_r, Nat.sub_diag by lia. }
    apply wp_bind, wp_uput; [rewrite app_length; simpl; lia|rewrite !app_length; simpl; lia|].
    rewrite Hid1.
    apply wp_bind, wp_uput; [rewrite app_length; simpl; lia|rewrite !app_length; simpl; lia|].
    rewrite Hid2. apply wp_ret.
    rewrite HPx. replace (S (length P)) with (length (P ++ [x])) by (rewrite app_length; simpl; lia).
    destruct (same x k) eqn:Hsame.
    - replace (K ++ D ++ x :: R) with (K ++ (D ++ [x]) ++ R) by (by rewrite <-app_assoc).
      apply IH.
      + by destruct P.
      + rewrite Hsn, app_nil_r. done.
      + rewrite app_assoc, HKD. done.
    - apply wp_bind.
      replace (length K + 1) with (length (K ++ [x])) by (rewrite app_length; simpl; lia).
      destruct (Nat.eqb_spec (length P) (length K)) as [Heq|Hneq].
      + apply wp_ret. assert (D = []) as -> by (destruct D; [done|simpl in *; lia]).
        replace (K ++ [] ++ x :: R) with ((K ++ [x]) ++ [] ++ R) by (by rewrite <-app_assoc).
        apply IH.
        * by destruct P.
        * rewrite Hsn. congruence.
        * rewrite app_nil_r in *. by rewrite HKD.
      + destruct D as [|d D]; [simpl in *; lia|].
        replace (length K - 1 + 1) with (length K) by lia. rewrite HlP.
        apply wp_uswap; [rewrite !app_length; simpl in *; lia..|].
        change (length (d :: D)) with (S (length D)). rewrite swapl_app_mid.
        replace (K ++ x :: (D ++ [d]) ++ R) with ((K ++ [x]) ++ (D ++ [d]) ++ R)
          by (by rewrite <-!app_assoc).
        apply IH.
        * by destruct P.
        * rewrite Hsn. congruence.
        * rewrite <-HKD. rewrite <-!app_assoc. apply Permutation_app_head. simpl.
          rewrite (Permutation_app_comm D [d]). simpl. rewrite Permutation_swap. constructor.
          apply Permutation_cons_append.
  Qed.

  (** The elements a view shows. *)
  Definition view_elems (l : list T) (v : nat * nat) : list T := take v.2 (drop v.1 l).

  Lemma partition_dedup_by_pure same l :
    ∃ v1 v2 l', run (pure_bucket same) (partition_dedup_by (length l)) tt l =
        (Done (v1, v2), tt, l') ∧
      view_elems l' v1 = firsts same l ∧
      view_elems l' v1 ++ view_elems l' v2 = l' ∧
      Permutation l l'.
  Proof.
    assert (Hw : wp (ans_bucket same) (partition_dedup_by (length l))
      (λ v m, view_elems m v.1 = firsts same l ∧ view_elems m v.1 ++ view_elems m v.2 = m ∧
              Permutation l m) (λ _ _, False) l).
    { unfold partition_dedup_by. destruct (Nat.leb_spec (length l) 1) as [H1|H1].
      - apply wp_bind. unfold split_views. apply wp_bind, wp_assert; [by apply Nat.leb_le; lia|].
        apply wp_ret, wp_ret. unfold view_elems. simpl. rewrite Nat.sub_0_r, !drop_0.
        rewrite firstn_all, app_nil_r. split; [|done].
        destruct l as [|a [|b l]]; try done. simpl in H1. lia.
      - destruct l as [|a l]; [simpl in H1; lia|].
        apply wp_bind. simpl length. rewrite Nat.sub_succ, Nat.sub_0_r.
        eapply wp_mono; [apply (dedup_loop_pure same [a] [] [a] l); done| |done].
        intros w m Hm (Hw & Ht & Hp). simpl app in *. unfold split_views.
        assert (Hwl : w ≤ length m).
        { rewrite Hw, <-Ht, take_length. lia. }
        simpl length in Hm.
        apply wp_bind, wp_assert; [by apply Nat.leb_le; lia|]. apply wp_ret.
        unfold view_elems. simpl fst. simpl snd. rewrite drop_0.
        split; [done|]. split; [|by symmetry].
        rewrite <-Hm, firstn_all2 with (n := length m - w) by (rewrite drop_length; lia).
        apply take_drop. }
    apply (wp_run (ans_bucket same) (pure_bucket same) _ ltac:(intros ? [? ?]; done) _ _ tt) in Hw.
    destruct (run (pure_bucket same) _ _ _) as [[[[v1 v2]|e| |] []] l']; try done.
    by exists v1, v2, l'.
  Qed.

  (** [partition_dedup] with a pure [==]. *)
  Definition bucket_of_less {S} (o : S → T * T → option bool * S) :
      S → T * T → dedup_answer T * S :=
    λ s '(a, b), let '(r, s') := o s (a, b) in
      (match r with Some v => Bucket v a b | None => BucketPanic a b end, s').
  Lemma run_partition_dedup {S} (o : S → T * T → option bool * S) n s l :
    run o (partition_dedup n) s l = run (bucket_of_less o) (partition_dedup_by n) s l.
  Proof.
    unfold partition_dedup. apply run_with_asks. intros [a b] s' l'. cbn.
    by destruct (o s' (a, b)).
  Qed.
  Lemma partition_dedup_pure eqf l :
    ∃ v1 v2 l', run (pure_less eqf) (partition_dedup (length l)) tt l =
        (Done (v1, v2), tt, l') ∧
      view_elems l' v1 = firsts eqf l ∧
      view_elems l' v1 ++ view_elems l' v2 = l' ∧
      Permutation l l'.
  Proof.
    rewrite run_partition_dedup, (run_ext _ (pure_bucket eqf)) by (by intros ? []).
    apply partition_dedup_by_pure.
  Qed.

  (** [partition_dedup_by_key]: the bucket closure a key closure amounts to. *)
  Definition bucket_of_key {S K} (o : S → dkey_question T K → dkey_answer T K * S) :
      S → T * T → dedup_answer T * S :=
    λ s '(a, b),
      match o s (DKeyOf a) with
      | (DKey ka a', s1) =>
          match o s1 (DKeyOf b) with
          | (DKey kb b', s2) =>
              match o s2 (DKeyEq ka kb) with
              | (DBool v, s3) => (Bucket v a' b', s3)
              | (_, s3) => (BucketPanic a' b', s3)
              end
          | (DPanic b', s2) => (BucketPanic a' b', s2)
          | (_, s2) => (BucketPanic a' b, s2)
          end
      | (DPanic a', s1) => (BucketPanic a' b, s1)
      | (_, s1) => (BucketPanic a b, s1)
      end.
  Lemma run_partition_dedup_by_key {S K} (o : S → dkey_question T K → dkey_answer T K * S) n s l :
    run o (partition_dedup_by_key n) s l = run (bucket_of_key o) (partition_dedup_by n) s l.
  Proof.
    unfold partition_dedup_by_key. apply run_with_asks. intros [a b] s' l'. cbn.
    destruct (o s' (DKeyOf a)) as [[ka a'|?|a'|] s1]; cbn; try done.
    destruct (o s1 (DKeyOf b)) as [[kb b'|?|b'|] s2]; cbn; try done.
    by destruct (o s2 (DKeyEq ka kb)) as [[?|?|?|] s3].
  Qed.
End dedup.
