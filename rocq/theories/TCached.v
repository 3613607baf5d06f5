(** * Proofs of the theorems of PropCached.v. *)
From Verif Require Export PCached TCompose.
From stdpp Require Import list.
From stdpp Require sorting.

(** ** Sorted (key, index) pairs and stable arrangements. *)
Section pairs.
  Context {T K : Type} (ltk : K → K → bool).

  (** The order of tuples [(K, $t)]: lexicographic. *)
  Definition pair_le (p q : K * nat) : Prop :=
    ltk p.1 q.1 = true ∨ (equivb ltk p.1 q.1 = true ∧ p.2 ≤ q.2).
  Definition pairs_sorted (v : list (K * nat)) : Prop := StronglySorted pair_le v.

  Context (f : T → K).
  Definition key_lt (a b : T) : bool := ltk (f a) (f b).

  Lemma key_swo : strict_weak_order ltk → strict_weak_order key_lt.
  Proof.
    intros [H1 H2 H3]. unfold key_lt. split; intros *; [apply H1|apply H2|apply H3].
  Qed.

  Definition has_key (l : list T) (p : K * nat) : Prop :=
    ∃ a, l !! p.2 = Some a ∧ p.1 = f a.

  Lemma filter_pick_all (l : list T) v x :
    Forall (has_key l) v →
    List.filter (equivb key_lt x) (pick_all l v.*2) =
    pick_all l (List.filter (λ p, equivb ltk (f x) p.1) v).*2.
  Proof.
    induction 1 as [|[k i] v (a & Ha & Hk) _ IH]; [done|]. simpl in Ha, Hk. subst k.
    unfold pick_all in *. cbn. rewrite Ha. cbn.
    change (equivb key_lt x a) with (equivb ltk (f x) (f a)).
    destruct (equivb ltk (f x) (f a)); [|exact IH]. cbn. rewrite Ha. by f_equal.
  Qed.

  Lemma pairs_sorted_filter v x :
    strict_weak_order ltk → pairs_sorted v →
    sorted_wrt (λ p q : K * nat, p.2 <? q.2) (List.filter (λ p, equivb ltk (f x) p.1) v).
  Proof.
    intros Hswo. induction 1 as [|p v _ IH Hp]; simpl; [constructor|].
    destruct (equivb ltk (f x) p.1) eqn:Hpx; [|done]. constructor; [done|].
    apply Forall_forall. intros q Hq. apply elem_of_list_In, List.filter_In in Hq as [Hq Hqx].
    rewrite Forall_forall in Hp. apply elem_of_list_In in Hq. apply Hp in Hq.
    apply Nat.ltb_ge. unfold pair_le, equivb in *.
    apply andb_true_iff in Hpx as [H1%negb_true_iff H2%negb_true_iff].
    apply andb_true_iff in Hqx as [H3%negb_true_iff H4%negb_true_iff].
    destruct Hq as [Hq|[_ Hq]]; [|done].
    rewrite (swo_negtrans ltk Hswo p.1 (f x) q.1) in Hq by done. done.
  Qed.

  Lemma indexed_filter_sorted (l : list T) i P :
    sorted_wrt (λ p q : K * nat, p.2 <? q.2)
      (List.filter P (zip (f <$> l) (seq i (length l)))).
  Proof.
    revert i. induction l as [|a l IH]; intros i; simpl; [constructor|].
    assert (Hf : Forall (λ q : K * nat, (q.2 <? i) = false)
      (List.filter P (zip (f <$> l) (seq (S i) (length l))))).
    { apply Forall_forall. intros q Hq. apply elem_of_list_In, List.filter_In in Hq as [Hq _].
      destruct q as [k j]. apply elem_of_list_In, elem_of_zip_r, elem_of_seq in Hq.
      apply Nat.ltb_ge. simpl. lia. }
    destruct (P (f a, i)); [|apply IH]. constructor; [apply IH|done].
  Qed.

  Lemma indexed_has_key (l : list T) : Forall (has_key l) (zip (f <$> l) (seq 0 (length l))).
  Proof.
    apply Forall_lookup. intros j [k i] Hj. apply lookup_zip_with_Some in Hj as (k' & i' & Heq & Hk & Hi).
    simplify_eq. rewrite list_lookup_fmap in Hk. apply lookup_seq in Hi as [-> Hi]. simpl.
    destruct (l !! j) as [a|] eqn:Ha; [|done]. simplify_eq/=. exists a. simpl. by rewrite Ha.
  Qed.
  Lemma indexed_snd (l : list T) : (zip (f <$> l) (seq 0 (length l))).*2 = seq 0 (length l).
  Proof. apply snd_zip. rewrite seq_length, fmap_length. lia. Qed.

  (** The pairs are determined up to their order. *)
  Lemma keyed_pairs (l : list T) v :
    v.*2 ≡ₚ seq 0 (length l) → Forall (has_key l) v → v ≡ₚ zip (f <$> l) (seq 0 (length l)).
  Proof.
    intros Hv Hk. pose proof (indexed_has_key l) as Hk0. rewrite Forall_forall in Hk, Hk0.
    assert (Heq : ∀ p q : K * nat, has_key l p → has_key l q → p.2 = q.2 → p = q).
    { intros [k1 i1] [k2 i2] (a & Ha & H1) (b & Hb & H2) Hi. simpl in *. congruence. }
    apply NoDup_Permutation.
    - apply (NoDup_fmap_1 snd). rewrite Hv. apply NoDup_seq.
    - apply (NoDup_fmap_1 snd). change (NoDup (zip (f <$> l) (seq 0 (length l))).*2).
      rewrite indexed_snd. apply NoDup_seq.
    - intros p. split; intros Hp.
      + assert (Hin : p.2 ∈ (zip (f <$> l) (seq 0 (length l))).*2).
        { rewrite indexed_snd, <-Hv. by apply elem_of_list_fmap_1. }
        apply elem_of_list_fmap in Hin as (q & Hq & Hin).
        rewrite (Heq p q); auto.
      + assert (Hin : p.2 ∈ v.*2).
        { rewrite Hv, <-indexed_snd. by apply elem_of_list_fmap_1. }
        apply elem_of_list_fmap in Hin as (q & Hq & Hin).
        rewrite (Heq p q); auto.
  Qed.

  (** Any sorted arrangement of the pairs gives the stable arrangement. *)
  Lemma sorted_pairs_stable (l : list T) v :
    strict_weak_order ltk →
    v ≡ₚ zip (f <$> l) (seq 0 (length l)) → pairs_sorted v →
    let l' := pick_all l v.*2 in
    l ≡ₚ l' ∧ sorted_wrt key_lt l' ∧ same_order_of_equals key_lt l l'.
  Proof.
    intros Hswo Hp Hs l'.
    assert (Hk : Forall (has_key l) v) by (rewrite Hp; apply indexed_has_key).
    split_and!.
    - unfold l', pick_all. rewrite Hp, indexed_snd.
      change (l ≡ₚ pick_all l (seq 0 (length l))). by rewrite pick_all_seq.
    - subst l'. clear Hp. induction Hs as [|[k i] v _ IH Hle]; [constructor|].
      apply Forall_cons in Hk as [(a & Ha & Hak) Hk]. simpl in Ha, Hak. subst k.
      unfold pick_all in *. cbn. rewrite Ha. constructor; [by apply IH|].
      apply Forall_forall. intros b Hb. apply elem_of_list_omap in Hb as (j & Hj & Hb).
      apply elem_of_list_fmap in Hj as ([k j'] & -> & Hj). simpl in Hb.
      rewrite Forall_forall in Hk, Hle. destruct (Hk _ Hj) as (b' & Hb' & Hkb). simpl in Hb', Hkb.
      simplify_eq. specialize (Hle _ Hj). unfold pair_le in Hle. simpl in Hle. unfold key_lt.
      destruct Hle as [Hlt|[He _]].
      + destruct (ltk (f b) (f a)) eqn:E; [|done].
        pose proof (swo_trans ltk Hswo _ _ _ Hlt E). by rewrite (swo_irrefl ltk Hswo) in H.
      + by apply andb_true_iff in He as [_ He%negb_true_iff].
    - intros x. unfold l'. rewrite filter_pick_all by done.
      transitivity (pick_all l (List.filter (λ p, equivb ltk (f x) p.1)
        (zip (f <$> l) (seq 0 (length l)))).*2).
      2:{ rewrite <-filter_pick_all by apply indexed_has_key. by rewrite indexed_snd, pick_all_seq. }
      f_equal. f_equal.
      apply (sorted_unique (λ p q : K * nat, p.2 <? q.2)).
      + split; intros *; [apply Nat.ltb_irrefl|rewrite !Nat.ltb_lt; lia|rewrite !Nat.ltb_ge; lia].
      + intros p q Hpi Hqi He.
        apply elem_of_list_In, List.filter_In in Hpi as [Hpi _]. apply elem_of_list_In in Hpi.
        apply elem_of_list_In, List.filter_In in Hqi as [Hqi _]. apply elem_of_list_In in Hqi.
        rewrite Forall_forall in Hk. destruct (Hk _ Hpi) as (a & Ha & Hpa).
        destruct (Hk _ Hqi) as (b & Hb & Hqb).
        apply andb_true_iff in He as [H1%negb_true_iff%Nat.ltb_ge H2%negb_true_iff%Nat.ltb_ge].
        destruct p as [kp ip], q as [kq iq]. simpl in *.
        assert (ip = iq) as -> by lia. f_equal. congruence.
      + clear -Hp. generalize (λ p : K * nat, equivb ltk (f x) p.1). intros P.
        induction Hp as [|p v v' _ IH|p q v|v1 v2 v3 _ IH1 _ IH2]; simpl; [done| | |by etrans].
        * destruct (P p); [by constructor|done].
        * destruct (P p), (P q); done || constructor.
      + by apply pairs_sorted_filter.
      + apply indexed_filter_sorted.
  Qed.
End pairs.

(** ** The environment: key function and external sort. *)
Section env.
  Context {T K S : Type} (ltk : K → K → bool).

  (** [o] computes the keys with [f] and sorts pairs correctly. *)
  Definition cached_env (f : T → K) (o : S → ck_question T K → ck_answer K * S) : Prop :=
    (∀ s a, (o s (CachedKey a)).1 = CKeyIs (f a)) ∧
    (∀ s v, ∃ v', (o s (SortPairs v)).1 = SortedTo v' ∧ Permutation v v' ∧ pairs_sorted ltk v').
  (** [o] may panic in the key function and in comparisons; if the external sort
      returns then with a permutation (nothing is known about its order). *)
  Definition sort_permutes (o : S → ck_question T K → ck_answer K * S) : Prop :=
    ∀ s v v', (o s (SortPairs v)).1 = SortedTo v' → Permutation v v'.

  Definition env_ok (f : T → K) (q : ck_question T K) (r : ck_answer K) : Prop :=
    match q with
    | CachedKey a => r = CKeyIs (f a)
    | SortPairs v => ∃ v', r = SortedTo v' ∧ Permutation v v' ∧ pairs_sorted ltk v'
    | Pick _ => True
    end.
  Lemma cached_env_ok f o : cached_env f o → ∀ s q, env_ok f q (o s q).1.
  Proof. intros [H1 H2] s [a|v|n]; simpl; auto. Qed.
  Definition perm_ok (q : ck_question T K) (r : ck_answer K) : Prop :=
    match q, r with SortPairs v, SortedTo v' => Permutation v v' | _, _ => True end.
  Lemma sort_permutes_ok o : sort_permutes o → ∀ s q, perm_ok q (o s q).1.
  Proof.
    intros H s [a|v|n]; simpl; try done. destruct (o s (SortPairs v)).1 eqn:E; try done. by eapply H.
  Qed.
End env.

Lemma fits_length_fits c n : fits c n → length_fits c n.
Proof. unfold fits, length_fits, width_count. by destruct (wide c). Qed.

Section top.
  Context {T K S : Type} (c : cfg) (sz : sizes).
  Implicit Types (o : S → ck_question T K → ck_answer K * S) (l : list T).

  Lemma cached_key_short o s l :
    length l < 2 → run o (sort_by_cached_key c sz (length l)) s l = (Done tt, s, l) ∧
                   run o (par_sort_by_cached_key c sz (length l)) s l = (Done tt, s, l).
  Proof.
    intros Hn. unfold sort_by_cached_key, par_sort_by_cached_key.
    by rewrite (proj2 (Nat.ltb_lt _ _) Hn).
  Qed.
  Lemma short_stable (lt : T → T → bool) l :
    strict_weak_order lt → length l < 2 →
    Permutation l l ∧ sorted_wrt lt l ∧ same_order_of_equals lt l l.
  Proof.
    intros Hswo Hn. split_and!; [done| |done]. destruct l as [|a [|b l]]; simpl in Hn; [constructor|..|lia].
    repeat constructor.
  Qed.

  Lemma sort_by_cached_key_stable (ltk : K → K → bool) (f : T → K) o s l :
    strict_weak_order ltk → cached_env ltk f o → fits c (length l) →
    ∃ s' l' tr, run (logged o) (sort_by_cached_key c sz (length l)) (s, []) l =
        (Done tt, (s', tr), l') ∧
      Permutation l l' ∧ sorted_wrt (key_lt ltk f) l' ∧
      same_order_of_equals (key_lt ltk f) l l' ∧
      called tr = if 2 <=? length l then l else [].
  Proof.
    intros Hswo Henv Hfit%fits_length_fits.
    destruct (Nat.leb_spec 2 (length l)) as [Hn|Hn].
    - pose proof (sort_by_cached_key_spec c (env_ok ltk f) sz l) as Hwp.
      specialize (Hwp ltac:(intros v v' (v'' & Hv & Hp & _); by simplify_eq) Hfit Hn).
      apply (wpg_run_logged (env_ok ltk f) o _ _ _ s l (cached_env_ok ltk f o Henv)) in Hwp.
      destruct (run _ _ _ _) as [[[[]|e| |] [s' tr]] l']; try done.
      + destruct Hwp as (ks & v' & Hks & -> & Hok & (v'' & Hv & Hp & Hs) & ->). simplify_eq.
        assert (ks = f <$> l) as ->.
        { clear -Hok. induction Hok as [|a k l ks Hk _ IH]; [done|]. simpl in Hk. simplify_eq.
          rewrite fmap_cons. by f_equal. }
        destruct (sorted_pairs_stable ltk f l v'' Hswo (Permutation_sym Hp) Hs) as (H1 & H2 & H3).
        eexists s', _, _. split_and!; [done|done|done|done|].
        rewrite called_app. cbn. rewrite app_nil_r. clear.
        unfold key_calls. induction l as [|a l IH]; [done|]. cbn. f_equal. exact IH.
      + destruct Hwp as (_ & _ & [Hp|Hp]).
        * destruct Hp as (ks & a & r & _ & _ & Hr & Hne). simpl in Hr. by destruct (Hne (f a)).
        * destruct Hp as (ks & r & _ & _ & (v' & -> & _) & Hne). by destruct (Hne v').
    - destruct (cached_key_short o s l Hn) as [Hr _].
      assert (Hr' : run (logged o) (sort_by_cached_key c sz (length l)) (s, []) l = (Done tt, (s, []), l)).
      { unfold sort_by_cached_key. by rewrite (proj2 (Nat.ltb_lt _ _) Hn). }
      exists s, l, []. rewrite Hr'. destruct (short_stable _ l (key_swo ltk f Hswo) Hn) as (?&?&?).
      done.
  Qed.

  (** Panics of the key function or of comparisons leave the array alone. *)
  Lemma sort_by_cached_key_any o s l :
    sort_permutes o → fits c (length l) →
    ∃ r s' l' tr, run (logged o) (sort_by_cached_key c sz (length l)) (s, []) l = (r, (s', tr), l') ∧
      ((r = Done tt ∧ Permutation l l') ∨
       (r = Panicked UserPanic ∧ l' = l ∧
        ∃ tr0 q a, tr = tr0 ++ [(q, a)] ∧
          ((∃ x, q = CachedKey x ∧ (∀ k, a ≠ CKeyIs k)) ∨ (∃ v, q = SortPairs v ∧ (∀ v', a ≠ SortedTo v'))))).
  Proof.
    intros Henv Hfit%fits_length_fits.
    destruct (decide (2 ≤ length l)) as [Hn|Hn].
    - pose proof (sort_by_cached_key_spec (K:=K) c perm_ok sz l) as Hwp.
      specialize (Hwp ltac:(done) Hfit Hn).
      apply (wpg_run_logged perm_ok o _ _ _ s l (sort_permutes_ok o Henv)) in Hwp.
      destruct (run _ _ _ _) as [[[[]|e| |] [s' tr]] l']; try done.
      + destruct Hwp as (ks & v' & Hks & -> & Hok & Hp & ->).
        eexists _, _, _, _. split; [done|]. left. split; [done|].
        rewrite <-(pick_all_seq l) at 1. apply pick_all_perm. simpl in Hp. rewrite <-Hp.
        rewrite snd_zip by (rewrite seq_length; lia). done.
      + destruct Hwp as (-> & -> & Hp). eexists _, _, _, _. split; [done|]. right.
        split_and!; [done..|]. destruct Hp as [Hp|Hp].
        * destruct Hp as (ks & a & r & -> & _ & _ & Hne). eauto 10.
        * destruct Hp as (ks & r & _ & -> & _ & Hne). eauto 10.
    - exists (Done tt), s, l, []. unfold sort_by_cached_key.
      rewrite (proj2 (Nat.ltb_lt _ _)) by lia. split; [done|]. left. done.
  Qed.

  Lemma sort_by_cached_key_key_panics o s l a :
    a ∈ l → 2 ≤ length l → (∀ s k, (o s (CachedKey a)).1 ≠ CKeyIs k) →
    sort_permutes o → fits c (length l) →
    ∃ s', run o (sort_by_cached_key c sz (length l)) s l = (Panicked UserPanic, s', l).
  Proof.
    intros Ha Hn Hbad Henv Hfit%fits_length_fits.
    set (ok := λ (q : ck_question T K) (r : ck_answer K),
                 perm_ok q r ∧ (q = CachedKey a → ∀ k, r ≠ CKeyIs k)).
    pose proof (sort_by_cached_key_spec c ok sz l) as Hwp.
    specialize (Hwp ltac:(intros v v' [? _]; done) Hfit Hn).
    apply (wpg_run_logged ok o _ _ _ s l) in Hwp.
    2:{ intros s0 q. split; [by apply sort_permutes_ok|]. intros -> k. apply Hbad. }
    rewrite (run_logged o _ s [] l).
    destruct (run _ _ _ _) as [[[[]|e| |] [s' tr]] l']; try done.
    - destruct Hwp as (ks & v' & Hks & _ & Hok & _).
      apply elem_of_list_lookup in Ha as [i Hi].
      destruct (lookup_lt_is_Some_2 ks i) as [k Hk]; [apply lookup_lt_Some in Hi; lia|].
      rewrite Forall2_lookup in Hok. specialize (Hok i). rewrite Hi, Hk in Hok.
      inversion Hok as [? ? [_ Hx]|]; subst. by destruct (Hx eq_refl k).
    - destruct Hwp as (-> & -> & _). eauto.
  Qed.

  Lemma par_sort_by_cached_key_stable (ltk : K → K → bool) (f : T → K) o s l :
    strict_weak_order ltk → cached_env ltk f o → fits c (length l) →
    ∃ s' l' tr, run (logged o) (par_sort_by_cached_key c sz (length l)) (s, []) l =
        (Done tt, (s', tr), l') ∧
      Permutation l l' ∧ sorted_wrt (key_lt ltk f) l' ∧
      same_order_of_equals (key_lt ltk f) l l' ∧
      Permutation (called tr) (if 2 <=? length l then l else []).
  Proof.
    intros Hswo Henv Hfit%fits_length_fits.
    destruct (Nat.leb_spec 2 (length l)) as [Hn|Hn].
    - set (ok := λ (q : ck_question T K) (r : ck_answer K), env_ok ltk f q r).
      pose proof (par_sort_by_cached_key_spec c ok sz l) as Hwp.
      specialize (Hwp ltac:(intros v v' (v'' & Hv & Hp & _); by simplify_eq) Hfit Hn).
      apply (wpg_run_logged ok o _ _ _ s l (cached_env_ok ltk f o Henv)) in Hwp.
      destruct (run _ _ _ _) as [[[[]|e| |] [s' tr]] l']; try done.
      + destruct Hwp as (v & v' & Hv & Hk & Hc & (v'' & Heq & Hp & Hs) & ->). simplify_eq.
        assert (Hvp : v ≡ₚ zip (f <$> l) (seq 0 (length l))).
        { apply keyed_pairs; [done|]. eapply Forall_impl; [exact Hk|].
          intros p (a & Ha & Hka). exists a. unfold ok in Hka. simpl in Hka. by simplify_eq. }
        destruct (sorted_pairs_stable ltk f l v'' Hswo) as (H1 & H2 & H3);
          [by rewrite <-Hp|done|].
        eexists s', _, _. split_and!; done.
      + destruct Hwp as (_ & _ & q & r & _ & Hq & Hr). exfalso.
        destruct q as [a|v|n]; simpl in Hq, Hr; [by apply (Hr (f a))| |done].
        destruct Hq as (v' & -> & _). by apply (Hr v').
    - exists s, l, []. unfold par_sort_by_cached_key. rewrite (proj2 (Nat.ltb_lt _ _) Hn).
      destruct (short_stable _ l (key_swo ltk f Hswo) Hn) as (?&?&?). done.
  Qed.

  Lemma par_sort_by_cached_key_any o s l :
    sort_permutes o → fits c (length l) →
    ∃ r s' l', run o (par_sort_by_cached_key c sz (length l)) s l = (r, s', l') ∧
      ((r = Done tt ∧ Permutation l l') ∨ (r = Panicked UserPanic ∧ l' = l)).
  Proof.
    intros Henv Hfit%fits_length_fits. rewrite (run_logged o _ s [] l).
    destruct (decide (2 ≤ length l)) as [Hn|Hn].
    - pose proof (par_sort_by_cached_key_spec (K:=K) c perm_ok sz l) as Hwp.
      specialize (Hwp ltac:(done) Hfit Hn).
      apply (wpg_run_logged perm_ok o _ _ _ s l (sort_permutes_ok o Henv)) in Hwp.
      destruct (run _ _ _ _) as [[[[]|e| |] [s' tr]] l']; try done.
      + destruct Hwp as (v & v' & Hv & _ & _ & Hp & ->).
        eexists _, _, _. split; [done|]. left. split; [done|].
        rewrite <-(pick_all_seq l) at 1. apply pick_all_perm. simpl in Hp. by rewrite <-Hp, Hv.
      + destruct Hwp as (-> & -> & _). eauto 10.
    - exists (Done tt), s, l. unfold par_sort_by_cached_key.
      rewrite (proj2 (Nat.ltb_lt _ _)) by lia. split; [done|]. by left.
  Qed.

  (** Both variants give the same array. *)
  Lemma cached_keys_agree (ltk : K → K → bool) (f : T → K) o o' s s' l :
    strict_weak_order ltk → cached_env ltk f o → cached_env ltk f o' → fits c (length l) →
    ∃ l', (∃ s1, run o (sort_by_cached_key c sz (length l)) s l = (Done tt, s1, l')) ∧
          (∃ s2, run o' (par_sort_by_cached_key c sz (length l)) s' l = (Done tt, s2, l')).
  Proof.
    intros Hswo H1 H2 Hf.
    destruct (sort_by_cached_key_stable ltk f o s l Hswo H1 Hf) as (s1 & l1 & tr1 & Hr1 & Hp1 & Hs1 & Ho1 & _).
    destruct (par_sort_by_cached_key_stable ltk f o' s' l Hswo H2 Hf) as (s2 & l2 & tr2 & Hr2 & Hp2 & Hs2 & Ho2 & _).
    exists l1. split.
    - exists s1. by rewrite (run_logged o _ s [] l), Hr1.
    - exists s2. rewrite (run_logged o' _ s' [] l), Hr2. f_equal.
      apply (stable_unique (key_lt ltk f)); [by apply key_swo|by rewrite <-Hp2|done|done|].
      intros x. by rewrite Ho1, Ho2.
  Qed.
End top.

(** ** The index type does not matter. *)
Section widths.
  Context {T K S : Type} (c : cfg).
  Implicit Types (o : S → ck_question T K → ck_answer K * S) (l : list T).

  Lemma collect_keys_width o w w' n i cnt s l :
    (N.of_nat n <= width_count c w)%N → (N.of_nat n <= width_count c w')%N → i + cnt ≤ n →
    run o (collect_keys c w n i cnt) s l = run o (collect_keys c w' n i cnt) s l.
  Proof.
    intros Hw Hw'. revert i s l. induction cnt as [|cnt IH]; intros i s l Hi; simpl; [done|].
    rewrite !run_bind. destruct (run o (uget n i) s l) as [[[a|e| |] s1] l1]; try done.
    rewrite !run_bind. destruct (run o (call_key a) s1 l1) as [[[k|e| |] s2] l2]; try done.
    rewrite !run_bind, IH by lia.
    destruct (run o (collect_keys c w' n _ cnt) s2 l2) as [[[v|e| |] s3] l3]; try done.
    by rewrite (cast_small c w n i Hw), (cast_small c w' n i Hw') by lia.
  Qed.
  Lemma par_collect_keys_width o w w' n todo acc pk cnt s l :
    (N.of_nat n <= width_count c w)%N → (N.of_nat n <= width_count c w')%N →
    run o (par_collect_keys c w n todo acc pk cnt) s l =
    run o (par_collect_keys c w' n todo acc pk cnt) s l.
  Proof.
    intros Hw Hw'. revert todo acc pk s l. induction cnt as [|cnt IH]; intros todo acc pk s l; [done|].
    cbn [par_collect_keys run]. destruct (o s (Pick (length todo))) as [r s1].
    destruct (match r with Picked a b c => (a, b, c) | _ => (0, 0, false) end) as [[wh pl] st].
    destruct (pk && st); [done|]. destruct (todo !! (wh `mod` length todo)) as [i|]; [|done].
    unfold uget. destruct (Nat.ltb_spec i n) as [Hi|]; [|done].
    rewrite !run_bind. cbn [run]. destruct (l !! i) as [a|]; [|done].
    cbn [run]. destruct (o s1 (CachedKey a)) as [[k|v|x y z|] s2]; try apply IH.
    rewrite (cast_small c w n i Hw), (cast_small c w' n i Hw') by lia. apply IH.
  Qed.

  Lemma sort_by_key_macro_width o w w' n s l :
    (N.of_nat n <= width_count c w)%N → (N.of_nat n <= width_count c w')%N →
    run o (sort_by_key_macro c w n) s l = run o (sort_by_key_macro c w' n) s l.
  Proof.
    intros. unfold sort_by_key_macro. rewrite !run_bind.
    by rewrite (collect_keys_width o w w') by (done || lia).
  Qed.
  Lemma par_sort_by_key_macro_width o w w' n s l :
    (N.of_nat n <= width_count c w)%N → (N.of_nat n <= width_count c w')%N →
    run o (par_sort_by_key_macro c w n) s l = run o (par_sort_by_key_macro c w' n) s l.
  Proof.
    intros. unfold par_sort_by_key_macro. rewrite !run_bind.
    by rewrite (par_collect_keys_width o w w') by done.
  Qed.
  Lemma cached_key_sizes o sz sz' n s l :
    fits c n →
    run o (sort_by_cached_key c sz n) s l = run o (sort_by_cached_key c sz' n) s l ∧
    run o (par_sort_by_cached_key c sz n) s l = run o (par_sort_by_cached_key c sz' n) s l.
  Proof.
    intros Hf%fits_length_fits. unfold sort_by_cached_key, par_sort_by_cached_key.
    destruct (n <? 2); [done|]. split.
    - apply sort_by_key_macro_width; by apply choose_width_fits.
    - apply par_sort_by_key_macro_width; by apply choose_width_fits.
  Qed.
End widths.

(** ** Agreement with [sort]. *)
Lemma cached_key_agrees_with_sort {T S} (c : cfg) sz (lt : T → T → bool)
    (o : S → ck_question T T → ck_answer T * S) s l :
  strict_weak_order lt → (zst c = true → ∀ x y : T, x = y) →
  cached_env lt id o → fits c (length l) →
  ∃ l', run (pure_less lt) (MApi.sort c (length l)) tt l = (Done tt, tt, l') ∧
    (∃ s', run o (sort_by_cached_key c sz (length l)) s l = (Done tt, s', l')) ∧
    (∃ s', run o (par_sort_by_cached_key c sz (length l)) s l = (Done tt, s', l')).
Proof.
  intros Hswo Hz Henv Hf.
  destruct (stable_sort_sorts c lt l Hswo Hz) as (l' & Hr & Hp & Hs & Ho).
  destruct (cached_keys_agree c sz lt id o o s s l Hswo Henv Henv Hf) as (l1 & Hr1 & Hr2).
  destruct (sort_by_cached_key_stable c sz lt id o s l Hswo Henv Hf) as (s1 & l2 & tr1 & Hr3 & Hp1 & Hs1 & Ho1 & _).
  assert (l2 = l1) as ->.
  { destruct Hr1 as [s2 Hr1]. rewrite (run_logged o _ s [] l), Hr3 in Hr1. by simplify_eq. }
  assert (l1 = l') as ->.
  { apply (stable_unique lt); [done|by rewrite <-Hp1|done|done|]. intros x.
    rewrite Ho. symmetry. apply (Ho1 x). }
  eauto.
Qed.

(** ** A concrete environment for the examples: the keys are computed by [f], the
    pairs sorted by a merge sort, and the schedule always takes the last element
    first and puts its pair in the middle. *)
Global Instance pair_le_dec {K} (ltk : K → K → bool) : RelDecision (pair_le ltk).
Proof. intros p q. unfold pair_le. apply _. Defined.
Definition demo_env {T} (f : T → nat) (s : unit) (q : ck_question T nat) : ck_answer nat * unit :=
  (match q with
   | CachedKey a => CKeyIs (f a)
   | SortPairs v => SortedTo (sorting.merge_sort (pair_le Nat.ltb) v)
   | Pick n => Picked (n - 1) (n / 2) false
   end, s).
Lemma pair_le_nat p q : pair_le Nat.ltb p q ↔ p.1 < q.1 ∨ p.1 = q.1 ∧ p.2 ≤ q.2.
Proof.
  unfold pair_le, equivb. rewrite Nat.ltb_lt, andb_true_iff, !negb_true_iff, !Nat.ltb_ge. lia.
Qed.
Lemma demo_env_ok {T} (f : T → nat) : cached_env Nat.ltb f (demo_env f).
Proof.
  split; [done|]. intros [] v. eexists. split; [done|]. split.
  - symmetry. apply sorting.merge_sort_Permutation.
  - apply Sorted_StronglySorted; [|apply sorting.Sorted_merge_sort].
    + intros p q r. rewrite !pair_le_nat. lia.
    + intros p q. rewrite !pair_le_nat. lia.
Qed.
Lemma chosen_width_holds (c : cfg) sz n i :
  fits c n → i < n → cast c (choose_width sz n) i = i.
Proof. intros Hf%fits_length_fits Hi. apply (cast_small c _ n); [by apply choose_width_fits|done]. Qed.
