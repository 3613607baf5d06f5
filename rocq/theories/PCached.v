(** * Proofs about the cached-key sorts (MCached.v). *)
From Verif Require Export MCached Ghost Unique.
From stdpp Require Import list.

(** The elements of [l] at the positions [ps]. *)
Definition pick_all {T} (l : list T) (ps : list nat) : list T := omap (λ e, l !! e) ps.

Lemma pick_all_lookup {T} (l : list T) ps j :
  Forall (λ e, e < length l) ps → pick_all l ps !! j = ps !! j ≫= λ e, l !! e.
Proof.
  intros Hf. revert j. induction Hf as [|e ps He _ IH]; intros j; simpl; [done|].
  destruct (lookup_lt_is_Some_2 l e He) as [x Hx]. unfold pick_all in *. cbn.
  rewrite Hx. destruct j; simpl; [by rewrite Hx|]. apply IH.
Qed.
Lemma pick_all_seq {T} (l : list T) : pick_all l (seq 0 (length l)) = l.
Proof.
  apply list_eq. intros j. rewrite pick_all_lookup.
  - destruct (decide (j < length l)).
    + by rewrite lookup_seq_lt by done.
    + rewrite lookup_seq_ge by lia. simpl. symmetry. apply lookup_ge_None. lia.
  - apply Forall_forall. intros e He. apply elem_of_seq in He. lia.
Qed.
Lemma pick_all_perm {T} (l : list T) ps ps' : ps ≡ₚ ps' → pick_all l ps ≡ₚ pick_all l ps'.
Proof. intros H. unfold pick_all. by rewrite H. Qed.

(** Following the chain of replaced positions. *)
Inductive chain {K} (v : list (K * nat)) (i : nat) : nat → nat → Prop :=
| chain_end e : i ≤ e → chain v i e e
| chain_step e p loc : e < i → v !! e = Some p → e < p.2 → chain v i p.2 loc → chain v i e loc.

Lemma chain_ge {K} (v : list (K * nat)) i e loc : chain v i e loc → i ≤ loc.
Proof. by induction 1. Qed.

Section cached.
  Context {T K G : Type} (c : cfg) (ans : G → ck_question T K → ck_answer K → G → Prop).
  Implicit Types (l : list T) (v : list (K * nat)) (g : G).

  Lemma chase_spec fuel v i e loc (Φ : nat → G → list T → Prop) E g l :
    chain v i e loc → i ≤ fuel + e → Φ loc g l → wpg ans (chase fuel v i e) Φ E g l.
  Proof.
    intros Hc. revert fuel. induction Hc as [e He|e p loc He Hp Hlt Hc IH]; intros fuel Hf HΦ.
    - destruct fuel; simpl; rewrite (proj2 (Nat.ltb_ge e i)) by lia; by apply wpg_ret.
    - destruct fuel as [|fuel]; [lia|]. simpl. rewrite (proj2 (Nat.ltb_lt e i)) by lia.
      apply wpg_bind. unfold vec_index. rewrite Hp. apply wpg_ret. apply IH; [lia|done].
  Qed.

  (** The state before step [i]: [π] says which original element is where. *)
  Record inv (l0 : list T) (σ π : list nat) v (i : nat) l : Prop := {
    inv_len : length l = length l0;
    inv_vlen : length v = length l0;
    inv_perm : π ≡ₚ seq 0 (length l0);
    inv_array : ∀ j, l !! j = π !! j ≫= λ e, l0 !! e;
    inv_done : ∀ j, j < i → π !! j = σ !! j;
    inv_todo : ∀ j, i ≤ j → snd <$> v !! j = σ !! j;
    inv_chain : ∀ e, e < length l0 → e ∉ take i σ →
      ∃ loc, chain v i e loc ∧ π !! loc = Some e
  }.

  Lemma chain_next v i e loc loc0 p :
    chain v i e loc → v !! i = Some p → i < loc0 ∨ loc ≠ i →
    chain (<[i := (p.1, loc0)]> v) (S i) e (if decide (loc = i) then loc0 else loc).
  Proof.
    intros Hc Hi Hloc. induction Hc as [e He|e q loc He Hq Hlt Hc IH].
    - case_decide as Heq.
      + subst e. destruct Hloc as [Hloc|?]; [|done].
        eapply chain_step; [lia|apply list_lookup_insert; by eapply lookup_lt_Some|simpl; lia|].
        simpl. apply chain_end. lia.
      + apply chain_end. lia.
    - eapply chain_step; [lia|rewrite list_lookup_insert_ne by lia; exact Hq|done|].
      by apply IH.
  Qed.

  Lemma permute_spec l0 σ π v i cnt (Φ : unit → G → list T → Prop) E g l :
    σ ≡ₚ seq 0 (length l0) →
    inv l0 σ π v i l → i + cnt = length l0 →
    Φ tt g (pick_all l0 σ) →
    wpg ans (permute (length l0) v i cnt) Φ E g l.
  Proof.
    intros Hσ. revert π v i l. induction cnt as [|cnt IH]; intros π v i l Hinv Hi HΦ; simpl.
    - apply wpg_ret. replace l with (pick_all l0 σ); [done|].
      assert (Hf : Forall (λ e, e < length l0) σ).
      { rewrite Hσ. apply Forall_forall. intros e He. apply elem_of_seq in He. lia. }
      apply list_eq. intros j. rewrite pick_all_lookup by done.
      rewrite (inv_array _ _ _ _ _ _ Hinv). f_equal. symmetry.
      destruct (decide (j < i)) as [Hj|Hj]; [by apply (inv_done _ _ _ _ _ _ Hinv)|].
      pose proof (inv_perm _ _ _ _ _ _ Hinv) as Hπ.
      apply Permutation_length in Hπ. rewrite seq_length in Hπ.
      apply Permutation_length in Hσ. rewrite seq_length in Hσ.
      rewrite !lookup_ge_None_2; [done|lia..].
    - pose proof Hinv as [Hlen Hvlen Hπ Harr Hdone Htodo Hchain].
      pose proof (Permutation_length Hσ) as Hσlen. rewrite seq_length in Hσlen.
      pose proof (Permutation_length Hπ) as Hπlen. rewrite seq_length in Hπlen.
      assert (NoDup σ) as Hnd by (rewrite Hσ; apply NoDup_seq).
      assert (NoDup π) as Hndπ by (rewrite Hπ; apply NoDup_seq).
      destruct (lookup_lt_is_Some_2 σ i) as [e0 He0]; [lia|].
      destruct (lookup_lt_is_Some_2 v i) as [p Hp]; [lia|].
      assert (p.2 = e0) as Hpe. { specialize (Htodo i ltac:(lia)). rewrite Hp, He0 in Htodo. by simplify_eq/=. }
      apply wpg_bind. unfold vec_index. rewrite Hp. apply wpg_ret. rewrite Hpe.
      assert (e0 < length l0) as He0l.
      { assert (Hin : e0 ∈ σ) by (by eapply elem_of_list_lookup_2).
        rewrite Hσ, elem_of_seq in Hin. lia. }
      destruct (Hchain e0 He0l) as (loc0 & Hc0 & Hl0).
      { intros Hin. apply elem_of_list_lookup in Hin as [j Hj].
        rewrite lookup_take_Some in Hj. destruct Hj as [Hj Hji].
        pose proof (NoDup_lookup σ i j e0 Hnd He0 Hj). lia. }
      apply wpg_bind. eapply chase_spec; [exact Hc0|lia|]. apply wpg_bind, wpg_ret.
      assert (Hloc0 : loc0 < length l0) by (apply lookup_lt_Some in Hl0; lia).
      pose proof (chain_ge _ _ _ _ Hc0) as Hge.
      apply wpg_bind, wpg_swap; [lia|done|lia|].
      apply (IH (swapl i loc0 π)); [|lia|done].
      split.
      + by rewrite swapl_length.
      + by rewrite insert_length.
      + rewrite swapl_perm by lia. done.
      + intros j. rewrite !lookup_swapl by lia. repeat case_decide; apply Harr.
      + intros j Hj. rewrite lookup_swapl by lia. case_decide as Hji; [subst j; congruence|].
        case_decide; [lia|]. apply Hdone. lia.
      + intros j Hj. rewrite list_lookup_insert_ne by lia. apply Htodo. lia.
      + intros e He Hnin.
        destruct (Hchain e He) as (loc & Hc & Hl).
        { intros Hin. apply Hnin. rewrite (take_S_r _ _ _ He0). apply elem_of_app. by left. }
        assert (Hee : e ≠ e0).
        { intros ->. apply Hnin. rewrite (take_S_r _ _ _ He0). apply elem_of_app. right. by left. }
        assert (loc ≠ loc0) as Hll by congruence.
        pose proof (chain_ge _ _ _ _ Hc) as Hge'.
        exists (if decide (loc = i) then loc0 else loc). split.
        * apply (chain_next v i e loc loc0 p); [done|done|]. destruct (decide (loc = i)); [left; lia|by right].
        * rewrite lookup_swapl by lia. destruct (decide (loc = i)) as [->|Hne].
          { rewrite decide_False by lia. by rewrite decide_True. }
          { rewrite decide_False by done. by rewrite decide_False. }
  Qed.

  Lemma permute_start l v (Φ : unit → G → list T → Prop) E g :
    v.*2 ≡ₚ seq 0 (length l) →
    Φ tt g (pick_all l v.*2) →
    wpg ans (permute (length l) v 0 (length l)) Φ E g l.
  Proof.
    intros Hv HΦ. eapply (permute_spec l v.*2 (seq 0 (length l)) v); [done| |lia|done].
    pose proof (Permutation_length Hv) as Hlen. rewrite fmap_length, seq_length in Hlen.
    split; [done|done|done| | | |].
    - intros j. rewrite <-(pick_all_seq l) at 1. apply pick_all_lookup.
      apply Forall_forall. intros e He. apply elem_of_seq in He. lia.
    - lia.
    - intros j _. by rewrite list_lookup_fmap.
    - intros e He _. exists e. split; [apply chain_end; lia|]. by rewrite lookup_seq_lt.
  Qed.
End cached.

(** ** Index types. *)
Section width.
  Context (c : cfg).
  Lemma cast_small w n i : (N.of_nat n <= width_count c w)%N → i < n → cast c w i = i.
  Proof. intros Hn Hi. unfold cast. rewrite N.mod_small by lia. lia. Qed.
  (** An array length of [usize]. *)
  Definition length_fits (n : nat) : Prop := (N.of_nat n <= width_count c Usize)%N.
  Lemma choose_width_fits sz n :
    length_fits n → (N.of_nat n <= width_count c (choose_width sz n))%N.
  Proof.
    unfold choose_width, length_fits. intros Hn.
    repeat match goal with |- context [if ?b then _ else _] =>
      lazymatch b with
      | andb _ _ => destruct b eqn:?; [match goal with H : _ && _ = true |- _ =>
           apply andb_true_iff in H as [_ ?%N.leb_le] end; simpl; lia|] end end.
    done.
  Qed.
End width.

Lemma zip_with_cons_step {A B C} (f : A → B → C) l i a ks k :
  l !! i = Some a → zip_with f (drop i l) (k :: ks) = f a k :: zip_with f (drop (S i) l) ks.
Proof. intros H. by rewrite (drop_S l a i H). Qed.

(** ** The sequential variant. *)
Section sequential.
  Context {T K : Type} (c : cfg) (ok : ck_question T K → ck_answer K → Prop).
  Implicit Types (l : list T) (v : list (K * nat)).

  (** Calls of the key function with their answers. *)
  Definition key_calls l (ks : list K) : list (ck_question T K * ck_answer K) :=
    zip_with (λ a k, (CachedKey a, CKeyIs k)) l ks.
  (** The log of a run in which the key function panicked. *)
  Definition key_panic l (tr : list (ck_question T K * ck_answer K)) : Prop :=
    ∃ ks a r, tr = key_calls l ks ++ [(CachedKey a, r)] ∧ l !! length ks = Some a ∧
      ok (CachedKey a) r ∧ (∀ k, r ≠ CKeyIs k).

  Lemma collect_keys_spec w n i cnt tr0 l :
    n = length l → (N.of_nat n <= width_count c w)%N → i + cnt = n →
    wpg (log_ans ok) (collect_keys c w n i cnt)
      (λ v tr l', l' = l ∧ ∃ ks, length ks = cnt ∧ v = zip ks (seq i cnt) ∧
         tr = tr0 ++ key_calls (drop i l) ks ∧
         Forall2 (λ a k, ok (CachedKey a) (CKeyIs k)) (drop i l) ks)
      (λ e tr l', l' = l ∧ e = UserPanic ∧
         ∃ tr', tr = tr0 ++ tr' ∧ key_panic (drop i l) tr')
      tr0 l.
  Proof.
    intros Hn Hw. revert i tr0. induction cnt as [|cnt IH]; intros i tr0 Hi; simpl.
    - apply wpg_ret. split; [done|]. exists []. rewrite drop_ge by lia. simpl.
      by rewrite app_nil_r.
    - apply wpg_bind, wpg_uget; [lia..|]. intros a Ha.
      apply wpg_bind. unfold call_key. apply wpg_ask. intros r tr1 [Hr ->].
      assert (Hbad : (∀ k, r ≠ CKeyIs k) → key_panic (drop i l) [(CachedKey a, r)]).
      { intros Hne. exists [], a, r. rewrite lookup_drop, Nat.add_0_r.
        split; [unfold key_calls; destruct (drop i l); done|done]. }
      destruct r as [k|v|w' p s|]; try (apply wpg_throw; eauto 10).
      apply wpg_ret. apply wpg_bind. wpg_apply IH; [lia| |].
      + intros v tr2 l' _ (-> & ks & Hks & -> & -> & Hok). apply wpg_ret. split; [done|].
        exists (k :: ks). split; [simpl; lia|]. rewrite (cast_small c w n i Hw) by lia.
        split; [done|]. split.
        * unfold key_calls. rewrite (zip_with_cons_step _ _ _ a) by done. by rewrite <-app_assoc.
        * rewrite (drop_S l a i Ha). by constructor.
      + intros e tr2 l' _ (-> & -> & tr' & -> & ks & a' & r & -> & Ha' & Hr' & Hne).
        split; [done|]. split; [done|]. eexists. split; [by rewrite <-app_assoc|].
        exists (k :: ks), a', r. split.
        * unfold key_calls. rewrite (zip_with_cons_step _ _ _ a) by done. done.
        * rewrite (drop_S l a i Ha). done.
  Qed.

  Lemma sort_by_cached_key_spec sz l :
    (∀ v v', ok (SortPairs v) (SortedTo v') → v ≡ₚ v') →
    length_fits c (length l) → 2 ≤ length l →
    wpg (log_ans ok) (sort_by_cached_key c sz (length l))
      (λ _ tr l', ∃ ks v', length ks = length l ∧
         tr = key_calls l ks ++ [(SortPairs (zip ks (seq 0 (length l))), SortedTo v')] ∧
         Forall2 (λ a k, ok (CachedKey a) (CKeyIs k)) l ks ∧
         ok (SortPairs (zip ks (seq 0 (length l)))) (SortedTo v') ∧
         l' = pick_all l v'.*2)
      (λ e tr l', l' = l ∧ e = UserPanic ∧
         (key_panic l tr ∨
          ∃ ks r, length ks = length l ∧
            tr = key_calls l ks ++ [(SortPairs (zip ks (seq 0 (length l))), r)] ∧
            ok (SortPairs (zip ks (seq 0 (length l)))) r ∧
            (∀ v, r ≠ SortedTo v)))
      [] l.
  Proof.
    intros Hsort Hfit Hn. unfold sort_by_cached_key.
    rewrite (proj2 (Nat.ltb_ge _ _)) by lia. unfold sort_by_key_macro.
    apply wpg_bind. wpg_apply collect_keys_spec; [done|by apply choose_width_fits|lia| |]; simpl.
    - intros v tr l' _ (-> & ks & Hks & -> & -> & Hok). rewrite drop_0 in *.
      apply wpg_bind. unfold sort_pairs. apply wpg_ask. intros r tr1 [Hr ->].
      assert (Hbad : (∀ v, r ≠ SortedTo v) →
        l = l ∧ UserPanic = UserPanic ∧
         (key_panic l (key_calls l ks ++ [(SortPairs (zip ks (seq 0 (length l))), r)]) ∨
          ∃ ks' r', length ks' = length l ∧
            key_calls l ks ++ [(SortPairs (zip ks (seq 0 (length l))), r)] =
              key_calls l ks' ++ [(SortPairs (zip ks' (seq 0 (length l))), r')] ∧
            ok (SortPairs (zip ks' (seq 0 (length l)))) r' ∧
            (∀ v, r' ≠ SortedTo v))) by eauto 10.
      destruct r as [k|v'|w' p s|]; try (apply wpg_throw; by apply Hbad).
      apply wpg_ret. apply permute_start.
      + rewrite <-(Hsort _ _ Hr). rewrite snd_zip by (rewrite seq_length; lia). done.
      + exists ks, v'. eauto 10.
    - intros e tr l' _ (-> & -> & tr' & -> & Hp). rewrite drop_0 in Hp. eauto.
  Qed.
End sequential.

(** ** The parallel variant. *)
Section parallel.
  Context {T K : Type} (c : cfg) (ok : ck_question T K → ck_answer K → Prop).
  Implicit Types (l : list T) (v acc : list (K * nat)).

  (** The elements the key function was called with. *)
  Definition called (tr : list (ck_question T K * ck_answer K)) : list T :=
    omap (λ e, match e.1 with CachedKey a => Some a | _ => None end) tr.
  Lemma called_app tr1 tr2 : called (tr1 ++ tr2) = called tr1 ++ called tr2.
  Proof. apply omap_app. Qed.

  (** The pair [p] holds an answered key and the position it belongs to. *)
  Definition keyed l (p : K * nat) : Prop :=
    ∃ a, l !! p.2 = Some a ∧ ok (CachedKey a) (CKeyIs p.1).

  (** A panicking call. *)
  Definition panicking (q : ck_question T K) (r : ck_answer K) : Prop :=
    match q with
    | CachedKey _ => ∀ k, r ≠ CKeyIs k
    | SortPairs _ => ∀ v, r ≠ SortedTo v
    | Pick _ => False
    end.
  Definition some_panic (tr : list (ck_question T K * ck_answer K)) : Prop :=
    ∃ q r, (q, r) ∈ tr ∧ ok q r ∧ panicking q r.
  Lemma some_panic_app tr1 tr2 : some_panic tr1 → some_panic (tr1 ++ tr2).
  Proof. intros (q & r & Hin & ?). exists q, r. split; [|done]. apply elem_of_app. by left. Qed.
  Lemma some_panic_last tr q r : ok q r → panicking q r → some_panic (tr ++ [(q, r)]).
  Proof. intros. exists q, r. split; [|done]. apply elem_of_app. right. by left. Qed.

  Lemma par_collect_keys_spec w n todo acc pk cnt tr l :
    n = length l → (N.of_nat n <= width_count c w)%N → length todo = cnt →
    Forall (λ i, i < n) todo →
    (pk = false → todo ++ acc.*2 ≡ₚ seq 0 n ∧ Forall (keyed l) acc ∧
       called tr ≡ₚ pick_all l acc.*2) →
    (pk = true → some_panic tr) →
    wpg (log_ans ok) (par_collect_keys c w n todo acc pk cnt)
      (λ v tr' l', l' = l ∧ v.*2 ≡ₚ seq 0 n ∧ Forall (keyed l) v ∧ called tr' ≡ₚ l)
      (λ e tr' l', l' = l ∧ e = UserPanic ∧ some_panic tr')
      tr l.
  Proof.
    intros Hn Hw. revert todo acc pk tr. induction cnt as [|cnt IH]; intros todo acc pk tr Hcnt Htodo Hinv Hpk.
    - simpl. destruct pk; [apply wpg_throw; auto|]. apply wpg_ret.
      destruct (Hinv eq_refl) as (H1 & H2 & H3). destruct todo; [|done]. simpl in H1.
      split_and!; [done|done|done|]. rewrite H3, (pick_all_perm _ _ _ H1), Hn. by rewrite pick_all_seq.
    - cbn [par_collect_keys]. apply wpg_ask. intros r tr1 [Hr ->].
      destruct (match r with Picked a b c => (a, b, c) | _ => (0, 0, false) end) as [[wh pl] st] eqn:Hpick.
      destruct (pk && st) eqn:Hstop.
      { apply wpg_throw. apply andb_true_iff in Hstop as [-> _]. auto using some_panic_app. }
      assert (Hj : wh `mod` length todo < length todo) by (apply Nat.mod_upper_bound; lia).
      set (j := wh `mod` length todo) in *.
      destruct (lookup_lt_is_Some_2 todo j Hj) as [i Hi]. rewrite Hi.
      assert (Hin : i < n). { rewrite Forall_lookup in Htodo. eauto. }
      apply wpg_bind, wpg_uget; [done|lia|]. intros a Ha.
      assert (Hdel : todo ≡ₚ i :: delete j todo) by (by apply delete_Permutation).
      assert (Hlen : length (delete j todo) = cnt) by (rewrite length_delete; [lia|eauto]).
      assert (Hf : Forall (λ i, i < n) (delete j todo)).
      { rewrite Hdel in Htodo. by apply Forall_cons in Htodo as [_ ?]. }
      apply wpg_ask. intros r' tr2 [Hr' ->].
      destruct r' as [k|v'|a' b' c'|]; 
        try (apply IH; [done|done|done|]; intros _; by apply some_panic_last).
      apply IH; [done|done| |auto using some_panic_app]. intros ->. destruct (Hinv eq_refl) as (H1 & H2 & H3).
      rewrite (cast_small c w n i Hw) by done.
      set (p := pl `mod` S (length acc)).
      assert (Hacc : take p acc ++ (k, i) :: drop p acc ≡ₚ (k, i) :: acc).
      { rewrite <-Permutation_middle. by rewrite take_drop. }
      split_and!.
      + rewrite <-H1, Hacc. rewrite fmap_cons, <-Permutation_middle.
        apply (Permutation_app_tail acc.*2 (l:=i :: delete j todo)). by symmetry.
      + rewrite Hacc. constructor; [|done]. exists a. done.
      + rewrite !called_app, H3.
        replace (called [(Pick (length todo), r)]) with (@nil T) by done.
        rewrite app_nil_r. unfold pick_all. rewrite Hacc. cbn. rewrite Ha. cbn.
        by rewrite Permutation_app_comm.
  Qed.

  Lemma par_sort_by_cached_key_spec sz l :
    (∀ v v', ok (SortPairs v) (SortedTo v') → v ≡ₚ v') →
    length_fits c (length l) → 2 ≤ length l →
    wpg (log_ans ok) (par_sort_by_cached_key c sz (length l))
      (λ _ tr l', ∃ v v', v.*2 ≡ₚ seq 0 (length l) ∧ Forall (keyed l) v ∧
         called tr ≡ₚ l ∧ ok (SortPairs v) (SortedTo v') ∧ l' = pick_all l v'.*2)
      (λ e tr l', l' = l ∧ e = UserPanic ∧ some_panic tr)
      [] l.
  Proof.
    intros Hsort Hfit Hn. unfold par_sort_by_cached_key.
    rewrite (proj2 (Nat.ltb_ge _ _)) by lia. unfold par_sort_by_key_macro.
    apply wpg_bind. wpg_apply par_collect_keys_spec.
    - done.
    - by apply choose_width_fits.
    - by rewrite seq_length.
    - apply Forall_forall. intros i Hi. apply elem_of_seq in Hi. lia.
    - intros _. simpl. rewrite app_nil_r. done.
    - done.
    - simpl. intros v tr l' _ (-> & Hv & Hk & Hc).
      apply wpg_bind. unfold sort_pairs. apply wpg_ask. intros r tr1 [Hr ->].
      destruct r as [k|v'|w' p s|]; 
        try (apply wpg_throw; split_and!; [done..|]; by apply some_panic_last).
      apply wpg_ret. apply permute_start.
      + by rewrite <-(Hsort _ _ Hr).
      + exists v, v'. rewrite called_app, Hc, app_nil_r. done.
    - simpl. auto.
  Qed.
End parallel.
