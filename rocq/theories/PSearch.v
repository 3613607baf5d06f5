(** * Proofs about MSearch.v. *)
From Verif Require Export Ghost MSearch.
From stdpp Require Import list.

(** Sorted arrays are monotone for every needle. *)
Lemma sorted_monotone {K} (cmp : K → K → comparison) (l : list K) x :
  ord_compare cmp → sorted_wrt (is_lt cmp) l → monotone (λ p, cmp p x) l.
Proof.
  intros [Hopp Hswo] Hs. induction Hs as [|a l Hs IH Ha].
  { by exists [], [], []. }
  destruct IH as (l1 & l2 & l3 & -> & H1 & H2 & H3).
  assert (Hle : ∀ b, b ∈ l1 ++ l2 ++ l3 → is_lt cmp b a = false).
  { intros b Hb. exact (proj1 (Forall_forall _ _) Ha b Hb). }
  assert (Htot : ∀ p q, is_lt cmp q p = false → cmp p q = Lt ∨ cmp p q = Eq).
  { intros p q. unfold is_lt. rewrite (Hopp p q). destruct (cmp p q); simpl; auto. done. }
  assert (Hnl : ∀ p q, cmp p q ≠ Lt ↔ is_lt cmp p q = false).
  { intros p q. unfold is_lt. destruct (cmp p q); naive_solver. }
  assert (Hgt : ∀ p q, cmp p q = Gt ↔ is_lt cmp q p = true).
  { intros p q. unfold is_lt. rewrite (Hopp p q). destruct (cmp p q); naive_solver. }
  destruct (cmp a x) eqn:Hax.
  - (* no earlier smaller element is possible *)
    assert (l1 = []) as ->.
    { destruct l1 as [|b l1]; [done|exfalso]. apply Forall_cons in H1 as [Hb _].
      specialize (Hle b ltac:(by left)).
      assert (is_lt cmp b x = true) by (unfold is_lt; by rewrite Hb).
      assert (is_lt cmp a x = false) by (unfold is_lt; by rewrite Hax).
      pose proof (swo_negtrans _ Hswo b a x Hle H0) as E. unfold is_lt in *. congruence. }
    exists [], (a :: l2), l3. repeat split; auto.
  - exists (a :: l1), l2, l3. repeat split; auto.
  - assert (∀ b, b ∈ l1 ++ l2 ++ l3 → cmp b x = Gt) as Hall.
    { intros b Hb. apply Hgt.
      destruct (is_lt cmp x b) eqn:Hxb; [done|exfalso].
      specialize (Hle b Hb).
      pose proof (swo_negtrans _ Hswo x b a Hxb Hle) as E.
      apply Hgt in Hax. unfold is_lt in *. congruence. }
    exists [], [], (a :: l1 ++ l2 ++ l3). repeat split; auto.
    constructor; [done|]. by apply Forall_forall.
Qed.

Section search.
  Context {T : Type} (c : cfg).
  Implicit Types (l : list T).

  (** What the log of a binary search proves about its result. *)
  Definition search_post (l : list T) (r : search_result) (tr : list (T * option comparison)) : Prop :=
    match r with
    | Found i => ∃ x tr0, l !! i = Some x ∧ tr = tr0 ++ [(x, Some Eq)]
    | Missing i =>
        i ≤ length l ∧ Forall (λ e, e.2 = Some Lt ∨ e.2 = Some Gt) tr ∧
        (i = 0 ∨ ∃ x, l !! (i - 1) = Some x ∧ (x, Some Lt) ∈ tr) ∧
        (i = length l ∨ ∃ x, l !! i = Some x ∧ (x, Some Gt) ∈ tr)
    end.

  Lemma bs_loop_spec ok fuel n k left right tr l :
    n = length l → left ≤ right → right ≤ n → right - left < fuel → right - left < 2 ^ k →
    Forall (λ e, e.2 = Some Lt ∨ e.2 = Some Gt) tr →
    Forall (λ e, ok e.1 e.2) tr →
    (left = 0 ∨ ∃ x, l !! (left - 1) = Some x ∧ (x, Some Lt) ∈ tr) →
    (right = length l ∨ ∃ x, l !! right = Some x ∧ (x, Some Gt) ∈ tr) →
    wpg (log_ans ok) (binary_search_loop c fuel n (right - left) left right)
      (λ r tr' l', l' = l ∧ Forall (λ e, ok e.1 e.2) tr' ∧
                   length tr' ≤ length tr + k ∧ search_post l r tr')
      (λ e tr' l', l' = l ∧ Forall (λ e, ok e.1 e.2) tr' ∧ e = UserPanic ∧
                   length tr' ≤ length tr + k ∧
                   ∃ x tr0, tr' = tr0 ++ [(x, None)] ∧ x ∈ l)
      tr l.
  Proof.
    intros Hn. revert k left right tr.
    induction fuel as [|f IH]; intros k left right tr Hlr Hrn Hf Hk Htr Hok Hl Hr; [lia|]. simpl.
    destruct (Nat.ltb_spec left right) as [Hlt|Hge].
    2: { apply wpg_bind, wpg_dassert; [apply Nat.leb_le; lia|]. apply wpg_ret.
         split; [done|]. split; [done|]. split; [lia|]. simpl. assert (left = right) as -> by lia.
         split; [lia|]. done. }
    pose proof (Nat.div_mod (right - left) 2 ltac:(lia)) as Hdm.
    pose proof (Nat.mod_upper_bound (right - left) 2 ltac:(lia)) as Hmu.
    set (h := (right - left) / 2) in *.
    destruct k as [|k].
    { simpl in Hk. lia. }
    rewrite Nat.pow_succ_r' in Hk.
    apply wpg_bind, wpg_uget; [lia|lia|]. intros x Hx.
    assert (Hxl : x ∈ l) by (by eapply elem_of_list_lookup_2).
    apply wpg_ask. intros r tr' [Hr' ->].
    assert (Hok' : Forall (λ e, ok e.1 e.2) (tr ++ [(x, r)])).
    { apply Forall_app. split; [done|]. by repeat constructor. }
    destruct r as [cmp|].
    2: { apply wpg_throw. split; [done|]. split; [done|]. split; [done|]. rewrite app_length. simpl.
         split; [lia|]. eauto. }
    destruct cmp.
    - apply wpg_bind, wpg_dassert; [apply Nat.ltb_lt; lia|]. apply wpg_ret.
      split; [done|]. split; [done|]. rewrite app_length. split; [simpl; lia|]. simpl. eauto.
    - apply wpg_bind, wpg_usub; [lia|].
      eapply wpg_mono; [apply (IH k (left + h + 1) right (tr ++ [(x, Some Lt)]))| |];
        [lia|lia|lia|lia| |done| | | |].
      + apply Forall_app. split; [done|]. constructor; [by left|constructor].
      + right. exists x. replace (left + h + 1 - 1) with (left + h) by lia.
        split; [done|]. apply elem_of_app. right. by left.
      + destruct Hr as [?|(y & Hy & Hin)]; [by left|right]. exists y. split; [done|].
        apply elem_of_app. by left.
      + intros r tr2 l' _ (-> & Hok2 & Hlen & Hp). rewrite app_length in Hlen. simpl in Hlen.
        split; [done|]. split; [done|]. split; [lia|done].
      + intros e tr2 l' _ (-> & Hok2 & -> & Hlen & Hp). rewrite app_length in Hlen. simpl in Hlen.
        split; [done|]. split; [done|]. split; [done|]. split; [lia|done].
    - apply wpg_bind, wpg_usub; [lia|].
      eapply wpg_mono; [apply (IH k left (left + h) (tr ++ [(x, Some Gt)]))| |];
        [lia|lia|lia|lia| |done| | | |].
      + apply Forall_app. split; [done|]. constructor; [by right|constructor].
      + destruct Hl as [?|(y & Hy & Hin)]; [by left|right]. exists y. split; [done|].
        apply elem_of_app. by left.
      + right. exists x. split; [done|]. apply elem_of_app. right. by left.
      + intros r tr2 l' _ (-> & Hok2 & Hlen & Hp). rewrite app_length in Hlen. simpl in Hlen.
        split; [done|]. split; [done|]. split; [lia|done].
      + intros e tr2 l' _ (-> & Hok2 & -> & Hlen & Hp). rewrite app_length in Hlen. simpl in Hlen.
        split; [done|]. split; [done|]. split; [done|]. split; [lia|done].
  Qed.

  Lemma bit_length_pow n : n < 2 ^ bit_length n.
  Proof.
    unfold bit_length. destruct n as [|n]; [simpl; lia|].
    apply (Nat.log2_spec (S n)). lia.
  Qed.

  (** ** Any closure. *)
  Lemma binary_search_by_any {S} (o : S → T → option comparison * S) s l :
    ∃ r s' tr,
      run (logged o) (binary_search_by c (length l)) (s, []) l = (r, (s', tr), l) ∧
      length tr ≤ bit_length (length l) ∧
      match r with
      | Done (Found i) => ∃ x tr0, l !! i = Some x ∧ tr = tr0 ++ [(x, Some Eq)]
      | Done (Missing i) =>
          i ≤ length l ∧ Forall (λ e, e.2 = Some Lt ∨ e.2 = Some Gt) tr ∧
          (i = 0 ∨ ∃ x, l !! (i - 1) = Some x ∧ (x, Some Lt) ∈ tr) ∧
          (i = length l ∨ ∃ x, l !! i = Some x ∧ (x, Some Gt) ∈ tr)
      | Panicked e => e = UserPanic ∧ ∃ x tr0, tr = tr0 ++ [(x, None)] ∧ x ∈ l
      | _ => False
      end.
  Proof.
    pose proof (bs_loop_spec (λ _ _, True) (Datatypes.S (length l)) (length l) (bit_length (length l))
      0 (length l) [] l eq_refl ltac:(lia) ltac:(lia) ltac:(lia)) as H.
    rewrite Nat.sub_0_r in H.
    specialize (H (bit_length_pow _) ltac:(constructor) ltac:(constructor) ltac:(by left) ltac:(by left)).
    eapply (wpg_run_logged _ o _ _ _ s l) in H; [|done].
    unfold binary_search_by.
    destruct (run (logged o) _ _ _) as [[[[i|i]|e| |] [s' tr]] l']; try done.
    - destruct H as (-> & _ & Hlen & Hp). simpl in *. by eexists _, s', tr.
    - destruct H as (-> & _ & Hlen & Hp). simpl in *. by eexists _, s', tr.
    - destruct H as (-> & _ & -> & Hlen & Hp). simpl in *. by eexists _, s', tr.
  Qed.

  (** A pure closure. *)
  Definition pure_fun {Q R} (f : Q → R) : unit → Q → option R * unit := λ s q, (Some (f q), s).

  Lemma monotone_lookup (f : T → comparison) l i j x y :
    monotone f l → i ≤ j → l !! i = Some x → l !! j = Some y →
    (f y = Lt → f x = Lt) ∧ (f x = Gt → f y = Gt).
  Proof.
    intros (l1 & l2 & l3 & -> & H1 & H2 & H3) Hij Hx Hy.
    assert (Hreg : ∀ k z, (l1 ++ l2 ++ l3) !! k = Some z →
      (k < length l1 ∧ f z = Lt) ∨
      (length l1 ≤ k < length l1 + length l2 ∧ f z = Eq) ∨
      (length l1 + length l2 ≤ k ∧ f z = Gt)).
    { intros k z Hz. destruct (decide (k < length l1)).
      - left. split; [done|]. rewrite lookup_app_l in Hz by done.
        exact (Forall_lookup_1 _ _ _ _ H1 Hz).
      - rewrite lookup_app_r in Hz by lia.
        destruct (decide (k < length l1 + length l2)).
        + right; left. split; [lia|]. rewrite lookup_app_l in Hz by lia.
          exact (Forall_lookup_1 _ _ _ _ H2 Hz).
        + right; right. split; [lia|]. rewrite lookup_app_r in Hz by lia.
          exact (Forall_lookup_1 _ _ _ _ H3 Hz). }
    destruct (Hreg _ _ Hx) as [[? ->]|[[? ->]|[? ->]]], (Hreg _ _ Hy) as [[? ->]|[[? ->]|[? ->]]];
      split; intros ?; try done; lia.
  Qed.

  Definition found_or_gap (f : T → comparison) (l : list T) (r : search_result) : Prop :=
    match r with
    | Found i => ∃ x, l !! i = Some x ∧ f x = Eq
    | Missing i =>
        i ≤ length l ∧ Forall (λ x, f x = Lt) (take i l) ∧ Forall (λ x, f x = Gt) (drop i l)
    end.

  Lemma binary_search_by_monotone (f : T → comparison) l :
    monotone f l →
    ∃ r, run (pure_fun f) (binary_search_by c (length l)) tt l = (Done r, tt, l) ∧
         found_or_gap f l r.
  Proof.
    intros Hm.
    pose proof (bs_loop_spec (λ x r, r = Some (f x)) (Datatypes.S (length l)) (length l)
      (bit_length (length l)) 0 (length l) [] l eq_refl ltac:(lia) ltac:(lia) ltac:(lia)) as H.
    rewrite Nat.sub_0_r in H.
    specialize (H (bit_length_pow _) ltac:(constructor) ltac:(constructor) ltac:(by left) ltac:(by left)).
    rewrite (run_logged _ _ tt []).
    eapply (wpg_run_logged _ (pure_fun f) _ _ _ tt l) in H; [|done].
    unfold binary_search_by.
    destruct (run (logged (pure_fun f)) _ _ _) as [[[r|e| |] [[] tr]] l']; try done.
    2: { destruct H as (_ & Hpf & _ & _ & x & tr0 & -> & _).
         apply Forall_app in Hpf as [_ Hpf]. apply Forall_cons in Hpf as [Hpf _]. done. }
    destruct H as (-> & Hpf & _ & Hp). exists r. split; [done|].
    destruct r as [i|i]; simpl in *.
    - destruct Hp as (x & tr0 & Hx & ->). exists x. split; [done|].
      apply Forall_app in Hpf as [_ Hpf]. apply Forall_cons in Hpf as [Hpf _]. simpl in Hpf. congruence.
    - destruct Hp as (Hi & _ & Hl & Hr). split; [done|]. split.
      + apply Forall_lookup. intros j y Hy.
        assert (Hji : j < i).
        { apply lookup_lt_Some in Hy. rewrite take_length in Hy. lia. }
        rewrite lookup_take in Hy by done.
        destruct Hl as [->|(x & Hx & Hin)]; [lia|].
        rewrite Forall_forall in Hpf. specialize (Hpf _ Hin). simpl in Hpf.
        eapply (monotone_lookup f l j (i - 1)); [done|lia|done|exact Hx|congruence].
      + apply Forall_lookup. intros j y Hy. rewrite lookup_drop in Hy.
        destruct Hr as [->|(x & Hx & Hin)].
        { apply lookup_lt_Some in Hy. lia. }
        rewrite Forall_forall in Hpf. specialize (Hpf _ Hin). simpl in Hpf.
        eapply (monotone_lookup f l i (i + j)); [done|lia|exact Hx|done|congruence].
  Qed.

  Lemma run_binary_search (cmp : T → T → comparison) x n l :
    run (pure_compare cmp) (binary_search c n x) tt l =
    run (pure_fun (λ p, cmp p x)) (binary_search_by c n) tt l.
  Proof. unfold binary_search. apply run_with_asks. done. Qed.

  Lemma binary_search_sorted (cmp : T → T → comparison) x l :
    ord_compare cmp → sorted_wrt (is_lt cmp) l →
    ∃ r, run (pure_compare cmp) (binary_search c (length l) x) tt l = (Done r, tt, l) ∧
         found_or_gap (λ p, cmp p x) l r.
  Proof.
    intros Ho Hs. rewrite run_binary_search. apply binary_search_by_monotone.
    by apply sorted_monotone.
  Qed.

  (** ... and with a key function. *)
  Definition pure_keyc {K} (f : T → K) (cmp : K → K → comparison) :
      unit → keyc_question K → keyc_answer K * unit :=
    λ s q, (match q with KeyOfC a => CKey (f a) | KeyCmp k1 k2 => COrd (cmp k1 k2) end, s).

  (** The closure of [binary_search_by] that a key closure amounts to. *)
  Definition cmp_of_keyc {S K} (b : K) (o : S → keyc_question K → keyc_answer K * S) :
      S → T → option comparison * S :=
    λ s k,
      match o s (KeyOfC k) with
      | (CKey kk, s1) =>
          match o s1 (KeyCmp kk b) with
          | (COrd v, s2) => (Some v, s2)
          | (_, s2) => (None, s2)
          end
      | (_, s1) => (None, s1)
      end.
  Lemma run_binary_search_by_key {S K} (o : S → keyc_question K → keyc_answer K * S) b n s l :
    run o (binary_search_by_key c n b) s l = run (cmp_of_keyc b o) (binary_search_by c n) s l.
  Proof.
    unfold binary_search_by_key. apply run_with_asks. intros k s' l'. cbn.
    unfold cmp_of_keyc. destruct (o s' (KeyOfC k)) as [[kk| |] s1]; cbn; try done.
    by destruct (o s1 (KeyCmp kk b)) as [[?|?|] s2].
  Qed.

  Lemma binary_search_by_key_sorted {K} (f : T → K) (cmp : K → K → comparison) b l :
    ord_compare cmp → sorted_wrt (λ x y, is_lt cmp (f x) (f y)) l →
    ∃ r, run (pure_keyc f cmp) (binary_search_by_key c (length l) b) tt l = (Done r, tt, l) ∧
         found_or_gap (λ p, cmp (f p) b) l r.
  Proof.
    intros Ho Hs. rewrite run_binary_search_by_key.
    rewrite (run_ext _ (pure_fun (λ p, cmp (f p) b))) by done.
    apply binary_search_by_monotone.
    (* a list of keys is sorted *)
    assert (Hm : ∀ l, sorted_wrt (λ x y, is_lt cmp (f x) (f y)) l →
                 monotone (λ p, cmp (f p) b) l); [|by apply Hm].
    clear l Hs. intros l Hs.
    assert (Hkeys : sorted_wrt (is_lt cmp) (f <$> l)).
    { induction Hs as [|a l Hs IH Ha]; simpl; constructor; [done|]. by apply Forall_fmap. }
    pose proof (sorted_monotone cmp _ b Ho Hkeys) as Hmk.
    destruct Hmk as (l1 & l2 & l3 & Heq & H1 & H2 & H3).
    apply fmap_app_inv in Heq as (m1 & m' & -> & Heq & ->).
    symmetry in Heq. apply fmap_app_inv in Heq as (m2 & m3 & -> & -> & ->).
    exists m1, m2, m3. rewrite !Forall_fmap in *. done.
  Qed.

  (** ** partition_point *)
  Definition cmp_of_pred {S} (o : S → T → option bool * S) : S → T → option comparison * S :=
    λ s x, let '(r, s') := o s x in
      (match r with Some true => Some Lt | Some false => Some Gt | None => None end, s').
  Lemma run_partition_point {S} (o : S → T → option bool * S) n s l :
    run o (partition_point c n) s l =
      match run (cmp_of_pred o) (binary_search_by c n) s l with
      | (Done (Found i), s', l') => (Done i, s', l')
      | (Done (Missing i), s', l') => (Done i, s', l')
      | (Panicked e, s', l') => (Panicked e, s', l')
      | (Undefined, s', l') => (Undefined, s', l')
      | (Diverged, s', l') => (Diverged, s', l')
      end.
  Proof.
    unfold partition_point. rewrite run_bind.
    rewrite (run_with_asks _ (cmp_of_pred o) o).
    - by destruct (run (cmp_of_pred o) _ s l) as [[[[]|e| |] s'] l'].
    - intros q s' l'. cbn. unfold cmp_of_pred. by destruct (o s' q).
  Qed.

  Lemma partition_point_prefix (pred : T → bool) l1 l2 :
    Forall (λ x, pred x = true) l1 → Forall (λ x, pred x = false) l2 →
    run (pure_fun pred) (partition_point c (length (l1 ++ l2))) tt (l1 ++ l2) =
      (Done (length l1), tt, l1 ++ l2).
  Proof.
    intros H1 H2. rewrite run_partition_point.
    rewrite (run_ext _ (pure_fun (λ x, if pred x then Lt else Gt))).
    2: { intros s q. unfold cmp_of_pred, pure_fun. by destruct (pred q). }
    destruct (binary_search_by_monotone (λ x, if pred x then Lt else Gt) (l1 ++ l2)) as (r & -> & Hr).
    { exists l1, [], l2. repeat split; auto; eapply Forall_impl;
        [exact H1| |exact H2|]; intros x Hx; simpl in Hx; by rewrite Hx. }
    destruct r as [i|i]; simpl in Hr.
    - destruct Hr as (x & _ & Hx). by destruct (pred x).
    - destruct Hr as (Hi & Hlo & Hhi). do 3 f_equal.
      assert (Hlk : ∀ j x, (l1 ++ l2) !! j = Some x → (j < length l1 ↔ pred x = true)).
      { intros j x Hx. destruct (decide (j < length l1)).
        - rewrite lookup_app_l in Hx by done. pose proof (Forall_lookup_1 _ _ _ _ H1 Hx) as E.
          simpl in E. rewrite E. done.
        - rewrite lookup_app_r in Hx by lia. pose proof (Forall_lookup_1 _ _ _ _ H2 Hx) as E.
          simpl in E. rewrite E. split; [lia|done]. }
      destruct (Nat.lt_trichotomy i (length l1)) as [Hlt|[->|Hgt]]; [exfalso|done|exfalso].
      + destruct (lookup_lt_is_Some_2 (l1 ++ l2) i) as [x Hx]; [rewrite app_length; lia|].
        assert (Hd : drop i (l1 ++ l2) !! 0 = Some x) by (by rewrite lookup_drop, Nat.add_0_r).
        pose proof (Forall_lookup_1 _ _ _ _ Hhi Hd) as E. simpl in E.
        apply Hlk in Hx. rewrite (proj1 Hx Hlt) in E. done.
      + destruct (lookup_lt_is_Some_2 (l1 ++ l2) (length l1)) as [x Hx]; [lia|].
        assert (Hd : take i (l1 ++ l2) !! length l1 = Some x) by (by rewrite lookup_take).
        pose proof (Forall_lookup_1 _ _ _ _ Hlo Hd) as E. simpl in E.
        apply Hlk in Hx. destruct (pred x); [|done]. lia.
  Qed.

  Lemma partition_point_any {S} (o : S → T → option bool * S) s l :
    ∃ r s', run o (partition_point c (length l)) s l = (r, s', l) ∧
      ((∃ i, r = Done i ∧ i ≤ length l) ∨ r = Panicked UserPanic).
  Proof.
    rewrite run_partition_point. rewrite (run_logged _ _ s []).
    destruct (binary_search_by_any (cmp_of_pred o) s l) as (r & s' & tr & -> & _ & Hr).
    destruct r as [[i|i]|e| |]; try done.
    - destruct Hr as (x & tr0 & Hx & _). eexists _, s'. split; [done|]. left. eexists. split; [done|].
      apply lookup_lt_Some in Hx. lia.
    - destruct Hr as (Hi & _). eexists _, s'. split; [done|]. left. eauto.
    - destruct Hr as (-> & _). eauto.
  Qed.

  (** ** Scans: [contains] and [is_sorted]. *)
  (** The questions of a scan are a prefix of [qs]; all answers but the last are
      [Some go]; the scan stops at the first other answer. *)
  Definition scan_post (go : bool) (qs : list (T * T)) (r : bool + exn)
      (tr : list ((T * T) * option bool)) : Prop :=
    match r with
    | inl b =>
        if Bool.eqb b go
        then tr = (λ q, (q, Some go)) <$> qs
        else ∃ qs1 q qs2, qs = qs1 ++ q :: qs2 ∧
               tr = ((λ q, (q, Some go)) <$> qs1) ++ [(q, Some (negb go))]
    | inr e =>
        e = UserPanic ∧ ∃ qs1 q qs2, qs = qs1 ++ q :: qs2 ∧
               tr = ((λ q, (q, Some go)) <$> qs1) ++ [(q, None)]
    end.

  Lemma lookup_neighbours l i a b :
    l !! i = Some a → l !! S i = Some b → neighbours l !! i = Some (a, b).
  Proof.
    intros Ha Hb. unfold neighbours. apply lookup_zip_with_Some.
    exists a, b. split; [done|]. split; [done|]. by destruct l.
  Qed.
  Lemma neighbours_length l : length (neighbours l) = length l - 1.
  Proof.
    unfold neighbours. destruct l as [|a l]; [done|]. rewrite zip_with_length. simpl length. lia.
  Qed.

  Lemma contains_loop_spec ok x l i cnt :
    i + cnt = length l →
    wpg (log_ans ok) (contains_loop (length l) x i cnt)
      (λ b tr' l', l' = l ∧ scan_post false ((λ a, (a, x)) <$> l) (inl b) tr')
      (λ e tr' l', l' = l ∧ scan_post false ((λ a, (a, x)) <$> l) (inr e) tr')
      ((λ q, (q, Some false)) <$> take i ((λ a, (a, x)) <$> l)) l.
  Proof.
    revert i. induction cnt as [|cnt IH]; intros i Hi; simpl.
    - apply wpg_ret. split; [done|]. simpl.
      rewrite take_ge by (rewrite fmap_length; lia). done.
    - apply wpg_bind, wpg_uget; [lia|done|]. intros a Ha.
      assert (Hq : ((λ a, (a, x)) <$> l) !! i = Some (a, x)) by (by rewrite list_lookup_fmap, Ha).
      apply wpg_bind, wpg_is_less.
      + intros [] tr' [_ ->].
        * apply wpg_ret. split; [done|]. simpl.
          eexists _, _, _. split; [symmetry; by apply take_drop_middle|done].
        * specialize (IH (S i) ltac:(lia)). rewrite (take_S_r _ _ _ Hq), fmap_app in IH. exact IH.
      + intros tr' [_ ->]. split; [done|]. split; [done|].
        eexists _, _, _. split; [symmetry; by apply take_drop_middle|done].
  Qed.

  Lemma is_sorted_loop_spec ok l i cnt :
    S i + cnt = length l →
    wpg (log_ans ok) (is_sorted_loop (length l) (S i) cnt)
      (λ b tr' l', l' = l ∧ scan_post true (neighbours l) (inl b) tr')
      (λ e tr' l', l' = l ∧ scan_post true (neighbours l) (inr e) tr')
      ((λ q, (q, Some true)) <$> take i (neighbours l)) l.
  Proof.
    revert i. induction cnt as [|cnt IH]; intros i Hi; simpl.
    - apply wpg_ret. split; [done|]. simpl.
      rewrite take_ge by (rewrite neighbours_length; lia). done.
    - apply wpg_bind, wpg_usub; [lia|]. rewrite Nat.sub_succ, Nat.sub_0_r.
      apply wpg_bind, wpg_get; [lia|done|]. intros a Ha.
      apply wpg_bind, wpg_get; [lia|done|]. intros b Hb.
      pose proof (lookup_neighbours _ _ _ _ Ha Hb) as Hq.
      apply wpg_bind, wpg_is_less.
      + intros [] tr' [_ ->].
        * specialize (IH (S i) ltac:(lia)). rewrite (take_S_r _ _ _ Hq), fmap_app in IH. exact IH.
        * apply wpg_ret. split; [done|]. simpl.
          eexists _, _, _. split; [symmetry; by apply take_drop_middle|done].
      + intros tr' [_ ->]. split; [done|]. split; [done|].
        eexists _, _, _. split; [symmetry; by apply take_drop_middle|done].
  Qed.

  (** [r] is the outcome of a left-to-right scan of the questions [qs] with call
      log [tr]. *)
  Definition scan_outcome (go : bool) (qs : list (T * T)) (r : outcome bool)
      (tr : list ((T * T) * option bool)) : Prop :=
    match r with
    | Done b =>
        if Bool.eqb b go
        then tr = (λ q, (q, Some go)) <$> qs
        else ∃ qs1 q qs2, qs = qs1 ++ q :: qs2 ∧
               tr = ((λ q, (q, Some go)) <$> qs1) ++ [(q, Some (negb go))]
    | Panicked e =>
        e = UserPanic ∧ ∃ qs1 q qs2, qs = qs1 ++ q :: qs2 ∧
               tr = ((λ q, (q, Some go)) <$> qs1) ++ [(q, None)]
    | _ => False
    end.

  Lemma contains_scan {S} (o : S → T * T → option bool * S) s x l :
    ∃ r s' tr, run (logged o) (contains (length l) x) (s, []) l = (r, (s', tr), l) ∧
      scan_outcome false ((λ a, (a, x)) <$> l) r tr.
  Proof.
    pose proof (contains_loop_spec (λ _ _, True) x l 0 (length l) eq_refl) as H.
    rewrite take_0 in H. simpl in H.
    eapply (wpg_run_logged _ o _ _ _ s l) in H; [|done]. unfold contains.
    destruct (run (logged o) _ _ _) as [[[b|e| |] [s' tr]] l']; try done;
      destruct H as [-> H]; by eexists _, s', tr.
  Qed.

  Lemma is_sorted_scan {S} (o : S → T * T → option bool * S) s l :
    ∃ r s' tr, run (logged o) (is_sorted_by (length l)) (s, []) l = (r, (s', tr), l) ∧
      scan_outcome true (neighbours l) r tr.
  Proof.
    destruct l as [|a l].
    { by eexists _, s, []. }
    pose proof (is_sorted_loop_spec (λ _ _, True) (a :: l) 0 (length l) eq_refl) as H.
    rewrite take_0 in H. simpl in H.
    eapply (wpg_run_logged _ o _ _ _ s (a :: l)) in H; [|done].
    unfold is_sorted_by, is_sorted. simpl length. rewrite Nat.sub_succ, Nat.sub_0_r.
    destruct (run (logged o) _ _ _) as [[[b|e| |] [s' tr]] l']; try done;
      destruct H as [-> H]; by eexists _, s', tr.
  Qed.

  (** The log of a pure closure holds its values. *)
  Lemma run_logged_pure {Q R A} (f : Q → R) (p : prog T Q (option R) A) tr l :
    Forall (λ e, e.2 = Some (f e.1)) tr →
    match run (logged (pure_fun f)) p (tt, tr) l with
    | (_, (_, tr'), _) => Forall (λ e, e.2 = Some (f e.1)) tr'
    end.
  Proof.
    revert tr l.
    induction p as [A a|A e|A i k IH|A i x k IH|A q k IH|A B C p1 IH1 p2 IH2 k IH| |];
      intros tr l Htr; simpl; try done.
    - destruct (l !! i); [|done]. by apply IH.
    - case_decide; [|done]. by apply IH.
    - apply IH. apply Forall_app. split; [done|]. by repeat constructor.
    - specialize (IH1 tr l Htr).
      destruct (run (logged (pure_fun f)) p1 (tt, tr) l) as [[[b|e1| |] [[] tr1]] l1]; try done;
        specialize (IH2 tr1 l1 IH1);
        destruct (run (logged (pure_fun f)) p2 (tt, tr1) l1) as [[[d|e2| |] [[] tr2]] l2]; try done;
        by apply IH.
  Qed.

  Lemma scan_pure (f : T → T → bool) go qs r tr :
    scan_outcome go qs r tr → Forall (λ e, e.2 = Some (f e.1.1 e.1.2)) tr →
    ∃ b, r = Done b ∧ (b = go ↔ Forall (λ q, f q.1 q.2 = go) qs).
  Proof.
    intros Hs Hf. destruct r as [b|e| |]; simpl in Hs; try done.
    - exists b. split; [done|]. destruct (Bool.eqb b go) eqn:E.
      + apply Bool.eqb_prop in E as ->. split; [intros _|done].
        rewrite Hs in Hf. apply Forall_fmap in Hf.
        eapply Forall_impl; [exact Hf|]. intros q Hq. simpl in Hq. congruence.
      + destruct Hs as (qs1 & q & qs2 & -> & ->).
        apply Forall_app in Hf as [_ Hf]. apply Forall_cons in Hf as [Hf _]. simpl in Hf.
        split.
        * intros ->. by destruct go.
        * intros Hall. apply Forall_app in Hall as [_ Hall]. apply Forall_cons in Hall as [Hall _].
          rewrite Hall in Hf. by destruct go.
    - destruct Hs as (_ & qs1 & q & qs2 & -> & ->).
      apply Forall_app in Hf as [_ Hf]. apply Forall_cons in Hf as [Hf _]. done.
  Qed.

  Lemma run_pure_logged {A} (f : T → T → bool) (p : cmp_prog T A) l r s tr l' :
    run (logged (pure_less f)) p (tt, []) l = (r, (s, tr), l') →
    Forall (λ e, e.2 = Some (f e.1.1 e.1.2)) tr.
  Proof.
    intros Hr. pose proof (run_logged_pure (λ q, f q.1 q.2) p [] l ltac:(constructor)) as H.
    rewrite (run_ext _ (logged (pure_less f))) in H.
    - by rewrite Hr in H.
    - by intros [[] ?] [].
  Qed.

  Lemma contains_pure (eqf : T → T → bool) x l :
    ∃ b, run (pure_less eqf) (contains (length l) x) tt l = (Done b, tt, l) ∧
      (b = true ↔ ∃ a, a ∈ l ∧ eqf a x = true).
  Proof.
    destruct (contains_scan (pure_less eqf) tt x l) as (r & [] & tr & Hr & Hs).
    destruct (scan_pure eqf _ _ _ _ Hs (run_pure_logged _ _ _ _ _ _ _ Hr)) as (b & -> & Hb).
    exists b. rewrite (run_logged _ _ tt []), Hr. split; [done|].
    rewrite Forall_fmap in Hb. destruct b.
    - split; [intros _|done]. destruct (decide (Exists (λ a, eqf a x = true) l)) as [He|He].
      + by apply Exists_exists in He.
      + exfalso. assert (true = false); [|done]. apply Hb, Forall_forall. intros a Ha. simpl.
        destruct (eqf a x) eqn:E; [|done]. exfalso. apply He, Exists_exists. eauto.
    - split; [done|]. intros (a & Ha & He).
      pose proof (proj1 (Forall_forall _ _) (proj1 Hb eq_refl) a Ha) as E. simpl in E. congruence.
  Qed.

  Lemma neighbours_Forall (R : T → T → bool) l :
    Forall (λ q, R q.1 q.2 = true) (neighbours l) ↔
    ∀ i a b, l !! i = Some a → l !! S i = Some b → R a b = true.
  Proof.
    rewrite Forall_lookup. split.
    - intros H i a b Ha Hb. exact (H i (a, b) (lookup_neighbours _ _ _ _ Ha Hb)).
    - intros H i [a b] Hi. unfold neighbours in Hi.
      apply lookup_zip_with_Some in Hi as (a' & b' & [= <- <-] & Ha & Hb).
      simpl. apply (H i); [done|]. by destruct l.
  Qed.

  Lemma neighbours_sorted (R : T → T → bool) l :
    (∀ a b d, R a b = true → R b d = true → R a d = true) →
    Forall (λ q, R q.1 q.2 = true) (neighbours l) ↔
    ∀ i j a b, i < j → l !! i = Some a → l !! j = Some b → R a b = true.
  Proof.
    intros Htr. rewrite neighbours_Forall. split.
    - intros H i j a b Hij Ha. revert b. induction Hij as [|j Hij IH]; intros b Hb.
      + by apply (H i).
      + destruct (lookup_lt_is_Some_2 l j) as [d Hd].
        { apply lookup_lt_Some in Hb. lia. }
        eapply Htr; [by apply IH|]. by apply (H j).
    - intros H i a b Ha Hb. apply (H i (S i)); [lia|done|done].
  Qed.

  Lemma is_sorted_pure (le : T → T → bool) l :
    ∃ b, run (pure_less le) (is_sorted_by (length l)) tt l = (Done b, tt, l) ∧
      (b = true ↔ ∀ i x y, l !! i = Some x → l !! S i = Some y → le x y = true).
  Proof.
    destruct (is_sorted_scan (pure_less le) tt l) as (r & [] & tr & Hr & Hs).
    destruct (scan_pure le _ _ _ _ Hs (run_pure_logged _ _ _ _ _ _ _ Hr)) as (b & -> & Hb).
    exists b. rewrite (run_logged _ _ tt []), Hr. split; [done|].
    by rewrite <-neighbours_Forall.
  Qed.
  Lemma is_sorted_pure_transitive (le : T → T → bool) l :
    (∀ x y z, le x y = true → le y z = true → le x z = true) →
    ∃ b, run (pure_less le) (is_sorted_by (length l)) tt l = (Done b, tt, l) ∧
      (b = true ↔ ∀ i j x y, i < j → l !! i = Some x → l !! j = Some y → le x y = true).
  Proof.
    intros Htr. destruct (is_sorted_pure le l) as (b & Hr & Hb). exists b. split; [done|].
    rewrite Hb, <-neighbours_sorted by done. symmetry. apply neighbours_Forall.
  Qed.
End search.

(** The two forms of the specification of a binary search agree. *)
Lemma found_or_gap_exact {T} (f : T → comparison) l1 l2 l3 r :
  Forall (λ x, f x = Lt) l1 → Forall (λ x, f x = Eq) l2 → Forall (λ x, f x = Gt) l3 →
  found_or_gap f (l1 ++ l2 ++ l3) r →
  match r with
  | Found i => length l1 ≤ i < length l1 + length l2
  | Missing i => l2 = [] ∧ i = length l1
  end.
Proof.
  intros H1 H2 H3.
  assert (Hreg : ∀ k z, (l1 ++ l2 ++ l3) !! k = Some z →
      (k < length l1 ∧ f z = Lt) ∨
      (length l1 ≤ k < length l1 + length l2 ∧ f z = Eq) ∨
      (length l1 + length l2 ≤ k ∧ f z = Gt)).
  { intros k z Hz. destruct (decide (k < length l1)).
    - left. split; [done|]. rewrite lookup_app_l in Hz by done.
      exact (Forall_lookup_1 _ _ _ _ H1 Hz).
    - rewrite lookup_app_r in Hz by lia.
      destruct (decide (k < length l1 + length l2)).
      + right; left. split; [lia|]. rewrite lookup_app_l in Hz by lia.
        exact (Forall_lookup_1 _ _ _ _ H2 Hz).
      + right; right. split; [lia|]. rewrite lookup_app_r in Hz by lia.
        exact (Forall_lookup_1 _ _ _ _ H3 Hz). }
  destruct r as [i|i]; simpl.
  - intros (x & Hx & He). destruct (Hreg _ _ Hx) as [[? ?]|[[? ?]|[? ?]]]; [congruence|lia|congruence].
  - intros (Hi & Hlo & Hhi). rewrite !app_length in Hi.
    destruct (Nat.lt_trichotomy i (length l1)) as [Hlt|[->|Hgt]].
    + exfalso. destruct (lookup_lt_is_Some_2 (l1 ++ l2 ++ l3) i) as [x Hx]; [rewrite app_length; lia|].
      assert (Hd : drop i (l1 ++ l2 ++ l3) !! 0 = Some x) by (by rewrite lookup_drop, Nat.add_0_r).
      pose proof (Forall_lookup_1 _ _ _ _ Hhi Hd) as E. simpl in E.
      destruct (Hreg _ _ Hx) as [[? ?]|[[? ?]|[? ?]]]; [congruence|lia|lia].
    + split; [|done]. destruct l2 as [|x l2]; [done|exfalso].
      assert (Hx : (l1 ++ (x :: l2) ++ l3) !! length l1 = Some x).
      { rewrite lookup_app_r, Nat.sub_diag by lia. done. }
      assert (Hd : drop (length l1) (l1 ++ (x :: l2) ++ l3) !! 0 = Some x)
        by (by rewrite lookup_drop, Nat.add_0_r).
      pose proof (Forall_lookup_1 _ _ _ _ Hhi Hd) as E. simpl in E.
      apply Forall_cons in H2 as [H2 _]. congruence.
    + exfalso. destruct (lookup_lt_is_Some_2 (l1 ++ l2 ++ l3) (length l1)) as [x Hx].
      { rewrite !app_length. lia. }
      assert (Hd : take i (l1 ++ l2 ++ l3) !! length l1 = Some x) by (by rewrite lookup_take).
      pose proof (Forall_lookup_1 _ _ _ _ Hlo Hd) as E. simpl in E.
      destruct (Hreg _ _ Hx) as [[? ?]|[[? ?]|[? ?]]]; [lia|congruence|congruence].
Qed.

Lemma binary_search_by_exact {T} (c : cfg) (f : T → comparison) l1 l2 l3 :
  Forall (λ x, f x = Lt) l1 → Forall (λ x, f x = Eq) l2 → Forall (λ x, f x = Gt) l3 →
  ∃ r, run (pure_fun f) (binary_search_by c (length (l1 ++ l2 ++ l3))) tt (l1 ++ l2 ++ l3) =
         (Done r, tt, l1 ++ l2 ++ l3) ∧
    match r with
    | Found i => length l1 ≤ i < length l1 + length l2
    | Missing i => l2 = [] ∧ i = length l1
    end.
Proof.
  intros H1 H2 H3.
  destruct (binary_search_by_monotone c f (l1 ++ l2 ++ l3)) as (r & Hr & Hf).
  { by exists l1, l2, l3. }
  exists r. split; [done|]. by eapply found_or_gap_exact.
Qed.
