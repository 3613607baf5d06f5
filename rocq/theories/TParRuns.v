(** * The parallel stable sort makes O(n log k) calls for k sorted sequences one after
    another, in every schedule. *)
From Verif Require Export TRuns CParSort PParSort CSched.
From stdpp Require Import list.

Local Transparent wp wpg calls.
Local Arguments wp {T Q R A} ans !p Φ E l.
Local Arguments wpg {T Q R G A} ans !p Φ E g l.
Local Arguments calls {T Q R A} !p Ψ b.

(** Facts about the data and about the number of calls. *)
Lemma calls_wp {T Q R A} (ans : Q → R → Prop) (p : prog T Q R A) :
  ∀ Ψ b (Φ : A → list T → Prop) (E : exn → list T → Prop) g l,
  calls p Ψ b → wp ans p Φ E l →
  wpg (cnt_ans ans) p (λ a g' l', g' ≤ g + b ∧ Ψ a ∧ Φ a l') (λ e g' l', g' ≤ g + b ∧ E e l') g l.
Proof.
  induction p as [A a|A e|A i k IH|A i x k IH|A q k IH|A B C p1 IH1 p2 IH2 k IH| |];
    intros Ψ b Φ E g l Hc Hw; simpl in *; try done.
  - split; [lia|done].
  - split; [lia|done].
  - destruct (l !! i); [|done]. by apply IH.
  - destruct Hw. split; [done|]. by apply IH.
  - destruct Hc as [Hb Hc]. intros r g' [Hr ->].
    eapply wpg_mono; [apply (IH r _ (b - 1) _ _ (S g) l (Hc r) (Hw r Hr))| |]; simpl.
    + intros a g' l' _ (? & ? & ?). repeat split; [lia|done|done].
    + intros e g' l' _ (? & ?). split; [lia|done].
  - destruct Hc as (b1 & b2 & b3 & Ψ1 & Ψ2 & Hs & H1 & H2 & H3).
    eapply wpg_mono; [apply (IH1 _ _ _ _ g l H1 Hw)| |]; simpl.
    + intros x g1 l1 _ (Hg1 & Hx & Hw1).
      eapply wpg_mono; [apply (IH2 _ _ _ _ g1 l1 H2 Hw1)| |]; simpl.
      * intros y g2 l2 _ (Hg2 & Hy & Hw2).
        eapply wpg_mono; [apply (IH _ _ _ _ _ _ g2 l2 (H3 (inl x) (inl y) Hx Hy) Hw2)| |]; simpl.
        -- intros a g' l' _ (? & ? & ?). repeat split; [lia|done|done].
        -- intros e g' l' _ (? & ?). split; [lia|done].
      * intros y g2 l2 _ (Hg2 & Hw2).
        eapply wpg_mono; [apply (IH _ _ _ _ _ _ g2 l2 (H3 (inl x) (inr y) Hx I) Hw2)| |]; simpl.
        -- intros a g' l' _ (? & ? & ?). repeat split; [lia|done|done].
        -- intros e g' l' _ (? & ?). split; [lia|done].
    + intros x g1 l1 _ (Hg1 & Hw1).
      eapply wpg_mono; [apply (IH2 _ _ _ _ g1 l1 H2 Hw1)| |]; simpl.
      * intros y g2 l2 _ (Hg2 & Hy & Hw2).
        eapply wpg_mono; [apply (IH _ _ _ _ _ _ g2 l2 (H3 (inr x) (inl y) I Hy) Hw2)| |]; simpl.
        -- intros a g' l' _ (? & ? & ?). repeat split; [lia|done|done].
        -- intros e g' l' _ (? & ?). split; [lia|done].
      * intros y g2 l2 _ (Hg2 & Hw2).
        eapply wpg_mono; [apply (IH _ _ _ _ _ _ g2 l2 (H3 (inr x) (inr y) I I) Hw2)| |]; simpl.
        -- intros a g' l' _ (? & ? & ?). repeat split; [lia|done|done].
        -- intros e g' l' _ (? & ?). split; [lia|done].
Qed.
Local Opaque wp wpg calls.

Section chunks.
  Context {T : Type} (c : cfg) (lt : T → T → bool).
  Notation ans := (may_lt lt).
  Notation ok := (cnt_ans (may_lt lt)).
  Notation P A := (cmp_prog T A).

  (** ** One chunk *)
  Definition rk (want : bool) : ms_result := if want then Descending else NonDescending.

  Lemma streak_dec want (V : list T) : Decision (streak lt want V).
  Proof.
    destruct (decide (Forall (λ i, match V !! S i, V !! i with
                                   | Some a, Some b => Bool.eqb (lt a b) want | _, _ => true end = true)
                        (seq 0 (length V)))) as [H|H].
    - left. intros [|i] a b Hi Ha Hb; [lia|]. simpl in Hb. rewrite Nat.sub_0_r in Hb.
      rewrite Forall_forall in H. pose proof (lookup_lt_Some _ _ _ Hb).
      specialize (H i). rewrite Ha, Hb in H. apply Bool.eqb_prop, H, elem_of_seq. lia.
    - right. intros Hs. apply H. apply Forall_forall. intros i _.
      destruct (V !! S i) eqn:Ha; [|done]. destruct (V !! i) eqn:Hb; [|done].
      apply Bool.eqb_true_iff. eapply (Hs (S i)); [lia|done|]. simpl. by rewrite Nat.sub_0_r.
  Qed.

  Lemma pm_streak_all want V J s :
    s < length V → streak lt want V →
    wp ans (pm_streak want (length V) s) (λ j M, j = 0 ∧ M = V ++ J) (λ _ _, True) (V ++ J).
  Proof.
    intros Hs Hst. induction s as [|s IH]; simpl; [by apply wp_ret|].
    apply wp_bind, wp_uget; [lia|rewrite app_length; lia|]. intros a Ha.
    apply wp_bind, wp_uget; [lia|rewrite app_length; lia|]. intros b Hb.
    rewrite lookup_app_l in Ha, Hb by lia.
    apply wp_bind, wp_is_less; [|done]. intros r Hr. specialize (Hr r eq_refl). simpl in Hr. subst r.
    rewrite (Hst (S s) a b); [|lia|done|simpl; by rewrite Nat.sub_0_r].
    rewrite Bool.eqb_reflx. apply IH. lia.
  Qed.
  Lemma pm_merge_sort_streak want V J cap :
    2 ≤ length V → streak lt want V →
    wp ans (pm_merge_sort c (length V) cap) (λ r _, r = rk want) (λ _ _, True) (V ++ J).
  Proof.
    intros H2 Hst. unfold pm_merge_sort. cbn [pm_sort_loop].
    rewrite (proj2 (Nat.ltb_lt 0 (length V))) by lia.
    apply wp_bind. unfold pm_find_run. apply wp_bind, wp_usub; [lia|].
    rewrite (proj2 (Nat.ltb_lt 0 (length V - 1))) by lia.
    apply wp_bind, wp_uget; [lia|rewrite app_length; lia|]. intros a Ha.
    apply wp_bind, wp_uget; [lia|rewrite app_length; lia|]. intros b Hb.
    rewrite lookup_app_l in Ha, Hb by lia.
    apply wp_bind, wp_is_less; [|done]. intros r Hr. specialize (Hr r eq_refl). simpl in Hr. subst r.
    rewrite (Hst (length V - 1 - 1 + 1) a b); [|lia|done|by rewrite Nat.add_sub].
    apply wp_bind. wp_apply (pm_streak_all want V J (length V - 1 - 1)); [lia|done| |done].
    intros j M _ [-> ->]. destruct want.
    - rewrite !Nat.eqb_refl. by apply wp_ret, wp_ret.
    - apply wp_bind, wp_usub; [lia|]. rewrite Nat.sub_0_r, Nat.eqb_refl. by apply wp_ret, wp_ret.
  Qed.

  Definition kind (V : list T) (r : ms_result) : Prop :=
    ∀ want, 2 ≤ length V → streak lt want V → r = rk want.
  Lemma pm_merge_sort_kind V J :
    0 < length V → length V / 2 ≤ length J →
    wp ans (pm_merge_sort c (length V) (length J))
      (onv (length J) (λ r V', sort_result ans V r V' ∧ kind V r)) (λ _ _, True) (V ++ J).
  Proof.
    intros HV HJ.
    assert (Hk : ∀ want, wp ans (pm_merge_sort c (length V) (length J))
      (λ r _, 2 ≤ length V → streak lt want V → r = rk want) (λ _ _, True) (V ++ J)).
    { intros want. destruct (decide (2 ≤ length V)) as [H2|H2].
      2: { wp_apply (pm_merge_sort_spec c ans V J HV HJ); done. }
      destruct (streak_dec want V) as [Hs|Hs].
      - wp_apply (pm_merge_sort_streak want V J (length J) H2 Hs); done.
      - wp_apply (pm_merge_sort_spec c ans V J HV HJ); done. }
    eapply wp_mono; [eapply (wp_conj ans ans ans); [done|done|apply (pm_merge_sort_spec c ans V J HV HJ)|];
      eapply (wp_conj ans ans ans); [done|done|apply (Hk true)|apply (Hk false)]| |done].
    intros r M _ ((V' & J' & -> & HJ' & Hr) & H1 & H2). exists V', J'. split; [done|]. split; [done|].
    split; [done|]. intros [] ? ?; auto.
  Qed.

  (** ** All chunks *)
  Definition good_result V r V' : Prop := sort_result ans V r V' ∧ kind V r.
  Definition good_outcome V (r : ms_result + exn) V' : Prop :=
    match r with inl res => good_result V res V' | inr _ => True end.
  Lemma chunk_task_good n l V :
    V ≠ [] → task_ok ans n l (chunk_task c n l (length V)) V (good_outcome V).
  Proof.
    intros HV A C A' J C' HA HA' HJ Hn. unfold chunk_task.
    apply wp_two; [done|done|done|done|]. rewrite <-HJ at 2.
    eapply wp_mono; [eapply (wp_conj ans ans ans); [done|done|apply (pm_merge_sort_spec c ans V J)|
      apply (pm_merge_sort_kind V J)]| |].
    1, 3: destruct V; simpl; [done|lia].
    1, 2: rewrite HJ; apply Nat.div_le_upper_bound; lia.
    - intros res M _ (_ & V1 & J1 & -> & HJ1 & Hs) V' J' Hinj HV' HJ'.
      apply app_inj_2 in Hinj as [-> ->]; [|lia]. by exists V', J'.
    - intros e M _ _ V' J' Hinj HV' HJ'. by exists V', J'.
  Qed.
  Definition first_good V (r : option ms_result + exn) V' : Prop :=
    match r with
    | inl (Some res) => good_result V res V'
    | inl None => V' = V
    | inr e => True
    end.
  Lemma bridge_first_good take_item i n l Vs :
    Forall (λ V, V ≠ []) Vs →
    tasks_ok ans n l Vs (bridge_first take_item i (chunk_tasks c n l Vs)) (map first_good Vs).
  Proof.
    intros HVs. revert i l. induction HVs as [|V Vs HV HVs IH]; intros i l; simpl.
    - constructor.
    - constructor; [|apply IH]. destruct (take_item i).
      + eapply (task_bind ans n l _ Some); [by apply chunk_task_good|done|done].
      + by apply task_ret.
  Qed.
  Definition rest_good (V : list T) (r : option ms_result) (q : ms_result + exn) V' : Prop :=
    match r with
    | Some res => V' = V ∧ q = inl res
    | None => good_outcome V q V'
    end.
  Lemma bridge_rest_good n l Vs0 rs Vs :
    Forall (λ V, V ≠ []) Vs0 →
    Forall3 (λ V0 r V, first_good V0 (inl r) V) Vs0 rs Vs →
    Forall2 same_len Vs0 Vs →
    tasks_ok ans n l Vs (bridge_rest rs (chunk_tasks c n l Vs0)) (zip_with rest_good Vs rs).
  Proof.
    intros Hne H. revert l Hne.
    induction H as [|V0 r V Vs0 rs Vs H H3 IH]; intros l Hne Hlen; simpl.
    - constructor.
    - apply Forall_cons in Hne as [HV0 Hne]. apply Forall2_cons in Hlen as [HV Hlen].
      unfold same_len in HV.
      assert (Hrest : tasks_ok ans n (l + length V) Vs (bridge_rest rs (chunk_tasks c n (l + length V0) Vs0))
        (zip_with rest_good Vs rs)).
      { rewrite HV. by apply IH. }
      destruct r as [res|]; simpl in H.
      + constructor; [|done]. by apply task_ret.
      + constructor; [|done]. rewrite <-HV. rewrite H in *. by apply chunk_task_good.
  Qed.
  Lemma par_bridge_good take_item n Vs Js :
    Forall (λ V, V ≠ []) Vs → Forall2 same_len Vs Js → n = length (concat Vs) →
    wp ans (par_bridge take_item (chunk_tasks c n 0 Vs))
      (λ rs M, ∃ Vs' Js', M = concat Vs' ++ concat Js' ∧
         Forall2 same_len Vs Vs' ∧ Forall2 same_len Vs Js' ∧ Forall3 good_result Vs rs Vs')
      (λ _ _, True) (concat Vs ++ concat Js).
  Proof.
    intros Hne HJs Hn. unfold par_bridge. apply wp_bind.
    wp_apply (par_each_spec ans n 0 Vs _ (map first_good Vs) [] [] Js
      (bridge_first_good take_item 0 n 0 Vs Hne)); [done|done|done|done| |done].
    intros rs M _ (Vs1 & Js1 & -> & HV1 & HJ1 & H1). simpl.
    apply wp_bind. apply all_done_spec; [|done]. intros bs ->. apply wp_bind.
    assert (H2 : Forall3 (λ V r V', first_good V (inl r) V') Vs bs Vs1).
    { clear -H1. remember (map inl bs) as rs eqn:Hrs. remember (map first_good Vs) as Ψs eqn:HΨ.
      revert Vs bs HΨ Hrs.
      induction H1 as [|Ψ r V' Ψs rs Vs1 H _ IH]; intros [|V Vs] [|b bs] HΨ Hrs; simplify_eq/=;
        constructor; auto. }
    assert (Htr : ∀ Ws, Forall2 same_len Vs1 Ws → Forall2 same_len Vs Ws).
    { clear -HV1. induction HV1 as [|V V' Vs Vs1 H _ IH]; intros Ws HW.
      - inversion HW. constructor.
      - apply Forall2_cons_inv_l in HW as (J & Js & HJ & HJs & ->).
        constructor; [unfold same_len in *; lia|auto]. }
    assert (HVJ : Forall2 same_len Vs1 Js1).
    { clear -HV1 HJ1. revert Js1 HJ1. induction HV1 as [|V V' Vs Vs1 H _ IH]; intros Js1 HJ1.
      - inversion HJ1. constructor.
      - apply Forall2_cons_inv_l in HJ1 as (J & Js & HJ & HJs & ->).
        constructor; [unfold same_len in *; lia|auto]. }
    wp_apply (par_each_spec ans n 0 Vs1 _ _ [] [] Js1
      (bridge_rest_good n 0 Vs bs Vs1 Hne H2 HV1)); [done|done|done| | |done].
    { rewrite Hn. simpl. symmetry. by apply same_len_concat. }
    intros rs M _ (Vs2 & Js2 & -> & HV2 & HJ2 & H3). simpl.
    apply all_done_spec; [|done]. intros rs' ->.
    exists Vs2, Js2. split; [done|]. split; [by apply Htr|]. split; [by apply Htr|].
    clear -H2 H3. revert rs' Vs2 H3.
    induction H2 as [|V b V1 Vs bs Vs1 H _ IH]; intros [|r rs] Vs2 H3; simpl in H3;
      inversion H3 as [|? ? V2 ? ? Vs2' HΨ H3']; subst; [constructor|].
    constructor; [|by apply IH]. destruct b as [res|]; simpl in *.
    + destruct HΨ as [-> Hr]. by injection Hr as ->.
    + by subst.
  Qed.

  (** ** Joining neighbouring chunks *)
  Fixpoint ones (Vs : list (list T)) : nat :=
    match Vs with
    | [] => 0
    | V :: Vs => (if length V <=? 1 then 1 else 0) + ones Vs
    end.

  Lemma streak_app_l want (X Y : list T) : streak lt want (X ++ Y) → streak lt want X.
  Proof.
    intros H i a b Hi Ha Hb. by apply (H i); [|apply lookup_app_l_Some..].
  Qed.
  Lemma streak_app_r want (X Y : list T) : streak lt want (X ++ Y) → streak lt want Y.
  Proof.
    intros H i a b Hi Ha Hb. apply (H (length X + i)); [lia| |].
    - rewrite lookup_app_r by lia. by replace (length X + i - length X) with i by lia.
    - rewrite lookup_app_r by lia. by replace (length X + i - 1 - length X) with (i - 1) by lia.
  Qed.
  Lemma pm_ext_wp n P0 A R C res r :
    A ≠ [] → R ≠ [] → n = length (P0 ++ A ++ R ++ C) →
    wp ans (if negb (ms_eqb res Sorted_) && ms_eqb r res then
              bind (get n (length P0 + length A)) (λ p,
              bind (usub (length P0 + length A) 1) (λ x1,
              bind (get n x1) (λ q,
              bind (is_less p q) (λ l, Ret (Bool.eqb (ms_eqb r Descending) l)))))
            else Ret false)
      (λ e M, M = P0 ++ A ++ R ++ C ∧ (e = true → r = res) ∧
         (∀ want A0 B, A = A0 ++ B → B ≠ [] → streak lt want (B ++ R) →
            res = rk want → r = rk want → e = true)) (λ _ _, True) (P0 ++ A ++ R ++ C).
  Proof.
    intros HA HR Hn. destruct (negb (ms_eqb res Sorted_) && ms_eqb r res) eqn:Hcond.
    2: { apply wp_ret. split; [done|]. split; [done|]. intros want A0 B _ _ _ -> ->. by destruct want. }
    apply andb_true_iff in Hcond as [_ Hr]. assert (r = res) as -> by (by destruct r, res).
    destruct R as [|y R]; [done|]. destruct (exists_last HA) as (X & x & ->).
    assert (Hy : (P0 ++ (X ++ [x]) ++ (y :: R) ++ C) !! (length P0 + length (X ++ [x])) = Some y).
    { rewrite lookup_app_r by lia. rewrite lookup_app_r by lia.
      replace (_ - _ - _) with 0 by lia. done. }
    assert (Hx : (P0 ++ (X ++ [x]) ++ (y :: R) ++ C) !! (length P0 + length (X ++ [x]) - 1) = Some x).
    { rewrite app_length. simpl. rewrite lookup_app_r by lia. rewrite lookup_app_l by (rewrite app_length; simpl; lia).
      rewrite lookup_app_r by lia. replace (_ - _ - _) with 0 by lia. done. }
    assert (Hn' : n = length P0 + (length X + 1 + (1 + length R + length C))).
    { rewrite Hn. rewrite !app_length. simpl. lia. }
    set (l := P0 ++ (X ++ [x]) ++ (y :: R) ++ C) in *.
    rewrite app_length in *. simpl length in *.
    apply wp_bind, wp_get; [lia|lia|]. intros ? Hy'. simplify_eq.
    apply wp_bind, wp_usub; [lia|].
    apply wp_bind, wp_get; [lia|lia|]. intros ? Hx'. simplify_eq.
    apply wp_bind, wp_is_less; [|done].
    intros b Hb. specialize (Hb b eq_refl). simpl in Hb. subst b.
    apply wp_ret. split; [done|]. split; [done|].
    intros want A0 B HAB HB Hs -> _. destruct (exists_last HB) as (B' & x' & ->).
    rewrite app_assoc in HAB. apply app_inj_tail in HAB as [_ <-].
    rewrite (Hs (S (length B')) y x); [by destruct want|lia| |].
    - rewrite lookup_app_r by (rewrite app_length; simpl; lia). rewrite app_length. simpl.
      by replace (S (length B') - (length B' + 1)) with 0 by lia.
    - simpl. rewrite Nat.sub_0_r, <-app_assoc, lookup_app_r by lia. by rewrite Nat.sub_diag.
  Qed.
  Lemma pm_finish_wp n a b res P0 A C (E : exn → list T → Prop) :
    n = length (P0 ++ A ++ C) → a = length P0 → b = a + length A →
    wp ans (if ms_eqb res Descending then slice n a b MPartition.reverse else Ret tt)
      (λ _ V, ∃ A', V = P0 ++ A' ++ C ∧ length A' = length A) E (P0 ++ A ++ C).
  Proof.
    intros Hn Ha Hb. destruct (ms_eqb res Descending).
    - rewrite !app_length in Hn. apply wp_slice_app; [done|done|lia|].
      wp_eapply (reverse_spec _ (length A) A (λ _ _, False)); [done| |done].
      intros [] m _ -> _. exists (rev A). split; [done|]. apply rev_length.
    - apply wp_ret. by exists A.
  Qed.
  Lemma good_result_length V r V' : good_result V r V' → length V' = length V.
  Proof. intros [H _]. by apply sort_result_state in H as [_ H%sperm_length]. Qed.

  (** [d] is 1 if the last of the chunks joined so far continues in [q], else 2. *)
  Lemma pm_concat_count Vs rs Rs :
    Forall3 good_result Vs rs Rs → ∀ P0 A res n j q w d,
    Forall (λ V, V ≠ []) Rs → A ≠ [] → n = length (P0 ++ A ++ concat Rs) →
    concat Vs = q ++ w → pieces lt j w → (∃ want, streak lt want q) → 0 < d →
    (d = 1 → ∃ A0 B want, A = A0 ++ B ∧ 2 ≤ length B ∧ streak lt want (B ++ q) ∧ res = rk want) →
    wp ans (pm_concat n (length P0) (length P0 + length A) res
              (triples (length P0 + length A) Rs rs))
      (λ ch _, length ch ≤ d + 2 * j + 2 * ones Vs) (λ _ _, True) (P0 ++ A ++ concat Rs).
  Proof.
    induction 1 as [|V r R Vs rs Rs Hg HF IH]; intros P0 A res n j q w d HRs HA Hn Hq Hj Hst Hd HG.
    { simpl. apply wp_bind.
      wp_apply (pm_finish_wp n (length P0) (length P0 + length A) res P0 A [] (λ _ _, False));
        [done|done|done| |done].
      intros [] M _ _. apply wp_ret. simpl. lia. }
    pose proof (good_result_length _ _ _ Hg) as HlR.
    apply Forall_cons in HRs as [HRne HRs]. simpl concat in *. cbn [triples pm_concat].
    apply wp_bind. wp_apply (pm_ext_wp n P0 A R (concat Rs) res r HA HRne Hn); [|done].
    intros e M _ (-> & He & Hf).
    (* the state after this chunk *)
    assert (HS : ∃ j' q' w' d', concat Vs = q' ++ w' ∧ pieces lt j' w' ∧
      (∃ want, streak lt want q') ∧ 0 < d' ∧
      (d' = 1 → ∃ B want, R = B ∧ 2 ≤ length B ∧ streak lt want (B ++ q') ∧ r = rk want) ∧
      (if e : bool then 0 else 1) + d' + 2 * j' + 2 * ones Vs ≤ d + 2 * j + 2 * ones (V :: Vs)).
    { destruct Hst as [want Hst]. cbn [ones].
      destruct (decide (length V ≤ length q)) as [Hle|Hgt].
      - assert (q = V ++ drop (length V) q ∧ concat Vs = drop (length V) q ++ w) as [Hq1 Hq2].
        { pose proof (f_equal (take (length V)) Hq) as H1. pose proof (f_equal (drop (length V)) Hq) as H2.
          rewrite take_app in H1. rewrite take_app_le in H1 by lia.
          rewrite drop_app in H2. rewrite drop_app_le in H2 by lia.
          split; [|done]. rewrite H1 at 1. by rewrite take_drop. }
        destruct (Nat.leb_spec (length V) 1) as [H1|H1].
        + exists j, (drop (length V) q), w, 2. split; [done|]. split; [done|].
          split; [exists want; rewrite Hq1 in Hst; by apply streak_app_r in Hst|].
          split; [lia|]. split; [lia|]. destruct e; lia.
        + assert (Hr : r = rk want).
          { apply Hg; [lia|]. rewrite Hq1 in Hst. by apply streak_app_l in Hst. }
          assert (HRV : R = V). { destruct Hg as [Hg _]. rewrite Hr in Hg. destruct want; apply Hg. }
          exists j, (drop (length V) q), w, 1. split; [done|]. split; [done|].
          split; [exists want; rewrite Hq1 in Hst; by apply streak_app_r in Hst|].
          split; [lia|]. split.
          * intros _. exists R, want. rewrite HRV, <-Hq1. auto.
          * destruct e; [lia|]. destruct (decide (d = 1)) as [->|]; [|lia]. exfalso.
            destruct (HG eq_refl) as (A0 & B & want' & HAB & HB2 & HBq & Hres).
            assert (want' = want) as ->.
            { pose proof HBq as HBq'. rewrite Hq1, app_assoc in HBq'. apply streak_app_l, streak_app_r in HBq'.
              destruct Hg as [_ Hk]. specialize (Hk want' ltac:(lia) HBq'). rewrite Hr in Hk.
              by destruct want, want'. }
            discriminate (Hf want A0 B HAB ltac:(by destruct B; simpl in HB2; [lia|])
              ltac:(rewrite HRV; rewrite Hq1, app_assoc in HBq; by apply streak_app_l in HBq) Hres Hr).
      - assert (Hw : concat Vs = drop (length V - length q) w).
        { pose proof (f_equal (drop (length V)) Hq) as H2. rewrite drop_app in H2.
          rewrite drop_app_ge in H2 by lia. done. }
        assert (Hwne : w ≠ []).
        { intros ->. apply (f_equal length) in Hq. rewrite !app_length in Hq. simpl in Hq. lia. }
        destruct (pieces_first lt j w Hj Hwne) as (p & w1 & -> & Hp & Hmp & Hj0 & Hw1).
        rewrite skipn_app in Hw. set (i := length V - length q) in *.
        exists (j - 1), (drop i p), (drop (i - length p) w1), 2.
        split; [done|]. split; [by apply pieces_drop|].
        split.
        { apply monotone_streak in Hmp as [want' Hmp]. exists want'.
          rewrite <-(take_drop i p) in Hmp. by apply streak_app_r in Hmp. }
        split; [lia|]. split; [lia|]. destruct e; case_match; lia. }
    destruct HS as (j' & q' & w' & d' & Hq' & Hj' & Hst' & Hd' & HG' & Hcount).
    destruct e.
    - specialize (He eq_refl). subst r.
      replace (length P0 + length A + length R) with (length P0 + length (A ++ R))
        by (rewrite app_length; lia).
      replace (P0 ++ A ++ R ++ concat Rs) with (P0 ++ (A ++ R) ++ concat Rs) by (by rewrite <-app_assoc).
      wp_apply (IH P0 (A ++ R) res n j' q' w' d'); [done|by destruct A| |done|done|done|done| | |done].
      + rewrite Hn. by rewrite <-app_assoc.
      + intros H1. destruct (HG' H1) as (B & want & -> & ?). exists A, B, want. done.
      + intros ch M _ Hch. cbv beta in Hch. lia.
    - apply wp_bind.
      wp_apply (pm_finish_wp n (length P0) (length P0 + length A) res P0 A (R ++ concat Rs) (λ _ _, False));
        [done|done|done| |done].
      intros [] M _ (A' & -> & HlA). apply wp_bind.
      replace (length P0 + length A) with (length (P0 ++ A')) by (rewrite app_length; lia).
      replace (P0 ++ A' ++ R ++ concat Rs) with ((P0 ++ A') ++ R ++ concat Rs) by (by rewrite <-app_assoc).
      wp_apply (IH (P0 ++ A') R r n j' q' w' d'); [done|done| |done|done|done|done| | |done].
      + rewrite Hn. rewrite !app_length. lia.
      + intros H1. destruct (HG' H1) as (B & want & -> & ?). exists [], B, want. done.
      + intros ch M _ Hch. cbv beta in Hch. apply wp_ret. simpl length. lia.
  Qed.

  (** ** The whole sort *)
  Lemma chunk_log m : m ≤ CHUNK_LENGTH → Nat.log2 m ≤ 10.
  Proof. intros H. by apply (Nat.log2_le_mono m CHUNK_LENGTH). Qed.
  Lemma chunk_big : 20 < CHUNK_LENGTH.
  Proof. by apply Nat.ltb_lt. Qed.
  Local Opaque CHUNK_LENGTH.
  Lemma axis_chunks_short fuel n l : Forall (λ b, b.2 ≤ CHUNK_LENGTH) (axis_chunks fuel n l).
  Proof.
    revert l. induction fuel as [|f IH]; intros l; cbn [axis_chunks]; [constructor|].
    destruct (l <? n); [|constructor]. constructor; [|apply IH]. cbn [snd]. apply Nat.le_min_l.
  Qed.
  Lemma bounds_ones fuel n l l' Vs : axis_chunks fuel n l = bounds_of l' Vs → ones Vs ≤ 1.
  Proof.
    revert l l' Vs. induction fuel as [|f IH]; intros l l' Vs; cbn [axis_chunks].
    { destruct Vs; [simpl; lia|done]. }
    destruct (l <? n); [|destruct Vs; [simpl; lia|done]].
    destruct Vs as [|V Vs]; [done|]. cbn [bounds_of ones]. intros H.
    injection H as _ HV H. destruct (decide (l + CHUNK_LENGTH ≤ n)) as [Hc|Hc].
    - rewrite Nat.min_l in HV by lia. rewrite (proj2 (Nat.leb_gt (length V) 1)).
      + by eapply IH.
      + pose proof chunk_big. lia.
    - rewrite axis_chunks_end in H by lia. destruct Vs; [|done]. simpl. case_match; lia.
  Qed.
  Lemma chunk_task_calls_short n l m :
    m ≤ CHUNK_LENGTH → calls (chunk_task c n l m : P ms_result) (λ _, True) (120 * m).
  Proof.
    intros Hm. apply calls_relocate.
    eapply calls_mono; [eapply (costs_calls _ _ (120 * m) 0)|lia|done].
    apply pm_merge_sort_cost. apply Nat.mul_le_mono_r. pose proof (chunk_log m Hm). lia.
  Qed.
  Lemma chunk_tasks_calls_short n bs :
    Forall (λ b, b.2 ≤ CHUNK_LENGTH) bs →
    Forall2 (λ t b, calls t (λ _, True) b)
      (map (λ '(l, m), chunk_task c n l m : P ms_result) bs) (map (λ m, 120 * m) bs.*2).
  Proof.
    induction 1 as [|[l m] bs Hm H IH]; [constructor|]. change ((((l, m) :: bs).*2)) with (m :: bs.*2).
    cbn [map]. constructor; [|done]. by apply chunk_task_calls_short.
  Qed.
  Lemma par_sort_calls_short take_item n :
    n ≤ CHUNK_LENGTH → calls (par_sort c take_item n : P unit) (λ _, True) (120 * n).
  Proof.
    intros Hn. unfold par_sort, par_merge_sort. destruct (zst c); [by apply calls_ret|].
    destruct (Nat.leb_spec n PM_MAX_INSERTION) as [Hi|Hi].
    { unfold PM_MAX_INSERTION in Hi. destruct (Nat.leb_spec 2 n) as [H2|H2]; [|by apply calls_ret].
      assert ((n - 1) * (n - 1) ≤ 20 * n) by (apply Nat.mul_le_mono; lia).
      set (B := 120 * n) in *.
      eapply calls_mono; [eapply (costs_calls _ _ B 0)|lia|done].
      eapply (costs_for_down 0 (n - 1) _ (λ j k', k' + j * (n - 1) ≤ (n - 1) * (n - 1))).
      - lia.
      - intros j k' Hj Hk'. simpl in Hk'. set (p := j * (n - 1)) in *. set (q := (n - 1) * (n - 1)) in *.
        apply costs_slice. intros _ _. cost_call pm_insert_head_cost; [lia|]. cost_fin. }
    rewrite (proj2 (Nat.leb_le n CHUNK_LENGTH) Hn).
    eapply (calls_bind _ _ (λ _, True) _ (120 * n) 0); [| |lia].
    - eapply calls_mono; [eapply (costs_calls _ _ (120 * n) 0)|lia|done].
      apply pm_merge_sort_cost. apply Nat.mul_le_mono_r. pose proof (chunk_log n Hn). lia.
    - intros res _. destruct (ms_eqb _ _); [apply calls_silent, reverse_silent|by apply calls_ret].
  Qed.

  Lemma par_sort_runs_le take_item K V J :
    0 < K → pieces lt K V → length J = length V →
    wpg ok (par_sort c take_item (length V)) (λ _ g _, g ≤ (2 * Nat.log2 K + 130) * length V)
      (λ _ g _, g ≤ (2 * Nat.log2 K + 130) * length V) 0 (V ++ J).
  Proof.
    intros HK Hpc HJ. set (L := Nat.log2 K). set (n := length V) in *.
    assert (120 * n + (n + 2 * n * (L + 3)) ≤ (2 * L + 130) * n) as Hall by lia.
    destruct (decide (n ≤ CHUNK_LENGTH)) as [Hle|Hgt].
    { eapply wpg_mono; [apply (calls_wp ans _ _ _ _ _ 0 _ (par_sort_calls_short take_item n Hle)
        (par_merge_sort_spec c ans take_item V J HJ))| |].
      - intros _ g M _ [Hg _]. lia.
      - intros _ g M _ [Hg _]. lia. }
    unfold par_sort, par_merge_sort. destruct (zst c) eqn:Hz; [apply wpg_ret; lia|].
    rewrite (proj2 (Nat.leb_gt n CHUNK_LENGTH)) by lia.
    rewrite (proj2 (Nat.leb_gt n PM_MAX_INSERTION)).
    2: { pose proof chunk_big. unfold PM_MAX_INSERTION. lia. }
    destruct (axis_chunks_spec n n 0 V) as (Vs & HVs & Hb & Hne); [done|done|].
    destruct (split_like Vs J) as (Js & HJs & HVJ); [by rewrite <-HVs|].
    assert (HlV : n = length (concat Vs)) by (unfold n; by rewrite HVs at 1).
    destruct (axis_chunks_bounds n n 0 ltac:(lia)) as (Hsum & Hlen & Hchain).
    pose proof (bounds_ones n n 0 0 Vs Hb) as Hones.
    pose proof (par_bridge_good take_item n Vs Js Hne HVJ HlV) as Hbr.
    rewrite <-HVs, <-HJs in Hbr.
    assert (Hcb : calls (par_bridge take_item (chunk_tasks c n 0 Vs)) (λ _, True) (120 * n)).
    { unfold chunk_tasks. rewrite <-Hb.
      eapply calls_mono; [apply par_bridge_calls, chunk_tasks_calls_short, axis_chunks_short| |done].
      etrans; [|apply (Nat.mul_le_mono_l _ _ 120 Hsum)].
      generalize 120. intros w. generalize ((axis_chunks n n 0).*2). intros ms. clear. induction ms as [|m ms IH]; simpl; lia. }
    rewrite Hb in *. apply wpg_bind. fold (chunk_tasks c n 0 Vs).
    eapply wpg_mono; [apply (calls_wp ans _ _ _ _ _ 0 _ Hcb Hbr)| |].
    2: { intros _ g M _ [Hg _]. lia. }
    cbv beta. intros rs g M _ (Hg & _ & Vs1 & Js1 & -> & HV1 & HJ1 & HF).
    destruct (Hchain rs) as (e & He & Hch).
    assert (Hlz : length (zip_with (λ '(l, m) res, (l, l + m, res)) (bounds_of 0 Vs) rs) ≤ n)
      by (rewrite zip_with_length; lia).
    rewrite zip_triples in *.
    assert (Hst : Forall2 (cstate ans) rs Vs1).
    { clear -HF. induction HF as [|W r W' Vs rs Vs1 H _ IH]; [constructor|].
      destruct H as [H _]. apply sort_result_state in H as [H1 H2]. by constructor. }
    assert (Hne1 : Forall (λ V, V ≠ []) Vs1).
    { clear -HV1 Hne. induction HV1 as [|W W' Vs Vs1 H _ IH]; [constructor|].
      apply Forall_cons in Hne as [? ?]. constructor; [|auto].
      intros ->. unfold same_len in H. by destruct W. }
    pose proof (same_len_concat _ _ HV1) as Hl1. rewrite <-HVs in Hl1.
    pose proof (same_len_concat _ _ HJ1) as Hl2. rewrite <-HVs in Hl2.
    fold n in Hl1, Hl2.
    rewrite (triples_same _ _ _ _ HV1) in *.
    destruct HF as [|W r A Vs rs Rs Hgr HF].
    { exfalso. simpl in HlV. apply Hgt. rewrite HlV. apply Nat.le_0_l. }
    apply Forall_cons in Hne1 as [HA0 Hne1]. apply Forall2_cons in Hst as [HA HRs].
    cbn [triples concat]. simpl concat in *.
    cbn [triples length] in Hch, Hlz. rewrite fmap_cons in Hch. cbn [chain fst snd] in Hch.
    destruct Hch as (_ & Hab & Hch).
    assert (Hcnt : wp ans (pm_concat n (length (@nil T)) (length (@nil T) + length A) r
        (triples (length (@nil T) + length A) Rs rs))
      (λ ch _, length ch ≤ 2 * K + 2) (λ _ _, True) ([] ++ A ++ concat Rs)).
    { cbn [ones] in Hones.
      assert (HplV : pieces lt K (concat Vs)).
      { rewrite HVs in Hpc. apply (pieces_drop lt K (length W)) in Hpc. by rewrite drop_app in Hpc. }
      destruct (decide (concat Vs = [])) as [Hnil|Hnil].
      - wp_apply (pm_concat_count Vs rs Rs HF [] A r n 0 [] [] 2);
          [done|done|simpl; by rewrite Hl1|done| |exists true; intros ? ? ? ? ?; done|lia|lia| |done].
        + exists []. simpl. done.
        + intros ch M _ Hch'. cbv beta in Hch'. lia.
      - destruct (pieces_first lt K _ HplV Hnil) as (p & w & Hpw & Hp & Hmp & _ & Hw).
        wp_apply (pm_concat_count Vs rs Rs HF [] A r n (K - 1) p w 2);
          [done|done|simpl; by rewrite Hl1|done|done|by apply monotone_streak|lia|lia| |done].
        intros ch M _ Hch'. cbv beta in Hch'. lia. }
    apply wpg_bind.
    eapply wpg_mono; [eapply (calls_wp ans _ _ _ _ _ g _
      (pm_concat_calls n 0 (length A) r (triples (length A) Rs rs) e n ltac:(lia) Hch ltac:(simpl in Hlz; lia)))| |].
    { eapply (wp_frame_r ans _ _ _ (A ++ concat Rs) (concat Js1)).
      eapply (wp_conj ans ans ans); [done|done| |exact Hcnt].
      exact (pm_concat_spec ans n [] A r Rs rs HA0 Hne1 HA HRs (eq_sym Hl1)). }
    2: { intros _ g' M _ [Hg' _]. lia. }
    cbv beta. intros chunks g' M _ (Hg' & [Hch' _] & V' & -> & HV' & (W' & -> & segs & -> & -> & Hsne & Hss & Hsp) & Hk).
    change (length (@nil T)) with 0 in *. rewrite chunks_of_length in *. simpl app in *.
    assert (Hls : length (concat segs) = n) by lia.
    assert (Hcr : calls (pm_recurse c (S (length segs)) (0, n) (n, n) (chunks_of 0 segs) false : P unit)
      (λ _, True) (2 * n * (L + 3))).
    { eapply (pm_recurse_calls c _ _ _ _ _ 0 e (L + 3)); [exact Hch'| |].
      - rewrite chunks_of_length. rewrite Nat.pow_add_r.
        pose proof (Nat.log2_spec K HK) as [_ HL]. fold L in HL. rewrite Nat.pow_succ_r' in HL.
        change (2 ^ 3) with 8. lia.
      - apply Nat.mul_le_mono_r. lia. }
    eapply wpg_mono; [eapply (calls_wp ans _ _ _ _ _ g' _ Hcr)| |].
    { apply (pm_recurse_spec c ans (S (length segs)) 0 n n 0 segs false (concat segs ++ concat Js1)).
      - done.
      - lia.
      - done.
      - lia.
      - rewrite app_length. lia.
      - rewrite app_length. lia.
      - lia.
      - unfold sub. by rewrite drop_0, take_app. }
    - intros _ g2 M _ [Hg2 _]. lia.
    - intros _ g2 M _ [Hg2 _]. lia.
  Qed.
End chunks.

Lemma par_sort_by_schedule_runs {T} (c : cfg) take_item (cmp : T → T → comparison)
    (ans : T * T → option comparison → Prop) (ls : list (list T)) (junk : list T) m st :
  (∀ q, ∃ r, ans q r) → (∀ x y r, ans (x, y) (Some r) → r = cmp x y) →
  Forall (λ p, sorted_wrt (is_lt cmp) p ∨ StronglySorted (λ a b, is_lt cmp b a = true) p) ls →
  length junk = length (concat ls) →
  calls_made ans m (par_sort_by c take_item (length (concat ls)), concat ls ++ junk) st →
  m ≤ (2 * Nat.log2 (length ls) + 130) * length (concat ls).
Proof.
  intros Ht Ha Hls HJ.
  eapply calls_made_bound; [done|apply within_by_compare, within_par_merge_sort|].
  apply wpg_by_compare.
  apply (wpg_fewer (may_lt (is_lt cmp))).
  { intros [x y] r (r0 & Hr & ->) b Hb. destruct r0 as [r0|]; [|done]. apply Ha in Hr as ->.
    unfold is_lt. simpl. destruct (cmp x y); congruence. }
  replace (Nat.log2 (length ls)) with (Nat.log2 (Nat.max 1 (length ls))) by (by destruct ls as [|? []]).
  apply par_sort_runs_le; [lia| |done].
  exists ls. split; [done|]. split; [lia|done].
Qed.
Lemma par_sort_by_key_schedule_runs {T K} (c : cfg) take_item (f : T → K) (ltk : K → K → bool)
    (ans : key_question (T:=T) K → key_answer K → Prop) (ls : list (list T)) (junk : list T) m st :
  (∀ q, ∃ r, ans q r) → (∀ a k, ans (KeyOf a) (AKey k) → k = f a) →
  (∀ k1 k2 b, ans (KeyLt k1 k2) (ABool b) → b = ltk k1 k2) →
  Forall (λ p, sorted_wrt (λ a b, ltk (f a) (f b)) p ∨
               StronglySorted (λ a b, ltk (f b) (f a) = true) p) ls →
  length junk = length (concat ls) →
  calls_made ans m (par_sort_by_key c take_item (length (concat ls)), concat ls ++ junk) st →
  m ≤ 3 * ((2 * Nat.log2 (length ls) + 130) * length (concat ls)).
Proof.
  intros Ht Hf Hk Hls HJ.
  eapply calls_made_bound; [done|apply within_by_key, within_par_merge_sort|].
  apply wpg_by_key.
  apply (wpg_fewer (may_lt (λ a b, ltk (f a) (f b)))).
  { intros [x y] r [(k1 & k2 & b' & H1 & H2 & H3 & ->)|[-> _]] b Hb; [|done]. injection Hb as <-.
    apply Hf in H1 as ->. apply Hf in H2 as ->. by apply Hk in H3 as ->. }
  replace (Nat.log2 (length ls)) with (Nat.log2 (Nat.max 1 (length ls))) by (by destruct ls as [|? []]).
  apply par_sort_runs_le; [lia| |done].
  exists ls. split; [done|]. split; [lia|done].
Qed.
