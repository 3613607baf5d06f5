(** * CDepth: how deep joins nest if that depends on the elements. *)
From Verif Require Export CNest CFew.
From Coq Require Import NArith.
From stdpp Require Import list relations.

Local Transparent wp bind focus relocate nest fp with_asks step.
Local Arguments wp {T Q R A} ans !p Φ E l.
Local Arguments bind {T Q R A B} !p f.
Local Arguments relocate {T Q R A} f !p.
Local Arguments nest {T Q R A} d !p.
Local Arguments fp {T Q R A} F !p.
Local Arguments with_asks {T Q R Q' R'} h {A} !p.
Local Arguments step {T Q R} ans {A} !p act.

Section wpd.
  Context {T Q R : Type} (ans : Q → R → Prop).
  Notation P A := (prog T Q R A).

  (** [wp] and at most [d] joins are active at the same time. *)
  Fixpoint wpd {A} (d : nat) (p : P A) (Φ : A → list T → Prop) (E : exn → list T → Prop)
      (l : list T) {struct p} : Prop :=
    match p with
    | Ret a => Φ a l
    | Throw e => E e l
    | Read i k => match l !! i with Some x => wpd d (k x) Φ E l | None => False end
    | Write i x k => i < length l ∧ wpd d k Φ E (<[i:=x]> l)
    | Ask q k => ∀ r, ans q r → wpd d (k r) Φ E l
    | Par p1 p2 k => 0 < d ∧
        wpd (d - 1) p1
          (λ b l1, wpd (d - 1) p2 (λ c l2, wpd d (k (inl b) (inl c)) Φ E l2)
                                  (λ e l2, wpd d (k (inl b) (inr e)) Φ E l2) l1)
          (λ e1 l1, wpd (d - 1) p2 (λ c l2, wpd d (k (inr e1) (inl c)) Φ E l2)
                                   (λ e l2, wpd d (k (inr e1) (inr e)) Φ E l2) l1) l
    | Undef => False
    | NoFuel => False
    end.

  Lemma wpd_mono {A} (p : P A) :
    ∀ d d' (Φ Φ' : A → list T → Prop) (E E' : exn → list T → Prop) l,
    wpd d p Φ E l → d ≤ d' →
    (∀ a l', length l' = length l → Φ a l' → Φ' a l') →
    (∀ e l', length l' = length l → E e l' → E' e l') →
    wpd d' p Φ' E' l.
  Proof.
    induction p as [A a|A e|A i k IH|A i x k IH|A q k IH|A B C p1 IH1 p2 IH2 k IH| |];
      intros d d' Φ Φ' E E' l Hwp Hd HΦ HE; simpl in *; auto.
    - destruct (l !! i) as [x|]; [|done]. eauto.
    - destruct Hwp as [Hi Hwp]. split; [done|].
      eapply IH; [exact Hwp|done| |]; intros ? ? Hl; [apply HΦ|apply HE];
        by rewrite insert_length in Hl.
    - intros r Hr. eauto.
    - destruct Hwp as [H0 Hwp]. split; [lia|].
      eapply IH1; [exact Hwp|lia| |]; simpl; intros b l1 Hl1 Hwp2;
        (eapply IH2; [exact Hwp2|lia| |]; simpl; intros c l2 Hl2 Hk;
         (eapply IH; [exact Hk|done| |]; intros ? ? Hl; [apply HΦ|apply HE]; congruence)).
  Qed.
  Lemma wpd_bind {A B} (p : P A) (f : A → P B) :
    ∀ d Φ E l, wpd d p (λ a l', wpd d (f a) Φ E l') E l → wpd d (bind p f) Φ E l.
  Proof.
    revert B f.
    induction p as [A a|A e|A i k IH|A i x k IH|A q k IH|A B C p1 IH1 p2 IH2 k IH| |];
      intros B' f d Φ E l Hwp; simpl in *; auto.
    - destruct (l !! i) as [x|]; [|done]. eauto.
    - destruct Hwp. split; [done|]. eauto.
    - destruct Hwp as [H0 Hwp]. split; [done|].
      eapply wpd_mono; [exact Hwp|done| |]; simpl; intros b l1 Hl1 Hwp2;
        (eapply wpd_mono; [exact Hwp2|done| |]; simpl; intros c l2 Hl2 Hk; eauto).
  Qed.
  Lemma wpd_focus_app {A} (p : P A) pre post :
    ∀ d (Φ : A → list T → Prop) (E : exn → list T → Prop) m,
    wpd d p (λ a m', length m' = length m → Φ a (pre ++ m' ++ post))
            (λ e m', length m' = length m → E e (pre ++ m' ++ post)) m →
    wpd d (focus (length pre) p) Φ E (pre ++ m ++ post).
  Proof.
    unfold focus.
    induction p as [A a|A e|A i k IH|A i x k IH|A q k IH|A B C p1 IH1 p2 IH2 k IH| |];
      intros d Φ E m Hwp; simpl in *; auto.
    - destruct (m !! i) as [x|] eqn:Hi; [|done].
      assert (Hlt : i < length m) by (by eapply lookup_lt_Some).
      rewrite lookup_app_r by lia.
      replace (length pre + i - length pre) with i by lia.
      rewrite lookup_app_l by done. rewrite Hi. eauto.
    - destruct Hwp as [Hi Hwp]. rewrite !app_length. split; [lia|].
      rewrite insert_app_r, insert_app_l by done.
      apply IH. eapply wpd_mono; [exact Hwp|done| |]; simpl;
        intros ? ? Hl ? Hl'; rewrite insert_length in *; auto.
    - destruct Hwp as [H0 Hwp]. split; [done|].
      eapply IH1, wpd_mono; [exact Hwp|done| |]; simpl; intros b m1 Hl1 Hwp2 _;
        (eapply IH2, wpd_mono; [exact Hwp2|done| |]; simpl; intros e m2 Hl2 Hk _;
         (eapply IH, wpd_mono; [exact Hk|done| |]; simpl; intros ? m3 Hl3 Hm3 _; apply Hm3; congruence)).
  Qed.
  Lemma wpd_slice_app {A} n a b (p : nat → P A) d (Φ : A → list T → Prop)
      (Ex : exn → list T → Prop) l1 l2 l3 :
    a = length l1 → b = a + length l2 → b ≤ n →
    wpd d (p (length l2))
      (λ r m, length m = length l2 → Φ r (l1 ++ m ++ l3))
      (λ e m, length m = length l2 → Ex e (l1 ++ m ++ l3)) l2 →
    wpd d (slice n a b p) Φ Ex (l1 ++ l2 ++ l3).
  Proof.
    intros -> -> Hbn H. unfold slice.
    rewrite (proj2 (Nat.leb_le _ _)), (proj2 (Nat.leb_le _ n) Hbn) by lia. simpl.
    replace (length l1 + length l2 - length l1) with (length l2) by lia.
    by apply wpd_focus_app.
  Qed.
  Lemma wpd_join {A B} d (p1 : P A) (p2 : P B) Φ (E : exn → list T → Prop) l :
    wpd d p1
      (λ b l1, wpd d p2 (λ c l2, Φ (b, c) l2) E l1)
      (λ e l1, wpd d p2 (λ _ l2, E e l2) (λ _ l2, E e l2) l1) l →
    wpd (S d) (rayon_join p1 p2) Φ E l.
  Proof. intros H. simpl. rewrite Nat.sub_0_r. split; [lia|]. done. Qed.

  (** Sequential programs. *)
  Lemma wpd_known {A} (p : P A) d :
    nest 0 p → ∀ (Φ Φ' : A → list T → Prop) (E E' : exn → list T → Prop) l,
    wp ans p Φ E l → (∀ a l', length l' = length l → Φ a l' → Φ' a l') →
    (∀ e l', length l' = length l → E e l' → E' e l') → wpd d p Φ' E' l.
  Proof.
    induction p as [A a|A e|A i k IH|A i x k IH|A q k IH|A B C p1 IH1 p2 IH2 k IH| |];
      intros Hn Φ Φ' E E' l Hwp HΦ HE; simpl in *; auto.
    - destruct (l !! i) as [x|]; [|done]. eauto.
    - destruct Hwp as [Hi Hwp]. split; [done|].
      eapply IH; [done|exact Hwp| |]; intros ? ? Hl; [apply HΦ|apply HE]; by rewrite insert_length in Hl.
    - intros r Hr. eauto.
    - by destruct Hn as [? _]; lia.
  Qed.

  (** ** Schedules *)
  Lemma wpd_frame {A} F (p : P A) act :
    fp F p → (∀ i, touches act i → F i → False) →
    ∀ d (Φ Φ' : A → list T → Prop) (E E' : exn → list T → Prop) l l',
    effect act l l' → wpd d p Φ E l →
    (∀ a m m', effect act m m' → Φ a m → Φ' a m') →
    (∀ e m m', effect act m m' → E e m → E' e m') →
    wpd d p Φ' E' l'.
  Proof.
    intros Hfp Ht.
    assert (Hgen : ∀ G : nat → Prop, (∀ i, G i → F i) → fp G p →
      ∀ d (Φ Φ' : A → list T → Prop) (E E' : exn → list T → Prop) l l',
      effect act l l' → wpd d p Φ E l →
      (∀ a m m', effect act m m' → Φ a m → Φ' a m') →
      (∀ e m m', effect act m m' → E e m → E' e m') → wpd d p Φ' E' l');
      [|by eapply Hgen].
    clear Hfp.
    induction p as [A a|A e|A i k IH|A i x k IH|A q k IH|A B C p1 IH1 p2 IH2 k IH| |];
      intros G HG Hfp d Φ Φ' E E' l l' Hef Hwp HΦ HE; simpl in *; try done.
    - by eapply HΦ.
    - by eapply HE.
    - destruct Hfp as [HF Hk].
      assert (l' !! i = l !! i) as ->.
      { destruct act as [|j y|j y]; simpl in *; [by subst|by destruct Hef as [_ ->]|].
        destruct Hef as [_ ->]. rewrite list_lookup_insert_ne; [done|]. intros ->. eauto. }
      destruct (l !! i); [|done]. eauto.
    - destruct Hfp as [HF Hk], Hwp as [Hi Hwp].
      split; [by rewrite (effect_length _ _ _ Hef)|].
      eapply (IH G HG Hk); [|exact Hwp|done|done].
      destruct act as [|j y|j y]; simpl in *.
      + by subst.
      + destruct Hef as [Hj ->]. split; [|done]. rewrite list_lookup_insert_ne; [done|]. intros ->. eauto.
      + destruct Hef as [Hj ->]. split; [by rewrite insert_length|].
        rewrite list_insert_commute; [done|]. intros ->. eauto.
    - intros r Hr. eapply (IH r G HG (Hfp r)); eauto.
    - destruct Hfp as [(F1 & F2 & H1 & H2 & Hd & Hp1 & Hp2) Hk], Hwp as [H0 Hwp]. split; [done|].
      eapply (IH1 F1); [eauto|done|exact Hef|exact Hwp| |]; intros b m m' Hm Hwp2; simpl in *;
        (eapply (IH2 F2); [eauto|done|exact Hm|exact Hwp2| |]; intros c m2 m2' Hm2 Hk2; simpl in *;
         eapply (IH _ _ G HG); eauto).
  Qed.
  Lemma wpd_result {A} (p : P A) r d Φ E l :
    result p = Some r → wpd d p Φ E l → match r with inl a => Φ a l | inr e => E e l end.
  Proof. destruct p; simpl; intros [= <-]; done. Qed.
  Lemma wpd_step {A} F (p : P A) act p' :
    fp F p → step ans p act p' → ∀ d Φ E l l', effect act l l' →
    wpd d p Φ E l → wpd d p' Φ E l'.
  Proof.
    revert F act p'.
    induction p as [A a|A e|A i k IH|A i x k IH|A q k IH|A B C p1 IH1 p2 IH2 k IH| |];
      intros F act p' Hfp Hs d Φ E l l' Hef Hwp; simpl in *; try done.
    - destruct Hs as (x & -> & ->). simpl in Hef. destruct Hef as [Hx ->]. by rewrite Hx in Hwp.
    - destruct Hs as (-> & ->). simpl in Hef. destruct Hef as [Hx ->]. by destruct Hwp.
    - destruct Hs as (r & Hr & -> & ->). simpl in Hef. subst. eauto.
    - destruct Hfp as [(F1 & F2 & H1 & H2 & Hd & Hp1 & Hp2) Hk], Hwp as [H0 Hwp].
      destruct Hs as [(p1' & Hs & ->)|[(p2' & Hs & ->)|(b & c & Hb & Hc & -> & ->)]].
      + simpl. split; [done|]. eapply IH1; eauto.
      + simpl. split; [done|]. eapply (wpd_frame F1 p1 act Hp1); [|exact Hef|exact Hwp| |].
        * intros i Hi. destruct (fp_step _ _ _ _ _ Hp2 Hs) as [_ HF2]. eauto.
        * intros b m m' Hm Hwp2. simpl in *. eapply (IH2 _ _ _ Hp2 Hs); eauto.
        * intros b m m' Hm Hwp2. simpl in *. eapply (IH2 _ _ _ Hp2 Hs); eauto.
      + simpl in Hef. subst.
        apply (wpd_result _ _ _ _ _ _ Hb) in Hwp. destruct b as [b|e];
          apply (wpd_result _ _ _ _ _ _ Hc) in Hwp; by destruct c.
  Qed.

  Section total.
    Hypothesis total : ∀ q, ∃ r, ans q r.
    Lemma wpd_ends {A} (p : P A) d Φ E l :
      wpd d p Φ E l → ∃ l', (∃ a, Φ a l') ∨ ∃ e, E e l'.
    Proof.
      revert d Φ E l.
      induction p as [A a|A e|A i k IH|A i x k IH|A q k IH|A B C p1 IH1 p2 IH2 k IH| |];
        intros d Φ E l Hwp; simpl in *; try done; eauto 10.
      - destruct (l !! i); [|done]. eauto.
      - destruct Hwp. eauto.
      - destruct (total q) as [r Hr]. eauto.
      - destruct Hwp as [_ Hwp].
        destruct (IH1 _ _ _ _ Hwp) as (l1 & [[b H1]|[b H1]]);
          destruct (IH2 _ _ _ _ H1) as (l2 & [[e H2]|[e H2]]); eauto.
    Qed.
    Lemma wpd_active {A} (p : P A) d Φ E l : wpd d p Φ E l → active p ≤ d.
    Proof.
      revert d Φ E l.
      induction p as [A a|A e|A i k IH|A i x k IH|A q k IH|A B C p1 IH1 p2 IH2 k IH| |];
        intros d Φ E l Hwp; simpl in *; try lia.
      destruct Hwp as [H0 Hwp]. pose proof (IH1 _ _ _ _ Hwp).
      destruct (wpd_ends _ _ _ _ _ Hwp) as (l1 & [[b H2]|[b H2]]); apply IH2 in H2; lia.
    Qed.
    Lemma wpd_steps {A} F (p : P A) d Φ E l p' l' :
      fp F p → wpd d p Φ E l → rtc (stepm ans) (p, l) (p', l') → active p' ≤ d.
    Proof.
      intros Hfp Hwp Hs. remember (p, l) as c eqn:Hc. remember (p', l') as c' eqn:Hc'.
      revert p l Hc Hfp Hwp.
      induction Hs as [c|c c2 c3 (act & Hstep & Hef) Hs IH]; intros p l Hc Hfp Hwp.
      - simplify_eq. by eapply wpd_active.
      - subst. destruct c2 as [p2 l2]. simpl in *. eapply (IH eq_refl p2 l2); [done| |].
        + exact (proj1 (fp_step _ _ _ _ _ Hfp Hstep)).
        + exact (wpd_step _ _ _ _ Hfp Hstep _ _ _ _ _ Hef Hwp).
    Qed.
  End total.

  (** The run with one task after the other. *)
  Lemma wpd_run {S A} (o : S → Q → R * S) (p : P A) :
    (∀ s q, ans q (o s q).1) →
    ∀ d Φ E s l, wpd d p Φ E l →
    join_depth o p s l ≤ d ∧
    match run o p s l with
    | (Done a, _, l') => Φ a l'
    | (Panicked e, _, l') => E e l'
    | (Undefined, _, _) | (Diverged, _, _) => False
    end.
  Proof.
    intros Ho.
    induction p as [A a|A e|A i k IH|A i x k IH|A q k IH|A B C p1 IH1 p2 IH2 k IH| |];
      intros d Φ E s l Hwp; simpl in *; auto with lia.
    - destruct (l !! i) as [x|]; [|done]. exact (IH x d Φ E s l Hwp).
    - destruct Hwp as [Hi Hwp]. rewrite !decide_True by done. exact (IH d Φ E s _ Hwp).
    - destruct (o s q) as [r s'] eqn:Ho'. specialize (Ho s q). rewrite Ho' in Ho.
      exact (IH r d Φ E s' l (Hwp r Ho)).
    - destruct Hwp as [H0 Hwp]. specialize (IH1 _ _ _ s l Hwp) as [Hd1 IH1]. simpl in IH1.
      destruct (run o p1 s l) as [[[b|e1| |] s1] l1]; simpl in *; try done;
        specialize (IH2 _ _ _ s1 l1 IH1) as [Hd2 IH2]; simpl in IH2;
        destruct (run o p2 s1 l1) as [[[c|e2| |] s2] l2]; simpl in *; try done;
        match goal with |- context [k ?b ?c] =>
          destruct (IH b c d Φ E s2 l2 IH2) as [Hd3 IH3] end; (split; [lia|done]).
  Qed.
End wpd.

Lemma wpd_by_compare {T A} (ans : T * T → option comparison → Prop) (p : cmp_prog T A) :
  ∀ d Φ E l, wpd (less_ans ans) d p Φ E l → wpd ans d (by_compare p) Φ E l.
Proof.
  unfold by_compare.
  induction p as [A a|A e|A i k IH|A i x k IH|A q k IH|A B C p1 IH1 p2 IH2 k IH| |];
    intros d Φ E l Hwp; simpl in *; auto.
  - destruct (l !! i); [|done]. eauto.
  - destruct Hwp. eauto.
  - intros r Hr. apply IH, Hwp. by exists r.
  - destruct Hwp as [H0 Hwp]. split; [done|].
    eapply IH1, wpd_mono; [exact Hwp|done| |]; simpl; intros b l1 _ H1;
      (eapply IH2, wpd_mono; [exact H1|done| |]; simpl; intros c l2 _ H2; by apply IH).
Qed.

Global Opaque wp bind focus relocate fp wpd.

Section sort.
  Context {T : Type} (c : cfg) (ans : T * T → option bool → Prop) (lt : T → T → bool).
  Hypothesis (Hswo : strict_weak_order lt) (Hcons : consistent ans lt).
  Notation kle := (kle ans).
  Notation klt := (klt ans).
  Implicit Types (l : list T).
  Notation yes := (λ _ _, True).

  Lemma par_qs_recurse_depth fuel n pred limit wb wp l m :
    n = length l → n < fuel →
    (∀ p, pred = Some p → Forall (kle p) l) →
    chain lt m pred l →
    wpd ans (m - 1) (par_qs_recurse c fuel n pred limit wb wp) yes yes l.
  Proof.
    revert n pred limit wb wp l m.
    induction fuel as [|f IHf]; intros n pred limit wb wp l m Hn Hf Hpred Hb; [lia|].
    cbn [par_qs_recurse].
    unfold QS_MAX_INSERTION. destruct (Nat.leb_spec n 20) as [Hs|Hs].
    { destruct (Nat.leb_spec 2 n); [|done].
      eapply wpd_known; [|apply (insertion_sort_shift_left_spec c ans n 1 l); [done|lia]|done|done].
      eapply costs_nest', (insertion_sort_shift_left_cost c n 1 _ 0), le_n. }
    destruct (Nat.eqb_spec limit 0) as [Hl|Hl].
    { eapply wpd_known; [|by apply (heap_sort_spec ans n l)|done|done].
      eapply costs_nest', (heap_sort_cost n _ 0), le_n. }
    (* break_patterns *)
    apply wpd_bind.
    eapply wpd_known with (Φ := (λ _ l', l' ≡ₚ l)) (E := (upanic ans l)); [| | |done].
    { destruct wb; [done|]. eapply costs_nest', (costs_bind _ _ _ 0 0), costs_mono;
        [apply costs_silent, break_patterns_silent|]. intros [] k' _ ->.
      by apply costs_usub with (Φ := λ _ _, True). }
    { destruct wb; [by apply wp_ret|]. apply wp_bind.
      wp_apply (break_patterns_spec ans c n l (upanic ans l)); [done| |by auto].
      intros [] l' _ Hp. apply wp_usub; [lia|done]. }
    intros limit' l1 Hl1 Hp1.
    (* choose_pivot *)
    apply wpd_bind.
    eapply wpd_known; [|apply (choose_pivot_spec ans n l1); lia| |done].
    { eapply costs_nest', (choose_pivot_cost n _ 0), le_n. }
    cbv beta. intros [pivot likely] l2 Hl2 [Hp2 Hpiv]. rewrite Hp1 in Hp2.
    (* partial insertion sort *)
    apply wpd_bind.
    eapply wpd_known with (Φ := (λ b l', l' ≡ₚ l)) (E := (upanic ans l)); [| | |done].
    { destruct (_ && _); [|done].
      eapply costs_nest', (partial_insertion_sort_cost c n _ 0), le_n. lia. }
    { destruct (wb && wp && likely).
      - wp_apply (partial_insertion_sort_spec c ans n l2); [lia| |].
        + intros ? l' _ [Hp Hpi]. by rewrite Hp.
        + intros e l' _ Hu. by eapply upanic_perm.
      - by apply wp_ret. }
    intros fin l3 Hl3 Hp3. destruct fin; [done|].
    destruct (lookup_lt_is_Some_2 l3 pivot) as [p Hp]; [lia|].
    (* compare with the predecessor *)
    apply wpd_bind.
    eapply wpd_known with (Φ := (λ b l', l' = l3 ∧ if b : bool then ∃ q, pred = Some q ∧ kle p q
        else ∀ q, pred = Some q → klt q p)) (E := (upanic ans l)); [| | |done].
    { destruct pred as [q|]; [|done]. apply nest_get. intros x _. apply nest_bind; [|done]. intros [[]|]; done. }
    { destruct pred as [q|]; [|by apply wp_ret].
      apply wp_bind, wp_get; [lia|lia|]. intros x Hx. rewrite Hp in Hx. injection Hx as <-.
      apply wp_bind, wp_is_less; [|intros Hr; by eapply upanic_intro].
      intros r Hr. apply wp_ret. split; [done|]. destruct r; cbn [negb].
      - intros q' [= <-]. by apply ans_true.
      - exists q. split; [done|]. by apply ans_false. }
    intros eq l' _ [-> Heq]. destruct eq.
    { (* equal to the predecessor *)
      destruct Heq as (q & -> & Hpq).
      apply wpd_bind.
      eapply wpd_known; [|apply (partition_equal_spec ans n pivot l3 p); [lia|done]| |done].
      { eapply costs_nest', (partition_equal_cost n pivot _ 0), le_n. }
      cbv beta. intros mid l4 Hl4 (Hp4 & Hmid & Hmid0 & Hlo & Hhi).
      specialize (Hmid0 ltac:(lia)). specialize (Hhi ltac:(lia)).
      apply rng_drop in Hhi; [|lia].
      assert (Hl4' : l4 = take mid l4 ++ drop mid l4 ++ []).
      { by rewrite app_nil_r, take_drop. }
      assert (Hp04 : l4 ≡ₚ l) by (by rewrite Hp4).
      assert (Hlt : length (take mid l4) = mid) by (rewrite take_length; lia).
      assert (Hld : length (drop mid l4) = n - mid) by (rewrite drop_length; lia).
      assert (Hch : chain lt (m - 1) (Some q) (drop mid l4)).
      { eapply (chain_equal ans lt Hswo Hcons m q _ l l4 p); try done.
        rewrite <-Hp3. by eapply elem_of_list_lookup_2. }
      rewrite Hl4' at 1.
      apply wpd_slice_app; [done|rewrite Hld; lia|lia|].
      eapply wpd_mono; [apply (IHf _ (Some q) limit' wb wp (drop mid l4) (m - 1))|..];
        try done; try lia.
      intros q' [= <-]. apply Forall_drop. rewrite Hp04. by apply Hpred. }
    (* partition *)
    apply wpd_bind.
    eapply wpd_known; [|apply (partition_spec c ans n pivot l3 p); [lia|done]| |done].
    { eapply costs_nest', (partition_cost c n pivot _ 0), le_n. }
    cbv beta. intros [mid was_p] l4 Hl4 (Hp4 & Hmp & Hlo & Hhi).
    pose proof (lookup_lt_Some _ _ _ Hmp) as Hmid.
    apply rng_drop in Hhi; [|lia].
    apply wpd_bind.
    eapply wpd_known with (Φ := (λ r l', r = n - mid ∧ l' = l4)) (E := yes); [| | |done].
    { unfold usub. by destruct (_ <=? _). }
    { apply wp_usub; [lia|done]. }
    intros nmid l' _ [-> ->].
    apply wpd_bind.
    eapply wpd_known with (Φ := (λ _ l', l' = l4)) (E := (upanic ans l)); [| | |done].
    { apply nest_slice. intros _ _. apply nest_slice. done. }
    { apply wp_slice; [lia|lia|lia|].
      apply wp_slice_check; [lia|lia|rewrite sub_length; lia|]. intros Hls.
      rewrite (drop_ge l4 n) by lia. rewrite app_nil_r.
      rewrite (take_ge (drop mid l4)) by (rewrite drop_length; lia). by rewrite take_drop. }
    intros [] l' _ ->.
    apply wpd_bind.
    eapply wpd_known with (Φ := (λ r l', r = p ∧ l' = l4)) (E := yes); [| | |done].
    { unfold get. by destruct (_ <? _). }
    { apply wp_get; [lia|lia|]. intros p' Hp'. rewrite Hmp in Hp'. by injection Hp' as <-. }
    intros p' l' _ [-> ->].
    assert (Hp04 : l4 ≡ₚ l) by (by rewrite Hp4).
    assert (Hpred4 : ∀ q, pred = Some q → Forall (kle q) l4).
    { intros q Hq. rewrite Hp04. auto. }
    apply rng_take in Hlo. clear Hp4 Hp3 Hp.
    set (A := take mid l4) in *. set (R := drop (S mid) l4) in *.
    assert (Hl4e : l4 = A ++ p :: R) by (by apply bound_split).
    assert (HlA : length A = mid) by (unfold A; rewrite take_length; lia).
    assert (HlR : length R = n - (mid + 1)) by (unfold R; rewrite drop_length; lia).
    assert (Hpart : parted ans pred A p R) by (by split; [|split]).
    clearbody A R. subst l4.
    assert (HpredA : ∀ q, pred = Some q → Forall (kle q) A).
    { intros q Hq. specialize (Hpred4 q Hq). by apply Forall_app in Hpred4 as [? _]. }
    destruct (chain_split ans lt Hswo Hcons m pred l A p R Hb Hp04 Hpart) as [HcA HcR].
    assert (HpredR : ∀ q, Some p = Some q → Forall (kle q) R) by (by intros q [= <-]).
    assert (HIA : ∀ lm wb' wp', wpd ans (m - 1 - 1) (par_qs_recurse c f (length A) pred lm wb' wp') yes yes A).
    { intros. apply IHf; [done|lia|done|done]. }
    assert (HIR : ∀ lm wb' wp', wpd ans (m - 1 - 1) (par_qs_recurse c f (length R) (Some p) lm wb' wp') yes yes R).
    { intros. apply IHf; [done|lia|done|done]. }
    destruct (sequential (Nat.max mid (n - (mid + 1)))) eqn:Hseq.
    2: { (* in parallel *)
      assert (Hm : 0 < m - 1).
      { unfold sequential in Hseq. apply N.leb_gt in Hseq.
        destruct (decide (A = [])) as [->|HA]; [|exact (chain_nonempty _ _ _ _ HcA HA)].
        destruct (decide (R = [])) as [->|HR]; [|exact (chain_nonempty _ _ _ _ HcR HR)].
        simpl in *. lia. }
      replace (m - 1) with (S (m - 1 - 1)) by lia.
      apply wpd_bind, wpd_join.
      change (A ++ p :: R) with ([] ++ A ++ p :: R).
      apply wpd_slice_app; [done|simpl; lia|lia|].
      eapply wpd_mono; [apply HIA|done| |]; intros ? A' HlA' _ _; simpl;
        (replace (A' ++ p :: R) with ((A' ++ [p]) ++ R ++ []) by (by rewrite app_nil_r, <-app_assoc);
         assert (HlAp : length (A' ++ [p]) = mid + 1) by (rewrite app_length; simpl; lia);
         apply wpd_slice_app; [done|lia|lia|];
         eapply wpd_mono; [apply HIR|done| |]; by intros). }
    destruct (Nat.ltb_spec mid (n - (mid + 1))).
    - (* recurse left, continue right *)
      apply wpd_bind. change (A ++ p :: R) with ([] ++ A ++ p :: R).
      apply wpd_slice_app; [done|simpl; lia|lia|].
      eapply wpd_mono; [apply HIA|lia| |by intros].
      intros [] A' HlA' _ _. simpl.
      replace (A' ++ p :: R) with ((A' ++ [p]) ++ R ++ []) by (by rewrite app_nil_r, <-app_assoc).
      assert (HlAp : length (A' ++ [p]) = mid + 1) by (rewrite app_length; simpl; lia).
      apply wpd_slice_app; [done|lia|lia|].
      eapply wpd_mono; [apply HIR|lia|by intros|by intros].
    - (* recurse right, continue left *)
      apply wpd_bind.
      replace (A ++ p :: R) with ((A ++ [p]) ++ R ++ []) by (by rewrite app_nil_r, <-app_assoc).
      assert (HlAp : length (A ++ [p]) = mid + 1) by (rewrite app_length; simpl; lia).
      apply wpd_slice_app; [done|lia|lia|].
      eapply wpd_mono; [apply HIR|lia| |by intros].
      intros [] B' HlB' _ _. rewrite app_nil_r, <-app_assoc. simpl.
      change (A ++ p :: B') with ([] ++ A ++ p :: B').
      apply wpd_slice_app; [done|simpl; lia|lia|].
      eapply wpd_mono; [apply HIA|lia|by intros|by intros].
  Qed.
End sort.

Lemma par_quick_sort_depth {T} (c : cfg) (ans : T * T → option bool → Prop) lt k (l : list T) :
  strict_weak_order lt → consistent ans lt → few_values lt k l →
  wpd ans (2 * k - 1) (par_quick_sort c (length l)) (λ _ _, True) (λ _ _, True) l.
Proof.
  intros Hs Hc Hk. unfold par_quick_sort. destruct (zst c); [done|].
  apply (par_qs_recurse_depth c ans lt Hs Hc); [done|lia|done|]. by apply few_values_chain.
Qed.

Lemma par_sort_unstable_depth_few {T S} (c : cfg) (o : S → T * T → option bool * S) lt s (l : list T) k :
  strict_weak_order lt → (∀ s x y b, (o s (x, y)).1 = Some b → b = lt x y) → few_values lt k l →
  join_depth o (par_sort_unstable c (length l)) s l ≤ 2 * k - 1.
Proof.
  intros Hs Ho Hk. set (ans := λ (q : T * T) (r : option bool), ∀ b, r = Some b → b = lt q.1 q.2).
  assert (Hc : consistent ans lt) by (intros x y r H; by apply H).
  eapply (wpd_run ans o); [|by apply (par_quick_sort_depth c ans lt)].
  intros s' [x y] b. apply Ho.
Qed.
Lemma par_sort_unstable_active_few {T} (c : cfg) (cmp : T → T → comparison)
    (ans : T * T → option comparison → Prop) (l : list T) k p' l' :
  strict_weak_order (is_lt cmp) → (∀ q, ∃ r, ans q r) →
  (∀ x y r, ans (x, y) (Some r) → r = cmp x y) → few_values (is_lt cmp) k l →
  rtc (stepm ans) (par_sort_unstable_by c (length l), l) (p', l') →
  active p' ≤ 2 * k - 1.
Proof.
  intros Hs Ht Ha Hk.
  assert (Hc : consistent (less_ans ans) (is_lt cmp)).
  { intros x y r (r0 & Hr & Hr0). destruct r0 as [r0|]; [|done]. apply Ha in Hr as ->.
    unfold is_lt. destruct (cmp x y); congruence. }
  eapply wpd_steps; [done|apply within_by_compare, within_par_quick_sort|].
  apply wpd_by_compare. by eapply par_quick_sort_depth.
Qed.
