(** * Bounds on the number of calls in every schedule.

    [wpg (cnt_ans ans)] counts the calls of a program whose tasks are executed one after
    the other.  If the tasks have disjoint footprints, the bound holds in every
    schedule. *)
From Verif Require Export CMany CallSpec TPar FootMerge.
From stdpp Require Import list relations.

Local Transparent wpg bind fp.
Local Arguments wpg {T Q R G A} ans !p Φ E g l.
Local Arguments bind {T Q R A B} !p f.
Local Arguments fp {T Q R A} F !p.
Local Arguments step {T Q R} ans {A} !p act.
Local Arguments call_step {T Q R} ans {A} !p.
Local Arguments with_asks {T Q R Q' R'} h {A} !p.

Section sched.
  Context {T Q R : Type} (ans : Q → R → Prop).
  Notation P A := (prog T Q R A).
  Notation ok := (cnt_ans ans).

  (** An action outside of the footprint and [d] calls in between. *)
  Lemma wpg_frame {A} F (p : P A) act d :
    fp F p → (∀ i, touches act i → F i → False) →
    ∀ (Φ Φ' : A → nat → list T → Prop) (E E' : exn → nat → list T → Prop) g l l',
    effect act l l' → wpg ok p Φ E g l →
    (∀ a g m m', effect act m m' → Φ a g m → Φ' a (d + g) m') →
    (∀ e g m m', effect act m m' → E e g m → E' e (d + g) m') →
    wpg ok p Φ' E' (d + g) l'.
  Proof.
    intros Hfp Ht.
    assert (Hgen : ∀ G : nat → Prop, (∀ i, G i → F i) → fp G p →
      ∀ (Φ Φ' : A → nat → list T → Prop) (E E' : exn → nat → list T → Prop) g l l',
      effect act l l' → wpg ok p Φ E g l →
      (∀ a g m m', effect act m m' → Φ a g m → Φ' a (d + g) m') →
      (∀ e g m m', effect act m m' → E e g m → E' e (d + g) m') → wpg ok p Φ' E' (d + g) l');
      [|by eapply Hgen].
    clear Hfp.
    induction p as [A a|A e|A i k IH|A i x k IH|A q k IH|A B C p1 IH1 p2 IH2 k IH| |];
      intros G HG Hfp Φ Φ' E E' g l l' Hef Hwp HΦ HE; simpl in *; try done.
    - by eapply HΦ.
    - by eapply HE.
    - destruct Hfp as [HF Hk].
      assert (l' !! i = l !! i) as ->.
      { destruct act as [|j y|j y]; simpl in *; [by subst|by destruct Hef as [_ ->]|].
        destruct Hef as [_ ->]. rewrite list_lookup_insert_ne; [done|]. intros ->. eauto. }
      destruct (l !! i); [|done]. eauto.
    - destruct Hfp as [HF Hk], Hwp as [Hi Hwp].
      split; [by rewrite (effect_length _ _ _ Hef)|].
      eapply (IH G HG Hk); [|exact Hwp|done|done].
      destruct act as [|j y|j y]; simpl in *.
      + by subst.
      + destruct Hef as [Hj ->]. split; [|done]. rewrite list_lookup_insert_ne; [done|]. intros ->. eauto.
      + destruct Hef as [Hj ->]. split; [by rewrite insert_length|].
        rewrite list_insert_commute; [done|]. intros ->. eauto.
    - intros r g' [Hr ->]. replace (S (d + g)) with (d + S g) by lia.
      eapply (IH r G HG (Hfp r)); [exact Hef|by apply Hwp|done|done].
    - destruct Hfp as [(F1 & F2 & H1 & H2 & Hd & Hp1 & Hp2) Hk].
      eapply (IH1 F1); [eauto|done|exact Hef|exact Hwp| |]; intros b g1 m m' Hm Hwp2; simpl in *;
        (eapply (IH2 F2); [eauto|done|exact Hm|exact Hwp2| |]; intros c g2 m2 m2' Hm2 Hk2; simpl in *;
         eapply (IH _ _ G HG); eauto).
  Qed.

  Lemma wpg_result {A} (p : P A) r Φ E g l :
    result p = Some r → wpg ok p Φ E g l → match r with inl a => Φ a g l | inr e => E e g l end.
  Proof. destruct p; simpl; intros [= <-]; done. Qed.

  (** A step is no call or one call. *)
  Lemma wpg_step {A} F (p : P A) act p' :
    fp F p → step ans p act p' → ∃ d, ∀ Φ E g l l', effect act l l' →
    wpg ok p Φ E g l → wpg ok p' Φ E (d + g) l'.
  Proof.
    revert F act p'.
    induction p as [A a|A e|A i k IH|A i x k IH|A q k IH|A B C p1 IH1 p2 IH2 k IH| |];
      intros F act p' Hfp Hs; simpl in *; try done.
    - destruct Hs as (x & -> & ->). exists 0. intros Φ E g l l' [Hx ->] Hwp. by rewrite Hx in Hwp.
    - destruct Hs as (-> & ->). exists 0. intros Φ E g l l' [Hx ->] Hwp. by destruct Hwp.
    - destruct Hs as (r & Hr & -> & ->). exists 1. intros Φ E g l l' -> Hwp. by apply Hwp.
    - destruct Hfp as [(F1 & F2 & H1 & H2 & Hd & Hp1 & Hp2) Hk].
      destruct Hs as [(p1' & Hs & ->)|[(p2' & Hs & ->)|(b & c & Hb & Hc & -> & ->)]].
      + destruct (IH1 _ _ _ Hp1 Hs) as [d H]. exists d. intros Φ E g l l' Hef Hwp. simpl.
        by eapply H.
      + destruct (IH2 _ _ _ Hp2 Hs) as [d H]. exists d. intros Φ E g l l' Hef Hwp. simpl.
        eapply (wpg_frame F1 p1 act d Hp1); [|exact Hef|exact Hwp| |].
        * intros i Hi. destruct (fp_step _ _ _ _ _ Hp2 Hs) as [_ HF2]. eauto.
        * intros b g1 m m' Hm Hwp2. simpl in *. by eapply H.
        * intros b g1 m m' Hm Hwp2. simpl in *. by eapply H.
      + exists 0. intros Φ E g l l' -> Hwp.
        apply (wpg_result _ _ _ _ _ _ Hb) in Hwp. destruct b as [b|e];
          apply (wpg_result _ _ _ _ _ _ Hc) in Hwp; by destruct c.
  Qed.
  Lemma call_step_step {A} (p p' : P A) : call_step ans p p' → step ans p Tau p'.
  Proof.
    revert p'.
    induction p as [A a|A e|A i k IH|A i x k IH|A q k IH|A B C p1 IH1 p2 IH2 k IH| |];
      intros p' Hs; simpl in *; try done.
    - destruct Hs as (r & Hr & ->). eauto.
    - destruct Hs as [(p1' & Hs & ->)|(p2' & Hs & ->)]; eauto 10.
  Qed.
  Lemma wpg_call {A} F (p p' : P A) :
    fp F p → call_step ans p p' → ∀ Φ E g l, wpg ok p Φ E g l → wpg ok p' Φ E (S g) l.
  Proof.
    revert F p'.
    induction p as [A a|A e|A i k IH|A i x k IH|A q k IH|A B C p1 IH1 p2 IH2 k IH| |];
      intros F p' Hfp Hs Φ E g l Hwp; simpl in *; try done.
    - destruct Hs as (r & Hr & ->). by apply Hwp.
    - destruct Hfp as [(F1 & F2 & H1 & H2 & Hd & Hp1 & Hp2) Hk].
      destruct Hs as [(p1' & Hs & ->)|(p2' & Hs & ->)]; simpl.
      + by eapply IH1.
      + change (S g) with (1 + g).
        eapply (wpg_frame F1 p1 Tau 1 Hp1); [done|done|exact Hwp| |];
          intros b g1 m m' -> Hwp2; by eapply IH2.
  Qed.

  Hypothesis total : ∀ q, ∃ r, ans q r.
  Lemma wpg_count_ends {A} (p : P A) Φ E g l :
    wpg ok p Φ E g l → ∃ g' l', g ≤ g' ∧ ((∃ a, Φ a g' l') ∨ ∃ e, E e g' l').
  Proof.
    revert Φ E g l.
    induction p as [A a|A e|A i k IH|A i x k IH|A q k IH|A B C p1 IH1 p2 IH2 k IH| |];
      intros Φ E g l Hwp; simpl in *; try done; eauto 10.
    - destruct (l !! i); [|done]. eauto.
    - destruct Hwp. eauto.
    - destruct (total q) as [r Hr]. destruct (IH r Φ E (S g) l) as (g' & l' & Hg & H); [by apply Hwp|].
      exists g', l'. split; [lia|done].
    - destruct (IH1 _ _ _ _ Hwp) as (g1 & l1 & Hg1 & [[b H1]|[b H1]]);
        destruct (IH2 _ _ _ _ H1) as (g2 & l2 & Hg2 & [[d H2]|[d H2]]);
        destruct (IH _ _ _ _ _ _ H2) as (g3 & l3 & Hg3 & H3); exists g3, l3; (split; [lia|done]).
  Qed.

  Lemma calls_made_bound {A} F (p : P A) b l m c' :
    fp F p → wpg ok p (λ _ g _, g ≤ b) (λ _ g _, g ≤ b) 0 l →
    calls_made ans m (p, l) c' → m ≤ b.
  Proof.
    intros Hfp Hwp Hm.
    assert (H : ∀ m c c', calls_made ans m c c' → ∀ (p : P A) l g, c = (p, l) → fp F p →
      wpg ok p (λ _ g _, g ≤ b) (λ _ g _, g ≤ b) g l → g + m ≤ b).
    2: { eapply (H m _ _ Hm p l 0); done. }
    clear -total. intros m c c' Hm.
    induction Hm as [c|m p p' l c Hs Hm IH|m c c' c'' Hs Hm IH]; intros p0 l0 g Hc Hfp Hwp.
    - destruct (wpg_count_ends _ _ _ _ _ Hwp) as (g' & l' & Hg & [[? ?]|[? ?]]); lia.
    - injection Hc as <- <-.
      specialize (IH p' l (S g) eq_refl
        (proj1 (fp_step _ _ _ _ _ Hfp (call_step_step _ _ Hs))) (wpg_call _ _ _ Hfp Hs _ _ _ _ Hwp)).
      lia.
    - subst c. destruct c' as [p' l'], Hs as (act & Hs & Hef). simpl in *.
      destruct (wpg_step _ _ _ _ Hfp Hs) as [d Hd].
      specialize (IH p' l' (d + g) eq_refl (proj1 (fp_step _ _ _ _ _ Hfp Hs)) (Hd _ _ _ _ _ Hef Hwp)).
      lia.
  Qed.
End sched.

(** ** Closures that call other closures *)
Lemma wpg_with_asks {T Q R Q' R' A} (h : Q → prog T Q' R' R) (ans : Q → R → Prop)
    (ans' : Q' → R' → Prop) w (p : prog T Q R A) :
  (∀ q (Φ : R → nat → list T → Prop) (E : exn → nat → list T → Prop) g l, (∀ r g', ans q r → g' ≤ w + g → Φ r g' l) → wpg (cnt_ans ans') (h q) Φ E g l) →
  ∀ Φ E g g0 l, g ≤ w * g0 → wpg (cnt_ans ans) p Φ E g0 l →
  wpg (cnt_ans ans') (with_asks h p) (λ a g l, ∃ g0, g ≤ w * g0 ∧ Φ a g0 l)
    (λ e g l, ∃ g0, g ≤ w * g0 ∧ E e g0 l) g l.
Proof.
  intros Hh.
  induction p as [A a|A e|A i k IH|A i x k IH|A q k IH|A B C p1 IH1 p2 IH2 k IH| |];
    intros Φ E g g0 l Hg Hwp; simpl in *; eauto.
  - destruct (l !! i); [|done]. eauto.
  - destruct Hwp. eauto.
  - apply wpg_bind. apply Hh. intros r g' Hr Hg'. apply (IH r _ _ g' (S g0)); [lia|]. by apply Hwp.
  - eapply wpg_mono; [eapply IH1; [exact Hg|exact Hwp]| |]; simpl; intros b g1 l1 _ (g1' & Hg1 & H1);
      (eapply wpg_mono; [eapply IH2; [exact Hg1|exact H1]| |]; simpl;
       intros d g2 l2 _ (g2' & Hg2 & H2); by eapply IH).
Qed.

Lemma wpg_by_compare {T A} (ans : T * T → option comparison → Prop) (p : cmp_prog T A) b l :
  wpg (cnt_ans (less_ans ans)) p (λ _ g _, g ≤ b) (λ _ g _, g ≤ b) 0 l →
  wpg (cnt_ans ans) (by_compare p) (λ _ g _, g ≤ b) (λ _ g _, g ≤ b) 0 l.
Proof.
  intros H. eapply wpg_mono.
  - apply (wpg_with_asks _ (less_ans ans) ans 1 p) with (g0 := 0); [|lia|exact H].
    intros q Φ E g m HΦ r g' [Hr ->]. apply HΦ; [by exists r|lia].
  - intros ? g' ? _ (g0 & ? & ?). lia.
  - intros ? g' ? _ (g0 & ? & ?). lia.
Qed.
Lemma wpg_by_key {T K A} (ans : key_question (T:=T) K → key_answer K → Prop) (p : cmp_prog T A) b l :
  wpg (cnt_ans (less_key_ans ans)) p (λ _ g _, g ≤ b) (λ _ g _, g ≤ b) 0 l →
  wpg (cnt_ans ans) (by_key p) (λ _ g _, g ≤ 3 * b) (λ _ g _, g ≤ 3 * b) 0 l.
Proof.
  intros H. eapply wpg_mono.
  - apply (wpg_with_asks _ (less_key_ans ans) ans 3 p) with (g0 := 0); [|lia|exact H].
    intros [x y] Φ E g m HΦ r1 g1 [Hr1 ->]. destruct r1 as [ka| |].
    2, 3: apply HΦ; [right; split; [done|]; do 2 eexists; split; [exact Hr1|done]|lia].
    intros r2 g2 [Hr2 ->]. destruct r2 as [kb| |].
    2, 3: apply HΦ; [right; split; [done|]; do 2 eexists; split; [exact Hr2|done]|lia].
    intros r3 g3 [Hr3 ->]. destruct r3 as [|v|].
    1, 3: apply HΦ; [right; split; [done|]; do 2 eexists; split; [exact Hr3|done]|lia].
    apply HΦ; [left; eauto 10|lia].
  - intros ? g' ? _ (g0 & ? & ?). lia.
  - intros ? g' ? _ (g0 & ? & ?). lia.
Qed.

Lemma wpg_fewer {T Q R A} (ans ans' : Q → R → Prop) (p : prog T Q R A) :
  (∀ q r, ans' q r → ans q r) →
  ∀ Φ E g l, wpg (cnt_ans ans) p Φ E g l → wpg (cnt_ans ans') p Φ E g l.
Proof.
  intros Hs.
  induction p as [A a|A e|A i k IH|A i x k IH|A q k IH|A B C p1 IH1 p2 IH2 k IH| |];
    intros Φ E g l Hwp; simpl in *; eauto.
  - destruct (l !! i); [|done]. eauto.
  - destruct Hwp. eauto.
  - intros r g' [Hr ->]. apply IH, Hwp. split; auto.
  - eapply IH1, wpg_mono; [exact Hwp| |]; simpl; intros b g1 l1 _ H1;
      (eapply IH2, wpg_mono; [exact H1| |]; simpl; intros d g2 l2 _ H2; by apply IH).
Qed.
Global Opaque wpg bind fp.

Lemma less_ans_total {T} (ans : T * T → option comparison → Prop) :
  (∀ q, ∃ r, ans q r) → ∀ q, ∃ r, less_ans ans q r.
Proof. intros H q. destruct (H q) as [r Hr]. eexists. by exists r. Qed.

Section instances.
  Context {T : Type} (c : cfg).
  Implicit Types (l : list T).

  Lemma par_quick_sort_quadratic ans l :
    wpg (cnt_ans ans) (par_quick_sort c (length l))
      (λ _ g _, g ≤ 13 * (length l * length l) + 20 * length l)
      (λ _ g _, g ≤ 13 * (length l * length l) + 20 * length l) 0 l.
  Proof.
    destruct (zst c) eqn:Hz.
    { unfold par_quick_sort. rewrite Hz. apply wpg_ret. lia. }
    apply (par_quick_sort_calls c ans bud_any (bud_any_ok ans) (bud_any_fork ans)); [done|done|].
    unfold bud_any. lia.
  Qed.
  Lemma par_sort_unstable_by_schedule_quadratic ans l m c' :
    (∀ q, ∃ r, ans q r) →
    calls_made ans m (par_sort_unstable_by c (length l), l) c' →
    m ≤ 13 * (length l * length l) + 20 * length l.
  Proof.
    intros Ht. eapply calls_made_bound; [done|apply within_by_compare, within_par_quick_sort|].
    apply wpg_by_compare, par_quick_sort_quadratic.
  Qed.
  Lemma par_sort_unstable_by_key_schedule_quadratic {K} (ans : key_question K → key_answer K → Prop) l m c' :
    (∀ q, ∃ r, ans q r) →
    calls_made ans m (par_sort_unstable_by_key c (length l), l) c' →
    m ≤ 3 * (13 * (length l * length l) + 20 * length l).
  Proof.
    intros Ht. eapply calls_made_bound; [done|apply within_by_key, within_par_quick_sort|].
    apply wpg_by_key, par_quick_sort_quadratic.
  Qed.

  (** [ans] answers like [cmp] or panics. *)
  Lemma par_sort_unstable_by_schedule_small cmp ans l m c' :
    strict_weak_order (is_lt cmp) → (∀ q, ∃ r, ans q r) →
    (∀ x y r, ans (x, y) (Some r) → r = cmp x y) → (N.of_nat (length l) <= 2001)%N →
    calls_made ans m (par_sort_unstable_by c (length l), l) c' →
    m ≤ 340 * length l * (Nat.log2 (length l) + 1).
  Proof.
    intros Hs Ht Ha Hle. eapply calls_made_bound; [done|apply within_by_compare, within_par_quick_sort|].
    apply wpg_by_compare. destruct (zst c) eqn:Hz.
    { unfold par_quick_sort. rewrite Hz. apply wpg_ret. lia. }
    assert (Hc : consistent (less_ans ans) (is_lt cmp)).
    { intros x y r (r0 & Hr & Hr0). destruct r0 as [r0|]; [|done]. apply Ha in Hr as ->.
      unfold is_lt. destruct (cmp x y); congruence. }
    apply (par_quick_sort_calls c _ _ (bud_small_swo_ok (less_ans ans) _ (length l) Hs Hc)
      (bud_small_swo_fork (less_ans ans) (length l))); [done|done|].
    set (L := Nat.log2 (length l)).
    split; [done|]. split; [done|]. exists true. split; [done|].
    pose proof (psi_bound (length l)) as Hpsi. fold L in Hpsi |- *.
    assert (bit_length (length l) ≤ L + 1).
    { unfold L, bit_length. destruct (length l); lia. }
    rewrite (Nat.mul_comm 340), <-Nat.mul_assoc. apply Nat.mul_le_mono_l.
    unfold levels. simpl. lia.
  Qed.
End instances.

Lemma par_select_many_schedule (c : cfg) (M : nat) :
  ∃ K, ∀ (T : Type) (cmp : T → T → comparison) (l : list T) (vlen : nat) (indices : list nat) m c',
    strict_weak_order (is_lt cmp) →
    (∀ x, In x l → length (List.filter (λ y, negb (is_lt cmp x y) && negb (is_lt cmp y x)) l) ≤ M) →
    calls_made (ans_cmp cmp) m (par_select_many_nth_unstable_by c (length l) vlen indices, l) c' →
    m ≤ K * length l * (Nat.log2 (length indices) + 1).
Proof.
  destruct (select_constant c M) as [K HK]. exists K. intros T cmp l vlen inds m c' Hs Hf.
  apply few_of_filter in Hf.
  eapply calls_made_bound; [by intros [x y]; eexists|apply within_by_compare, within_par_select_many|].
  apply wpg_by_compare.
  apply (wpg_fewer (ans_lt (is_lt cmp))).
  { intros [x y] r (r0 & -> & ->). unfold ans_lt, is_lt. simpl. by destruct (cmp x y). }
  unfold par_select_many. apply wpg_bind.
  destruct (decide (inds = [])) as [->|Hne]; [apply wpg_ret, wpg_ret; lia|].
  destruct (many_log (length inds)) as (H1 & _ & H2). specialize (H2 ltac:(by destruct inds)).
  rewrite Nat.add_1_r.
  eapply wpg_mono; [apply (par_partition_at_indices_calls c (ans_lt (is_lt cmp)) K (few (is_lt cmp) M)
     (λ l l', few_perm _ M l l') (few_app_l _ M) (few_app_r _ M) (HK T (is_lt cmp) Hs)
     (S (Nat.log2 (length inds))) (S (length inds)) (length l) 0 0 vlen inds l 0
     eq_refl Hf H2 H1)|..]; cbv beta; [|done]. intros ? ? ? ? ?. by apply wpg_ret.
Qed.
