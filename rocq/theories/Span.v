(** * Span: bounds for the rounds of parallel programs.

    [spans p Ψ b]: whatever the memory holds and whatever the closure answers, no
    chain of calls of [p] that wait for each other is longer than [b], and a value
    [p] returns satisfies [Ψ]. *)
From Verif Require Export Calls SpanSpec.
From stdpp Require Import list relations.

Local Transparent bind on_unwind relocate calls.
Local Arguments bind {T Q R A B} !p f.
Local Arguments on_unwind {T Q R A} c !p.
Local Arguments relocate {T Q R A} f !p.
Local Arguments calls {T Q R A} !p Ψ b.

Section spans.
  Context {T Q R : Type}.
  Notation P A := (prog T Q R A).

  Fixpoint spans {A} (p : P A) (Ψ : A → Prop) (b : nat) : Prop :=
    match p with
    | Ret a => Ψ a
    | Throw _ => True
    | Read i f => ∀ x, spans (f x) Ψ b
    | Write i x f => spans f Ψ b
    | Ask q f => 0 < b ∧ ∀ r, spans (f r) Ψ (b - 1)
    | Par p1 p2 f => ∃ b1 b2 Ψ1 Ψ2, b1 + b2 ≤ b ∧ spans p1 Ψ1 b1 ∧ spans p2 Ψ2 b1 ∧
        ∀ x y, arm Ψ1 x → arm Ψ2 y → spans (f x y) Ψ b2
    | Undef | NoFuel => True
    end.

  Lemma spans_mono {A} (p : P A) (Ψ Ψ' : A → Prop) b b' :
    spans p Ψ b → b ≤ b' → (∀ a, Ψ a → Ψ' a) → spans p Ψ' b'.
  Proof.
    revert b b'.
    induction p as [A a|A e|A i f IH|A i x f IH|A q f IH|A B' C p1 IH1 p2 IH2 f IH| |];
      intros b b' Hp Hb HΨ; simpl in *; eauto.
    - destruct Hp as [? Hp]. split; [lia|]. intros r. eapply IH; [apply Hp|lia|done].
    - destruct Hp as (b1 & b2 & Ψ1 & Ψ2 & Hs & H1 & H2 & H3).
      exists b1, b2, Ψ1, Ψ2. repeat (split; [lia || done|]). intros x y Hx Hy. eauto.
  Qed.
  Lemma spans_bind {A A'} (p : P A) (f : A → P A') Ψ Ψ' b1 b2 b :
    spans p Ψ b1 → (∀ a, Ψ a → spans (f a) Ψ' b2) → b1 + b2 ≤ b → spans (bind p f) Ψ' b.
  Proof.
    revert A' f Ψ Ψ' b1 b2 b.
    induction p as [A a|A e|A i g IH|A i x g IH|A q g IH|A B' C p1 IH1 p2 IH2 g IH| |];
      intros A' f Ψ Ψ' b1 b2 b Hp Hf Hb; simpl in *; eauto.
    - eapply spans_mono; [by apply Hf|lia|done].
    - destruct Hp as [? Hp]. split; [lia|]. intros r. eapply IH; [apply Hp|exact Hf|lia].
    - destruct Hp as (c1 & c2 & Ψ1 & Ψ2 & Hs & H1 & H2 & H3).
      exists c1, (c2 + b2), Ψ1, Ψ2. split; [lia|]. repeat (split; [done|]).
      intros x y Hx Hy. eapply IH; [by apply H3|exact Hf|lia].
  Qed.
  (** A bound for all of the calls. *)
  Lemma calls_spans {A} (p : P A) Ψ b : calls p Ψ b → spans p Ψ b.
  Proof.
    revert Ψ b.
    induction p as [A a|A e|A i g IH|A i x g IH|A q g IH|A B' C p1 IH1 p2 IH2 g IH| |];
      intros Ψ b Hp; simpl in *; auto.
    - destruct Hp as [? Hp]. auto.
    - destruct Hp as (b1 & b2 & b3 & Ψ1 & Ψ2 & Hs & H1 & H2 & H3).
      exists (Nat.max b1 b2), b3, Ψ1, Ψ2. split; [lia|].
      split; [eapply spans_mono; [by apply IH1|lia|done]|].
      split; [eapply spans_mono; [by apply IH2|lia|done]|]. auto.
  Qed.
  Lemma spans_on_unwind {A} cl (p : P A) Ψ b :
    silent cl → spans p Ψ b → spans (on_unwind cl p) Ψ b.
  Proof.
    intros Hc. revert b.
    induction p as [A a|A e|A i g IH|A i x g IH|A q g IH|A B' C p1 IH1 p2 IH2 g IH| |];
      intros b Hp; simpl in *; auto.
    - eapply (spans_bind _ _ _ _ b 0); [by apply calls_spans, calls_silent|done|lia].
    - destruct Hp as [? Hp]. auto.
    - destruct Hp as (c1 & c2 & Ψ1 & Ψ2 & Hs & H1 & H2 & H3).
      exists c1, c2, Ψ1, Ψ2. auto 10.
  Qed.
  Lemma spans_ret {A} (a : A) (Ψ : A → Prop) b : Ψ a → spans (Ret a : P A) Ψ b.
  Proof. done. Qed.
  Lemma spans_throw {A} e (Ψ : A → Prop) b : spans (Throw e : P A) Ψ b.
  Proof. done. Qed.
  Lemma spans_ask {A} q (f : R → P A) (Ψ : A → Prop) b :
    0 < b → (∀ r, spans (f r) Ψ (b - 1)) → spans (Ask q f) Ψ b.
  Proof. done. Qed.
  Lemma spans_par {A B C} (p1 : P B) (p2 : P C) (k : B + exn → C + exn → P A) Ψ1 Ψ2 Ψ b1 b2 b :
    spans p1 Ψ1 b1 → spans p2 Ψ2 b1 → (∀ x y, arm Ψ1 x → arm Ψ2 y → spans (k x y) Ψ b2) →
    b1 + b2 ≤ b → spans (Par p1 p2 k) Ψ b.
  Proof. intros. exists b1, b2, Ψ1, Ψ2. auto. Qed.
  Lemma spans_join {B C} (p1 : P B) (p2 : P C) Ψ1 Ψ2 b :
    spans p1 Ψ1 b → spans p2 Ψ2 b →
    spans (rayon_join p1 p2) (λ r, Ψ1 r.1 ∧ Ψ2 r.2) b.
  Proof.
    intros H1 H2. unfold rayon_join.
    eapply (spans_par _ _ _ Ψ1 Ψ2 _ b 0); [done|done| |lia].
    intros [x|e] [y|e'] Hx Hy; simpl; auto.
  Qed.

  (** ** Soundness. *)
  Lemma spans_result {A} (p : P A) Ψ b r : spans p Ψ b → result p = Some r → arm Ψ r.
  Proof. destruct p; simpl; intros Hc Hr; try done; by injection Hr as <-. Qed.
  Lemma spans_finished {A} (p : P A) Ψ b b' : spans p Ψ b → result p ≠ None → spans p Ψ b'.
  Proof. destruct p; simpl; done. Qed.
  Lemma spans_round {A} (ans : Q → R → Prop) (p p' : P A) Ψ b :
    round ans p p' → spans p Ψ b → 0 < b ∧ spans p' Ψ (b - 1).
  Proof.
    revert p' Ψ b.
    induction p as [A a|A e|A i g IH|A i x g IH|A q g IH|A B' C p1 IH1 p2 IH2 g IH| |];
      intros p' Ψ b Hs Hp; simpl in *; try done.
    - destruct Hs as (r & _ & ->), Hp. auto.
    - destruct Hp as (c1 & c2 & Ψ1 & Ψ2 & Hb & H1 & H2 & H3).
      destruct Hs as [(p1' & p2' & Hs1 & Hs2 & ->)|[(p1' & Hs & Hr & ->)|(p2' & Hr & Hs & ->)]].
      + destruct (IH1 _ _ _ Hs1 H1), (IH2 _ _ _ Hs2 H2). split; [lia|].
        eapply (spans_par _ _ _ Ψ1 Ψ2 _ (c1 - 1) c2); auto; lia.
      + destruct (IH1 _ _ _ Hs H1). split; [lia|].
        eapply (spans_par _ _ _ Ψ1 Ψ2 _ (c1 - 1) c2); eauto using spans_finished; lia.
      + destruct (IH2 _ _ _ Hs H2). split; [lia|].
        eapply (spans_par _ _ _ Ψ1 Ψ2 _ (c1 - 1) c2); eauto using spans_finished; lia.
  Qed.
  Lemma spans_step {A} (ans : Q → R → Prop) (p p' : P A) act Ψ b :
    step ans p act p' → spans p Ψ b → spans p' Ψ b.
  Proof.
    revert p' Ψ b.
    induction p as [A a|A e|A i g IH|A i x g IH|A q g IH|A B' C p1 IH1 p2 IH2 g IH| |];
      intros p' Ψ b Hs Hp; simpl in *; try done.
    - by destruct Hs as (x & _ & ->).
    - by destruct Hs as (_ & ->).
    - destruct Hs as (r & _ & _ & ->), Hp. eapply spans_mono; [eauto|lia|done].
    - destruct Hp as (c1 & c2 & Ψ1 & Ψ2 & Hb & H1 & H2 & H3).
      destruct Hs as [(p1' & Hs & ->)|[(p2' & Hs & ->)|(x & y & Hx & Hy & _ & ->)]].
      + eapply (spans_par _ _ _ Ψ1 Ψ2 _ c1 c2); eauto.
      + eapply (spans_par _ _ _ Ψ1 Ψ2 _ c1 c2); eauto.
      + eapply spans_mono; [apply H3; by eapply spans_result|lia|done].
  Qed.
  Lemma spans_rounds {A} (ans : Q → R → Prop) (p : P A) Ψ b m l c :
    spans p Ψ b → rounds ans m (p, l) c → m ≤ b.
  Proof.
    intros Hp Hm. remember (p, l) as c0 eqn:Hc0.
    assert (spans c0.1 Ψ b) as Hc by (by subst). clear Hp Hc0 p l. revert b Hc.
    induction Hm as [c|m p p' l c Hs Hm IH|m c c' c'' Hs Hm IH]; intros b Hp; simpl in *; [lia| |].
    - eapply spans_round in Hs as [H1 H2]; [|done]. apply IH in H2. lia.
    - destruct Hs as (act & Hs & _). apply IH. by eapply spans_step.
  Qed.

  (** ** A program that is right in every schedule gets to its end in rounds. *)
  Lemma quiet_step {A} (ans : Q → R → Prop) (p : P A) act p' :
    step (λ _ _, False) p act p' → step ans p act p'.
  Proof.
    revert p'.
    induction p as [A a|A e|A i g IH|A i x g IH|A q g IH|A B' C p1 IH1 p2 IH2 g IH| |];
      intros p' Hs; simpl in *; try done.
    - by destruct Hs as (r & [] & _).
    - destruct Hs as [(p1' & Hs & ->)|[(p2' & Hs & ->)|Hs]]; eauto 10.
  Qed.
  Lemma round_steps {A} (ans : Q → R → Prop) (p p' : P A) l :
    round ans p p' → tc (stepm ans) (p, l) (p', l).
  Proof.
    revert p'.
    induction p as [A a|A e|A i g IH|A i x g IH|A q g IH|A B' C p1 IH1 p2 IH2 g IH| |];
      intros p' Hs; simpl in *; try done.
    - destruct Hs as (r & Hr & ->). apply tc_once. exists Tau. simpl. eauto.
    - assert (∀ (p1 p1' : P B') (p2 : P C), tc (stepm ans) (p1, l) (p1', l) →
        tc (stepm ans) (Par p1 p2 g, l) (Par p1' p2 g, l)) as Hl.
      { clear. intros p1 p1' p2 H.
        apply (tc_congruence (λ c : P B' * list T, (Par c.1 p2 g, c.2)) (R:=stepm ans) (stepm ans) (p1, l) (p1', l)); [|exact H].
        intros [q m] [q' m'] (act & Hq & He). exists act. simpl in *. eauto. }
      assert (∀ (p1 : P B') (p2 p2' : P C), tc (stepm ans) (p2, l) (p2', l) →
        tc (stepm ans) (Par p1 p2 g, l) (Par p1 p2' g, l)) as Hr.
      { clear. intros p1 p2 p2' H.
        apply (tc_congruence (λ c : P C * list T, (Par p1 c.1 g, c.2)) (R:=stepm ans) (stepm ans) (p2, l) (p2', l)); [|exact H].
        intros [q m] [q' m'] (act & Hq & He). exists act. simpl in *. eauto 10. }
      destruct Hs as [(p1' & p2' & Hs1 & Hs2 & ->)|[(p1' & Hs & _ & ->)|(p2' & _ & Hs & ->)]]; eauto.
      eapply tc_transitive; eauto.
  Qed.
  Lemma round_progress {A} (ans : Q → R → Prop) (p : P A) l :
    (∀ q, ∃ r, ans q r) → ¬ wrong p l →
    result p ≠ None ∨ (∃ c, stepm (λ _ _, False) (p, l) c) ∨ ∃ p', round ans p p'.
  Proof.
    intros Hans.
    induction p as [A a|A e|A i g IH|A i x g IH|A q g IH|A B' C p1 IH1 p2 IH2 g IH| |];
      intros Hw; simpl in Hw.
    - by left.
    - by left.
    - right; left. destruct (l !! i) as [x|] eqn:Hx; [|done].
      exists (g x, l), (Rd i x). simpl. eauto.
    - right; left. exists (g, <[i:=x]> l), (Wr i x). simpl. split; [done|]. split; [lia|done].
    - right; right. destruct (Hans q) as [r Hr]. exists (g r). simpl. eauto.
    - right. apply Decidable.not_or in Hw as [Hw1 Hw2].
      destruct (IH1 Hw1) as [H1|[([q m] & act & H1 & H1')|[p1' H1]]].
      2: { left. exists (Par q p2 g, m), act. simpl in *. eauto. }
      all: destruct (IH2 Hw2) as [H2|[([q m] & act & H2 & H2')|[p2' H2]]].
      2, 5: left; exists (Par p1 q g, m), act; simpl in *; eauto 10.
      + left. destruct (result p1) as [x|] eqn:Hx; [|done]. destruct (result p2) as [y|] eqn:Hy; [|done].
        exists (g x y, l), Tau. simpl. split; [|done]. right; right. eauto 10.
      + right. exists (Par p1 p2' g). simpl. eauto 10.
      + right. exists (Par p1' p2 g). simpl. eauto 10.
      + right. exists (Par p1' p2' g). simpl. eauto 10.
    - done.
    - done.
  Qed.
  Lemma rounds_end {A} (ans : Q → R → Prop) (p : P A) l Φ E :
    (∀ q, ∃ r, ans q r) → every_schedule ans p l Φ E →
    ∃ m p' l', rounds ans m (p, l) (p', l') ∧ result p' ≠ None ∧ rtc (stepm ans) (p, l) (p', l').
  Proof.
    intros Hans [Hfin Hsafe _ _ _ _].
    assert (∀ c : P A * list T, Acc (λ c' c, stepm ans c c') c → ∀ c1, rtc (stepm ans) c c1 →
      (∀ c2, rtc (stepm ans) c1 c2 → ¬ wrong c2.1 c2.2) →
      ∃ m p' l', rounds ans m c1 (p', l') ∧ result p' ≠ None ∧ rtc (stepm ans) c1 (p', l')) as H.
    { clear -Hans. intros c Hc. induction Hc as [c _ IH]. intros c1 H1 Hsafe.
      inversion H1 as [|? c3 ? H3 H4]; subst; [|eauto]. clear H1. destruct c1 as [p l].
      destruct (round_progress ans p l Hans (Hsafe (p, l) (rtc_refl _ _)))
        as [Hr|[([p2 l2] & act & Hs & He)|[p2 Hr]]].
      - exists 0, p, l. repeat split; [constructor|done|constructor].
      - assert (stepm ans (p, l) (p2, l2)) as Hst by (exists act; eauto using quiet_step).
        destruct (IH _ Hst _ (rtc_refl _ _)) as (m & p' & l' & Hm & Hres & Hrtc).
        { intros c2 H2. apply Hsafe. by eapply rtc_l. }
        exists m, p', l'. repeat split; [|done|by eapply rtc_l].
        eapply rounds_step; [|exact Hm]. by exists act.
      - pose proof (round_steps ans p p2 l Hr) as Hst. apply tc_rtc in Hst as Hst'.
        assert (∃ c3, stepm ans (p, l) c3 ∧ rtc (stepm ans) c3 (p2, l)) as (c3 & H3 & H4).
        { destruct Hst; eauto using rtc_refl, tc_rtc. }
        destruct (IH _ H3 _ H4) as (m & p' & l' & Hm & Hres & Hrtc).
        { intros c2 H2. apply Hsafe. by etrans. }
        exists (S m), p', l'. repeat split; [by eapply rounds_call|done|by etrans]. }
    eapply H; [exact Hfin|constructor|]. intros [p2 l2]. apply Hsafe.
  Qed.
End spans.

(** A wrapper around [compare] makes one call of [compare] per call. *)
Lemma spans_by_compare {T A} (p : cmp_prog T A) Ψ b : spans p Ψ b → spans (by_compare p) Ψ b.
Proof.
  unfold by_compare. revert Ψ b.
  induction p as [A a|A e|A i g IH|A i x g IH|A q g IH|A B' C p1 IH1 p2 IH2 g IH| |];
    intros Ψ b Hp; simpl in *; auto.
  - destruct Hp as [Hb Hp]. split; [done|]. auto.
  - destruct Hp as (c1 & c2 & Ψ1 & Ψ2 & Hb & H1 & H2 & H3).
    exists c1, c2, Ψ1, Ψ2. auto 10.
Qed.

Global Opaque bind on_unwind relocate calls spans.
