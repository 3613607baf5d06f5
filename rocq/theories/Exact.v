(** * Exact: programs that are the same up to the computation of words.

    [exactly φ p q]: [p] makes the same accesses, calls and forks as [q], whatever is read
    and answered, and [φ] holds of what they return.  Other than [tracks] (Word.v) this
    includes the tasks of [Par]. *)
From Verif Require Export Word Interleave Subst.
From stdpp Require Import list relations.
From Coq Require Import NArith.

Section exact.
  Local Transparent bind relocate on_unwind focus.
  Context {T Q R : Type}.
  Notation P A := (prog T Q R A).

  Inductive exactly {A : Type} (φ : A → Prop) : P A → P A → Prop :=
  | exact_ret a : φ a → exactly φ (Ret a) (Ret a)
  | exact_throw e : exactly φ (Throw e) (Throw e)
  | exact_undef : exactly φ Undef Undef
  | exact_fuel : exactly φ NoFuel NoFuel
  | exact_read i k k' : (∀ x, exactly φ (k x) (k' x)) → exactly φ (Read i k) (Read i k')
  | exact_write i x k k' : exactly φ k k' → exactly φ (Write i x k) (Write i x k')
  | exact_ask q k k' : (∀ r, exactly φ (k r) (k' r)) → exactly φ (Ask q k) (Ask q k')
  | exact_par B C (ψ : B → Prop) (ξ : C → Prop) (p1 q1 : P B) (p2 q2 : P C) k k' :
      exactly ψ p1 q1 → exactly ξ p2 q2 →
      (∀ b d, (∀ x, b = inl x → ψ x) → (∀ y, d = inl y → ξ y) → exactly φ (k b d) (k' b d)) →
      exactly φ (Par p1 p2 k) (Par q1 q2 k').

  Lemma exact_run {S A} (o : S → Q → R * S) φ (p q : P A) : exactly φ p q → ∀ s l,
    run o p s l = run o q s l ∧ ∀ a, (run o p s l).1.1 = Done a → φ a.
  Proof.
    intros H. induction H as [A φ a Ha|A φ e|A φ|A φ|A φ i k k' _ IH|A φ i x k k' _ IH|A φ qu k k' _ IH
      |A φ B C ψ ξ p1 q1 p2 q2 k k' _ IH1 _ IH2 _ IH]; intros s l; simpl;
      try (split; [done|by intros ? [= <-] || done]).
    - destruct (l !! i); [apply IH|by split].
    - destruct (decide _); [apply IH|by split].
    - destruct (o s qu). apply IH.
    - destruct (IH1 s l) as [<- H1]. destruct (run o p1 s l) as [[[b|e| |] s1] l1]; try by split.
      + destruct (IH2 s1 l1) as [<- H2]. destruct (run o p2 s1 l1) as [[[d|e| |] s2] l2]; try by split.
        * apply IH; intros ? [= <-]; auto.
        * apply IH; [intros ? [= <-]; auto|done].
      + destruct (IH2 s1 l1) as [<- H2]. destruct (run o p2 s1 l1) as [[[d|e'| |] s2] l2]; try by split.
        * apply IH; [done|]. intros ? [= <-]; auto.
        * by apply IH.
  Qed.

  (** ** Schedules *)
  Lemma exact_result {A} (φ : A → Prop) (p q : P A) : exactly φ p q →
    result p = result q ∧ ∀ a, result p = Some (inl a) → φ a.
  Proof. intros []; split; try done. intros ? [= <-]. done. Qed.
  Lemma exact_step {A} ans (φ : A → Prop) (p q p' : P A) act :
    exactly φ p q → step ans p act p' → ∃ q', step ans q act q' ∧ exactly φ p' q'.
  Proof.
    intros H. revert act p'. induction H as [A φ a Ha|A φ e|A φ|A φ|A φ i k k' H _|A φ i x k k' H _|A φ qu k k' H _
      |A φ B C ψ ξ p1 q1 p2 q2 k k' H1 IH1 H2 IH2 H _]; intros act p'; simpl; try done.
    - intros (x & -> & ->). eauto.
    - intros (-> & ->). eauto.
    - intros (r & ? & -> & ->). eauto 10.
    - intros [(p1' & Hs & ->)|[(p2' & Hs & ->)|(b & d & Hb & Hd & -> & ->)]].
      + destruct (IH1 _ _ Hs) as (q1' & ? & ?). exists (Par q1' q2 k'). split; [eauto|].
        by eapply exact_par.
      + destruct (IH2 _ _ Hs) as (q2' & ? & ?). exists (Par q1 q2' k'). split; [eauto|].
        by eapply exact_par.
      + destruct (exact_result _ _ _ H1) as [E1 R1], (exact_result _ _ _ H2) as [E2 R2].
        exists (k' b d). split.
        * right. right. exists b, d. by rewrite <-E1, <-E2.
        * apply H; intros ? ->; auto.
  Qed.
  Lemma exact_steps {A} ans (φ : A → Prop) (p q p' : P A) l l' :
    exactly φ p q → rtc (stepm ans) (p, l) (p', l') →
    ∃ q', rtc (stepm ans) (q, l) (q', l') ∧ exactly φ p' q'.
  Proof.
    intros H Hs. remember (p, l) as x eqn:Ex. remember (p', l') as y eqn:Ey. revert p q l H Ex.
    induction Hs as [|x z y (act & Hs & He) _ IH]; intros p q l H ->.
    - injection Ey as <- <-. eauto using rtc_refl.
    - destruct z as [p2 l2]. simpl in *. destruct (exact_step _ _ _ _ _ _ H Hs) as (q2 & Hs2 & H2).
      destruct (IH Ey p2 q2 l2 H2 eq_refl) as (q' & ? & ?). exists q'. split; [|done].
      eapply rtc_l; [|done]. by exists act.
  Qed.
  Lemma exact_sym {A} (φ : A → Prop) (p q : P A) : exactly φ p q → exactly φ q p.
  Proof. intros H. induction H; econstructor; eauto. Qed.
  Lemma exact_wrong {A} (φ : A → Prop) (p q : P A) l : exactly φ p q → wrong p l → wrong q l.
  Proof. intros H. induction H; simpl; tauto. Qed.
  Lemma exact_race {A} ans (φ : A → Prop) (p q : P A) : exactly φ p q → race ans p → race ans q.
  Proof.
    intros H. induction H as [| | | | | | |A φ B C ψ ξ p1 q1 p2 q2 k k' H1 IH1 H2 IH2 H _]; simpl; try done.
    intros [?|[?|(a1 & p1' & a2 & p2' & S1 & S2 & ?)]]; [tauto..|]. right. right.
    destruct (exact_step _ _ _ _ _ _ H1 S1) as (? & ? & _), (exact_step _ _ _ _ _ _ H2 S2) as (? & ? & _).
    eauto 10.
  Qed.

  Lemma exact_schedules {A} ans (φ : A → Prop) (p q : P A) l Φ E :
    exactly φ p q → every_schedule ans q l Φ E → every_schedule ans p l Φ E.
  Proof.
    intros H Hq. split.
    - apply es_finite in Hq. remember (q, l) as x eqn:Ex. revert p q l H Ex.
      induction Hq as [x _ IH]. intros p q l H ->. constructor. intros [p' l'] (act & Hs & He).
      destruct (exact_step _ _ _ _ _ _ H Hs) as (q' & Hs' & H').
      apply (IH (q', l')) with q'; [by exists act|done|done].
    - intros p' l' Hs Hw. destruct (exact_steps _ _ _ _ _ _ _ H Hs) as (q' & Hs' & H').
      apply (es_safe _ _ _ _ _ Hq _ _ Hs'). by eapply exact_wrong.
    - intros p' l' Hs Hw. destruct (exact_steps _ _ _ _ _ _ _ H Hs) as (q' & Hs' & H').
      apply (es_race_free _ _ _ _ _ Hq _ _ Hs'). by eapply exact_race.
    - intros p' l' Hs. destruct (exact_steps _ _ _ _ _ _ _ H Hs) as (q' & Hs' & H').
      destruct (es_progress _ _ _ _ _ Hq _ _ Hs') as [Hr|([q2 l2] & act & Hr & He)].
      + left. by rewrite (proj1 (exact_result _ _ _ H')).
      + right. destruct (exact_step _ _ _ _ _ _ (exact_sym _ _ _ H') Hr) as (p2 & ? & _).
        exists (p2, l2), act. done.
    - intros a l' Hs. destruct (exact_steps _ _ _ _ _ _ _ H Hs) as (q' & Hs' & H').
      inversion H'; subst. by apply (es_done _ _ _ _ _ Hq).
    - intros e l' Hs. destruct (exact_steps _ _ _ _ _ _ _ H Hs) as (q' & Hs' & H').
      inversion H'; subst. by apply (es_panic _ _ _ _ _ Hq).
  Qed.

  (** ** Rules *)
  Lemma exact_mono {A} (φ ψ : A → Prop) p q : exactly φ p q → (∀ a, φ a → ψ a) → exactly ψ p q.
  Proof. intros H. revert ψ. induction H; intros ψ' Hi; econstructor; eauto. Qed.
  Lemma exact_bind {A B} (φ : A → Prop) (ψ : B → Prop) p q (f g : A → P B) :
    exactly φ p q → (∀ a, φ a → exactly ψ (f a) (g a)) → exactly ψ (bind p f) (bind q g).
  Proof. intros H Hf. induction H; cbn [bind]; [by apply Hf|econstructor; eauto..]. Qed.
  Lemma exact_bind_ret {A B} (φ : A → Prop) (ψ : B → Prop) p a (f : A → P B) q :
    exactly φ p (Ret a) → (φ a → exactly ψ (f a) q) → exactly ψ (bind p f) q.
  Proof. intros H Hf. inversion H; subst; cbn [bind]. by apply Hf. Qed.
  Lemma exact_relocate {A} (φ : A → Prop) h p q : exactly φ p q → exactly φ (relocate h p) (relocate h q).
  Proof. intros H. induction H; cbn [relocate]; econstructor; eauto. Qed.
  Lemma exact_refl {A} (φ : A → Prop) p : (∀ a, φ a) → exactly φ p p.
  Proof.
    induction p as [| | | | |A B C p1 IH1 p2 IH2 k IH| |]; intros Hφ; try (constructor; auto; fail).
    eapply exact_par; [by apply (IH1 (λ _, True))|by apply (IH2 (λ _, True))|]. intros. by apply IH.
  Qed.
  Lemma exact_on_unwind {A} (φ : A → Prop) d d' p q :
    exactly (λ _, True) d d' → exactly φ p q → exactly φ (on_unwind d p) (on_unwind d' q).
  Proof.
    intros Hd H. induction H; cbn [on_unwind]; try (econstructor; eauto; fail).
    eapply exact_bind; [exact Hd|]. intros. constructor.
  Qed.
  Lemma exact_slice {A} (φ : A → Prop) n a b (p q : nat → P A) :
    (a ≤ b → b ≤ n → exactly φ (p (b - a)) (q (b - a))) → exactly φ (slice n a b p) (slice n a b q).
  Proof.
    intros H. unfold slice. destruct (_ && _) eqn:E; [|constructor].
    apply andb_prop in E as [?%Nat.leb_le ?%Nat.leb_le]. unfold focus. apply exact_relocate; auto.
  Qed.
  Lemma exact_for_up a cnt (f g : nat → P unit) :
    (∀ i, a ≤ i → i < a + cnt → exactly (λ _, True) (f i) (g i)) →
    exactly (λ _, True) (for_up a cnt f) (for_up a cnt g).
  Proof.
    revert a. induction cnt as [|k IH]; intros a H; simpl; [by constructor|].
    eapply exact_bind; [apply H; lia|]. intros _ _. apply IH. intros. apply H; lia.
  Qed.
  Lemma exact_for_down a cnt (f g : nat → P unit) :
    (∀ i, a ≤ i → i < a + cnt → exactly (λ _, True) (f i) (g i)) →
    exactly (λ _, True) (for_down a cnt f) (for_down a cnt g).
  Proof.
    induction cnt as [|k IH]; intros H; simpl; [by constructor|].
    eapply exact_bind; [apply H; lia|]. intros _ _. apply IH. intros. apply H; lia.
  Qed.
End exact.

(** Closures made of other closures. *)
Section asks.
  Local Transparent bind.
  Lemma exact_with_asks {T Q R Q' R' A} (t : Q' → prog T Q R R') (φ : A → Prop) (p q : prog T Q' R' A) :
    exactly φ p q → exactly φ (with_asks t p) (with_asks t q).
  Proof.
    intros H. induction H; cbn [with_asks]; try (econstructor; eauto; fail).
    eapply (exact_bind (λ _, True)); [by apply exact_refl|]. auto.
  Qed.
End asks.
Global Opaque bind on_unwind relocate focus.
