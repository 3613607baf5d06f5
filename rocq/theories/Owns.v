(** * Owns: what is known about the cells of the memory, under every schedule.

    Fix a set [U] of values.  A program that only ever writes values of [U] can
    never take a cell that holds a value of [U] out of it, whatever the other
    tasks do, as long as they only write values of [U] as well: knowledge of the
    form "cell [i] holds a value of [U]" is stable.  [owns m p Ψ E]: run from a
    memory whose cells in [m] hold values of [U], [p] only writes values of [U]
    and only asks questions of [G]; if it returns [a], the cells of some [m'] with
    [Ψ a m'] hold values of [U], and if it unwinds those of some [m'] with [E m'].
    The cells outside of [m] hold arbitrary values (uninitialised memory). *)
From Verif Require Export Ghost Loud.
From stdpp Require Import list.

Local Transparent bind on_unwind relocate focus.
Local Arguments bind {T Q R A B} !p f.
Local Arguments on_unwind {T Q R A} c !p.
Local Arguments relocate {T Q R A} f !p.
Local Arguments with_asks {T Q R Q' R'} h {A} !p.

(** Sets of cells. *)
Definition cells := nat → Prop.
Definition cells_le (m m' : cells) : Prop := ∀ i, m i → m' i.

(** What is known after a task has ended. *)
Definition ended {A} (Ψ : A → cells → Prop) (E : cells → Prop) (r : A + exn) : cells → Prop :=
  match r with inl a => Ψ a | inr _ => E end.

Section owns.
  Context {T Q R : Type} (U : T → Prop) (G : Q → Prop) (ans : Q → R → Prop).
  Notation P A := (prog T Q R A).

  Fixpoint owns {A} (m : cells) (p : P A) (Ψ : A → cells → Prop) (E : cells → Prop) {struct p} : Prop :=
    match p with
    | Ret a => ∀ m', cells_le m m' → Ψ a m'
    | Throw _ => ∀ m', cells_le m m' → E m'
    | Read i k => ∀ x, (m i → U x) → owns m (k x) Ψ E
    | Write i x k => U x ∧ owns (λ j, m j ∨ j = i) k Ψ E
    | Ask q k => G q ∧ ∀ r, ans q r → owns m (k r) Ψ E
    | Par p1 p2 k => ∃ Ψ1 E1 Ψ2 E2,
        owns m p1 Ψ1 E1 ∧ owns m p2 Ψ2 E2 ∧
        ∀ x y m', cells_le m m' → ended Ψ1 E1 x m' → ended Ψ2 E2 y m' → owns m' (k x y) Ψ E
    | Undef | NoFuel => True
    end.

  Lemma owns_weaken {A} (p : P A) m m' Ψ E : cells_le m m' → owns m p Ψ E → owns m' p Ψ E.
  Proof.
    revert m m' Ψ E.
    induction p as [A a|A e|A i k IH|A i x k IH|A q k IH|A B C p1 IH1 p2 IH2 k IH| |];
      intros m m' Ψ E Hm; simpl; auto.
    - intros H m2 Hm2. apply H. intros i Hi. auto.
    - intros H m2 Hm2. apply H. intros i Hi. auto.
    - intros H x Hx. eapply IH; [exact Hm|]. apply H. auto.
    - intros [Hx H]. split; [done|]. eapply IH; [|exact H]. intros j [Hj| ->]; auto.
    - intros [Hq H]. split; [done|]. intros r Hr. eapply IH; [exact Hm|]. auto.
    - intros (Ψ1 & E1 & Ψ2 & E2 & H1 & H2 & H). exists Ψ1, E1, Ψ2, E2.
      split; [by eapply IH1|]. split; [by eapply IH2|]. intros x y m2 Hm2. apply H.
      intros i Hi. auto.
  Qed.
  Lemma owns_mono {A} (p : P A) m (Ψ Ψ' : A → cells → Prop) (E E' : cells → Prop) :
    owns m p Ψ E → (∀ a m', cells_le m m' → Ψ a m' → Ψ' a m') →
    (∀ m', cells_le m m' → E m' → E' m') → owns m p Ψ' E'.
  Proof.
    revert m Ψ Ψ' E E'.
    induction p as [A a|A e|A i k IH|A i x k IH|A q k IH|A B C p1 IH1 p2 IH2 k IH| |];
      intros m Ψ Ψ' E E' H HΨ HE; simpl in *; auto.
    - eauto.
    - destruct H as [Hx H]. split; [done|]. eapply IH; [exact H|..].
      + intros a m' Hm. apply HΨ. intros j Hj. apply Hm. auto.
      + intros m' Hm. apply HE. intros j Hj. apply Hm. auto.
    - destruct H as [Hq H]. split; [done|]. intros r Hr. eapply IH; eauto.
    - destruct H as (Ψ1 & E1 & Ψ2 & E2 & H1 & H2 & H). exists Ψ1, E1, Ψ2, E2.
      split; [done|]. split; [done|]. intros x y m' Hm Hx Hy. eapply IH; [by eapply H|..].
      + intros a m2 Hm2. apply HΨ. intros i Hi. auto.
      + intros m2 Hm2. apply HE. intros i Hi. auto.
  Qed.
  Lemma owns_bind_strong {A B} (p : P A) (f : A → P B) m Ψ Ψ' (E E' : cells → Prop) :
    owns m p Ψ E →
    (∀ m', cells_le m m' → E m' → E' m') →
    (∀ a m', cells_le m m' → (∀ m2, cells_le m' m2 → Ψ a m2) → owns m' (f a) Ψ' E') →
    owns m (bind p f) Ψ' E'.
  Proof.
    revert m B f Ψ Ψ' E E'.
    induction p as [A a|A e|A i k IH|A i x k IH|A q k IH|A B' C p1 IH1 p2 IH2 k IH| |];
      intros m B f Ψ Ψ' E E' H HE Hf; simpl in *; auto.
    - apply Hf; [by intros i|done].
    - eauto.
    - destruct H as [Hx H]. split; [done|]. eapply IH; [exact H|..].
      + intros m' Hm. apply HE. intros j Hj. apply Hm. auto.
      + intros a m' Hm. apply Hf. intros j Hj. apply Hm. auto.
    - destruct H as [Hq H]. split; [done|]. intros r Hr. eapply IH; eauto.
    - destruct H as (Ψ1 & E1 & Ψ2 & E2 & H1 & H2 & H). exists Ψ1, E1, Ψ2, E2.
      split; [done|]. split; [done|]. intros x y m' Hm Hx Hy. eapply IH; [by eapply H|..].
      + intros m2 Hm2. apply HE. intros i Hi. auto.
      + intros a m2 Hm2. apply Hf. intros i Hi. auto.
  Qed.
  Lemma owns_bind {A B} (p : P A) (f : A → P B) m Ψ Ψ' E :
    owns m p Ψ E → (∀ a m', cells_le m m' → Ψ a m' → owns m' (f a) Ψ' E) →
    owns m (bind p f) Ψ' E.
  Proof.
    intros Hp Hf. eapply owns_bind_strong; [exact Hp|done|]. intros a m' Hm Ha. apply Hf; [done|].
    apply Ha. by intros i.
  Qed.
  Lemma owns_on_unwind {A} (c : P unit) (p : P A) m Ψ (E E' : cells → Prop) :
    owns m p Ψ E' →
    (∀ m', cells_le m m' → E' m' → owns m' c (λ _ m2, E m2) E) →
    owns m (on_unwind c p) Ψ E.
  Proof.
    revert m Ψ E E'.
    induction p as [A a|A e|A i k IH|A i x k IH|A q k IH|A B C p1 IH1 p2 IH2 k IH| |];
      intros m Ψ E E' H Hc; simpl in *; auto.
    - eapply owns_bind_strong; [|done|].
      + apply Hc; [by intros i|]. apply H. by intros i.
      + intros [] m' Hm HE m2 Hm2. by apply HE.
    - eauto.
    - destruct H as [Hx H]. split; [done|]. eapply IH; [exact H|]. intros m' Hm. apply Hc.
      intros j Hj. apply Hm. auto.
    - destruct H as [Hq H]. split; [done|]. intros r Hr. eapply IH; eauto.
    - destruct H as (Ψ1 & E1 & Ψ2 & E2 & H1 & H2 & H). exists Ψ1, E1, Ψ2, E2.
      split; [done|]. split; [done|]. intros x y m' Hm Hx Hy. eapply IH; [by eapply H|].
      intros m2 Hm2. apply Hc. intros i Hi. auto.
  Qed.
  Lemma owns_relocate {A} f (p : P A) (m : cells) (Ψ Ψ' : A → cells → Prop) (E E' : cells → Prop) :
    owns (λ i, m (f i)) p Ψ E →
    (∀ a m', cells_le m m' → Ψ a (λ i, m' (f i)) → Ψ' a m') →
    (∀ m', cells_le m m' → E (λ i, m' (f i)) → E' m') →
    owns m (relocate f p) Ψ' E'.
  Proof.
    revert m Ψ Ψ' E E'.
    induction p as [A a|A e|A i k IH|A i x k IH|A q k IH|A B C p1 IH1 p2 IH2 k IH| |];
      intros m Ψ Ψ' E E' H HΨ HE; simpl in *; auto.
    - intros m' Hm. apply HΨ; [done|]. apply H. intros i. apply Hm.
    - intros m' Hm. apply HE; [done|]. apply H. intros i. apply Hm.
    - intros x Hx. eapply IH; eauto.
    - destruct H as [Hx H]. split; [done|]. eapply IH.
      + eapply owns_weaken; [|exact H]. intros j [Hj| ->]; auto.
      + intros a m' Hm. apply HΨ. intros j Hj. apply Hm. auto.
      + intros m' Hm. apply HE. intros j Hj. apply Hm. auto.
    - destruct H as [Hq H]. split; [done|]. intros r Hr. eapply IH; eauto.
    - destruct H as (Ψ1 & E1 & Ψ2 & E2 & H1 & H2 & H).
      exists (λ a m', Ψ1 a (λ i, m' (f i))), (λ m', E1 (λ i, m' (f i))),
        (λ a m', Ψ2 a (λ i, m' (f i))), (λ m', E2 (λ i, m' (f i))).
      split; [by eapply IH1|]. split; [by eapply IH2|]. intros x y m' Hm Hx Hy. eapply IH.
      + apply H; [intros i; apply Hm|by destruct x|by destruct y].
      + intros a m2 Hm2. apply HΨ. intros i Hi. auto.
      + intros m2 Hm2. apply HE. intros i Hi. auto.
  Qed.

  Lemma owns_focus {A} off (p : P A) (m : cells) (Ψ Ψ' : A → cells → Prop) (E E' : cells → Prop) :
    owns (λ i, m (off + i)) p Ψ E →
    (∀ a m', cells_le m m' → Ψ a (λ i, m' (off + i)) → Ψ' a m') →
    (∀ m', cells_le m m' → E (λ i, m' (off + i)) → E' m') →
    owns m (focus off p) Ψ' E'.
  Proof. apply owns_relocate. Qed.

  (** ** Soundness: whatever the schedule, every question asked is in [G], every
      value written is in [U]. *)
  Definition holds (m : cells) (l : list T) : Prop := ∀ i x, m i → l !! i = Some x → U x.

  Lemma owns_step {A} (p p' : P A) act l l' m Ψ E :
    step (λ _ _, False) p act p' → effect act l l' → owns m p Ψ E → holds m l →
    ∃ m', cells_le m m' ∧ owns m' p' Ψ E ∧ holds m' l' ∧ (∀ i x, act = Wr i x → U x).
  Proof.
    revert p' l l' m Ψ E.
    induction p as [A a|A e|A i k IH|A i x k IH|A q k IH|A B C p1 IH1 p2 IH2 k IH| |];
      intros p' l l' m Ψ E Hs He H Hl; simpl in *; try done.
    - destruct Hs as (x & -> & ->). destruct He as [Hx ->]. exists m. split; [by intros j|].
      split; [|done]. apply H. intros Hm. eauto.
    - destruct Hs as [-> ->]. destruct He as [Hi ->]. destruct H as [Hx H].
      exists (λ j, m j ∨ j = i). split; [by left|]. split; [done|]. split; [|by intros ?? [= <- <-]].
      intros j y Hj Hy. destruct (decide (j = i)) as [->|Hne].
      + rewrite list_lookup_insert in Hy by done. by injection Hy as <-.
      + rewrite list_lookup_insert_ne in Hy by done. destruct Hj as [Hj|]; [eauto|done].
    - destruct Hs as (r & [] & _).
    - destruct H as (Ψ1 & E1 & Ψ2 & E2 & H1 & H2 & H).
      destruct Hs as [(p1' & Hs & ->)|[(p2' & Hs & ->)|(x & y & Hx & Hy & -> & ->)]].
      + destruct (IH1 _ _ _ _ _ _ Hs He H1 Hl) as (m' & Hm & H1' & Hl' & Hw).
        exists m'. split; [done|]. split; [|done]. exists Ψ1, E1, Ψ2, E2.
        split; [done|]. split; [by eapply owns_weaken|]. intros x y m2 Hm2. apply H.
        intros i Hi. auto.
      + destruct (IH2 _ _ _ _ _ _ Hs He H2 Hl) as (m' & Hm & H2' & Hl' & Hw).
        exists m'. split; [done|]. split; [|done]. exists Ψ1, E1, Ψ2, E2.
        split; [by eapply owns_weaken|]. split; [done|]. intros x y m2 Hm2. apply H.
        intros i Hi. auto.
      + simpl in He. subst l'. exists m. split; [by intros i|]. split; [|done].
        apply H; [by intros i|..].
        * destruct p1; try done; injection Hx as <-; simpl in *; apply H1; by intros i.
        * destruct p2; try done; injection Hy as <-; simpl in *; apply H2; by intros i.
  Qed.
  Lemma owns_call {A} (p p' : P A) q r m Ψ E :
    call_step_as p q r p' → ans q r → owns m p Ψ E → G q ∧ owns m p' Ψ E.
  Proof.
    revert p' m Ψ E.
    induction p as [A a|A e|A i k IH|A i x k IH|A q' k IH|A B C p1 IH1 p2 IH2 k IH| |];
      intros p' m Ψ E Hs Hq H; simpl in *; try done.
    - destruct Hs as [-> ->]. destruct H. auto.
    - destruct H as (Ψ1 & E1 & Ψ2 & E2 & H1 & H2 & H).
      destruct Hs as [(p1' & Hs & ->)|(p2' & Hs & ->)].
      + destruct (IH1 _ _ _ _ Hs Hq H1). split; [done|]. exists Ψ1, E1, Ψ2, E2. auto.
      + destruct (IH2 _ _ _ _ Hs Hq H2). split; [done|]. exists Ψ1, E1, Ψ2, E2. auto.
  Qed.
  Lemma owns_schedule {A} (p p' : P A) tr l l' m Ψ E :
    schedule_log ans tr (p, l) (p', l') → owns m p Ψ E → holds m l →
    Forall (λ e, G e.1) tr ∧ ∃ m', cells_le m m' ∧ owns m' p' Ψ E ∧ holds m' l'.
  Proof.
    intros H. remember (p, l) as c eqn:Hc. remember (p', l') as c' eqn:Hc'. revert p l m Hc Hc'.
    induction H as [c|q r tr p0 p1 l0 c Hq Hs Hm IH|tr c c1 c2 Hs Hm IH]; intros p l m Hc Hc' Ho Hl; subst.
    - injection Hc' as -> ->. split; [constructor|]. exists m. split; [by intros i|done].
    - injection Hc as -> ->. destruct (owns_call _ _ _ _ _ _ _ Hs Hq Ho) as [Hg Ho'].
      destruct (IH _ _ m eq_refl eq_refl Ho' Hl) as [Hf Hm']. split; [by constructor|done].
    - destruct c1 as [p1 l1]. destruct Hs as (act & Hs & He).
      destruct (owns_step _ _ _ _ _ _ _ _ Hs He Ho Hl) as (m1 & Hm1 & Ho1 & Hl1 & _).
      destruct (IH _ _ m1 eq_refl eq_refl Ho1 Hl1) as [Hf (m' & Hm' & Ho' & Hl')]. split; [done|].
      exists m'. split; [|done]. intros i Hi. auto.
  Qed.
End owns.

(** ** Wrapped closures. *)
Lemma owns_fewer_answers {T Q R A} (U : T → Prop) (G : Q → Prop) (ans ans' : Q → R → Prop)
    (p : prog T Q R A) m Ψ E :
  (∀ q r, ans' q r → ans q r) → owns U G ans m p Ψ E → owns U G ans' m p Ψ E.
Proof.
  intros Ha. revert m Ψ E.
  induction p as [A a|A e|A i k IH|A i x k IH|A q k IH|A B C p1 IH1 p2 IH2 k IH| |];
    intros m Ψ E H; simpl in *; auto.
  - destruct H as [Hx H]. auto.
  - destruct H as [Hq H]. auto.
  - destruct H as (Ψ1 & E1 & Ψ2 & E2 & H1 & H2 & H). exists Ψ1, E1, Ψ2, E2. auto 10.
Qed.

Section wrap.
  Context {T Q R Q' R' : Type} (U : T → Prop) (G : Q → Prop) (ans : Q → R → Prop)
    (G' : Q' → Prop) (ans' : Q' → R' → Prop) (h : Q → prog T Q' R' R).

  Lemma owns_with_asks {A} (p : prog T Q R A) m Ψ E :
    (∀ q m E, G q → owns U G' ans' m (h q) (λ r _, ans q r) E) →
    owns U G ans m p Ψ E → owns U G' ans' m (with_asks h p) Ψ E.
  Proof.
    intros Hh. revert m Ψ E.
    induction p as [A a|A e|A i k IH|A i x k IH|A q k IH|A B C p1 IH1 p2 IH2 k IH| |];
      intros m Ψ E H; simpl in *; auto.
    - destruct H as [Hx H]. auto.
    - destruct H as [Hq H]. eapply owns_bind; [by apply Hh|]. intros r m' Hm Hr. simpl in Hr.
      apply IH. eapply owns_weaken; [exact Hm|]. auto.
    - destruct H as (Ψ1 & E1 & Ψ2 & E2 & H1 & H2 & H). exists Ψ1, E1, Ψ2, E2. auto 10.
  Qed.
End wrap.

(** The comparator is called with values of [U]; its answers are arbitrary. *)
Notation both U := (λ q, U q.1 ∧ U q.2).
Notation any := (λ _ _, True).

Lemma owns_by_compare {T A} (U : T → Prop) (p : cmp_prog T A) m Ψ E :
  owns U (both U) any m p Ψ E → owns U (both U) any m (by_compare p) Ψ E.
Proof. unfold by_compare. apply owns_with_asks. intros q m0 E0 Hq. simpl. auto. Qed.

(** The key function is called with values of [U]; the keys that are compared are
    keys it returned. *)
Definition key_of_good {T K} (U : T → Prop) (V : K → Prop) (q : key_question (T:=T) K) : Prop :=
  match q with KeyOf a => U a | KeyLt k1 k2 => V k1 ∧ V k2 end.
Definition key_answer_good {T K} (U : T → Prop) (V : K → Prop) (q : key_question (T:=T) K) (r : key_answer K) : Prop :=
  match q, r with KeyOf a, AKey k => U a → V k | _, _ => True end.
Lemma owns_by_key {T K A} (U : T → Prop) (V : K → Prop) (p : cmp_prog T A) m Ψ E :
  owns U (both U) any m p Ψ E →
  owns U (key_of_good U V) (key_answer_good U V) m (by_key p) Ψ E.
Proof.
  unfold by_key. apply owns_with_asks. intros [a b] m0 E0 [Ha Hb]. simpl in *.
  split; [done|]. intros [ka|v|] Hka; simpl in *; auto.
  split; [done|]. intros [kb|v|] Hkb; simpl in *; auto.
  split; [auto|]. intros [kc|v|] _; simpl in *; auto.
Qed.
