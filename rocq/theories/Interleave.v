(** * Interleave: programs whose parallel tasks interleave arbitrarily.

    [Prog.run] and [Prog.wp] execute the two arms of [Par] one after the other.
    Here is the semantics of [rayon::join] under an arbitrary scheduler: in each
    step any task that can go on performs one memory access or one call of the
    user's closure.  [Par] waits for both arms, and both arms always run, also
    if the other one panicked (the documented behaviour of [rayon::join]).

    The theorem: if the parallel tasks of a program have disjoint footprints
    ([fp]), then what [wp] says about the program holds for every schedule, and
    no two tasks ever race. *)
From Verif Require Export Prog.
From stdpp Require Import list relations.

Local Transparent wp bind on_unwind relocate focus.
Local Arguments wp {T Q R A} ans !p Φ E l.
Local Arguments bind {T Q R A B} !p f.
Local Arguments on_unwind {T Q R A} c !p.
Local Arguments relocate {T Q R A} f !p.

(** What one step does to memory. *)
Inductive action (T : Type) :=
| Tau
| Rd (i : nat) (x : T)
| Wr (i : nat) (x : T).
Global Arguments Tau {T}.
Global Arguments Rd {T} i x.
Global Arguments Wr {T} i x.

Definition effect {T} (act : action T) (l l' : list T) : Prop :=
  match act with
  | Tau => l' = l
  | Rd i x => l !! i = Some x ∧ l' = l
  | Wr i x => i < length l ∧ l' = <[i:=x]> l
  end.

(** The address an action touches. *)
Definition touches {T} (act : action T) (i : nat) : Prop :=
  match act with Tau => False | Rd j _ | Wr j _ => i = j end.
Definition writes {T} (act : action T) (i : nat) : Prop :=
  match act with Wr j _ => i = j | _ => False end.
(** Two actions conflict if they touch the same address and one of them writes. *)
Definition conflict {T} (a1 a2 : action T) : Prop :=
  ∃ i, touches a1 i ∧ touches a2 i ∧ (writes a1 i ∨ writes a2 i).

Section interleave.
  Context {T Q R : Type} (ans : Q → R → Prop).

  (** The result of a finished task. *)
  Definition result {A} (p : prog T Q R A) : option (A + exn) :=
    match p with
    | Ret a => Some (inl a)
    | Throw e => Some (inr e)
    | _ => None
    end.

  (** [step p act p']: one step of one of the running tasks of [p]. *)
  Fixpoint step {A} (p : prog T Q R A) (act : action T) {struct p} : prog T Q R A → Prop :=
    match p with
    | Ret _ | Throw _ | Undef | NoFuel => λ _, False
    | Read i k => λ p', ∃ x, act = Rd i x ∧ p' = k x
    | Write i x k => λ p', act = Wr i x ∧ p' = k
    | Ask q k => λ p', ∃ r, ans q r ∧ act = Tau ∧ p' = k r
    | Par p1 p2 k => λ p',
        (∃ p1', step p1 act p1' ∧ p' = Par p1' p2 k) ∨
        (∃ p2', step p2 act p2' ∧ p' = Par p1 p2' k) ∨
        (∃ b c, result p1 = Some b ∧ result p2 = Some c ∧ act = Tau ∧ p' = k b c)
    end.

  (** One step of the whole system: program and shared memory. *)
  Definition stepm {A} (c c' : prog T Q R A * list T) : Prop :=
    ∃ act, step c.1 act c'.1 ∧ effect act c.2 c'.2.

  (** Some task is about to access memory out of bounds or has run out of fuel. *)
  Fixpoint wrong {A} (p : prog T Q R A) (l : list T) : Prop :=
    match p with
    | Ret _ | Throw _ | Ask _ _ => False
    | Read i _ => l !! i = None
    | Write i _ _ => length l ≤ i
    | Par p1 p2 _ => wrong p1 l ∨ wrong p2 l
    | Undef | NoFuel => True
    end.

  (** Two tasks running at the same time have conflicting next steps. *)
  Fixpoint race {A} (p : prog T Q R A) : Prop :=
    match p with
    | Par p1 p2 _ =>
        race p1 ∨ race p2 ∨
        (∃ a1 p1' a2 p2', step p1 a1 p1' ∧ step p2 a2 p2' ∧ conflict a1 a2)
    | _ => False
    end.

  (** Every schedule of [p] started on [l] is finite, never accesses memory out
      of bounds, never exhausts a fuel, never races, is never stuck, and ends in
      [Φ] (normal return) or [E] (panic). *)
  Record every_schedule {A} (p : prog T Q R A) (l : list T)
      (Φ : A → list T → Prop) (E : exn → list T → Prop) : Prop := {
    es_finite : Acc (λ c' c, stepm c c') (p, l);
    es_safe p' l' : rtc stepm (p, l) (p', l') → ¬ wrong p' l';
    es_race_free p' l' : rtc stepm (p, l) (p', l') → ¬ race p';
    es_progress p' l' : rtc stepm (p, l) (p', l') →
      result p' ≠ None ∨ ∃ c, stepm (p', l') c;
    es_done a l' : rtc stepm (p, l) (Ret a, l') → Φ a l';
    es_panic e l' : rtc stepm (p, l) (Throw e, l') → E e l'
  }.

  (** ** Footprints.  [fp F p]: in every run [p] touches only addresses in [F],
      and tasks running in parallel touch disjoint addresses. *)
  Fixpoint fp {A} (F : nat → Prop) (p : prog T Q R A) : Prop :=
    match p with
    | Ret _ | Throw _ | Undef | NoFuel => True
    | Read i k => F i ∧ ∀ x, fp F (k x)
    | Write i x k => F i ∧ fp F k
    | Ask q k => ∀ r, fp F (k r)
    | Par p1 p2 k =>
        (∃ F1 F2 : nat → Prop, (∀ i, F1 i → F i) ∧ (∀ i, F2 i → F i) ∧ (∀ i, F1 i → F2 i → False) ∧
           fp F1 p1 ∧ fp F2 p2) ∧
        ∀ b c, fp F (k b c)
    end.

  Lemma fp_mono {A} (F F' : nat → Prop) (p : prog T Q R A) :
    (∀ i, F i → F' i) → fp F p → fp F' p.
  Proof.
    revert F F'.
    induction p as [A a|A e|A i k IH|A i x k IH|A q k IH|A B C p1 IH1 p2 IH2 k IH| |];
      intros F F' HF H; simpl in *; auto.
    - destruct H. split; eauto.
    - destruct H. split; eauto.
    - eauto.
    - destruct H as [(F1 & F2 & H1 & H2 & Hd & Hp1 & Hp2) Hk]. split; [|eauto].
      exists F1, F2. repeat split; eauto.
  Qed.

  Lemma fp_step {A} F (p : prog T Q R A) act p' :
    fp F p → step p act p' → fp F p' ∧ ∀ i, touches act i → F i.
  Proof.
    revert F act p'.
    induction p as [A a|A e|A i k IH|A i x k IH|A q k IH|A B C p1 IH1 p2 IH2 k IH| |];
      intros F act p' H Hs; simpl in *; try done.
    - destruct Hs as (x & -> & ->), H. simpl. split; [done|]. by intros ? ->.
    - destruct Hs as (-> & ->), H. simpl. split; [done|]. by intros ? ->.
    - destruct Hs as (r & Hr & -> & ->). simpl. split; [done|]. by intros ? ?.
    - destruct H as [(F1 & F2 & H1 & H2 & Hd & Hp1 & Hp2) Hk].
      destruct Hs as [(p1' & Hs & ->)|[(p2' & Hs & ->)|(b & c & Hb & Hc & -> & ->)]].
      + destruct (IH1 _ _ _ Hp1 Hs) as [Hp1' Ht]. split; [|eauto].
        simpl. split; [|done]. exists F1, F2. auto.
      + destruct (IH2 _ _ _ Hp2 Hs) as [Hp2' Ht]. split; [|eauto].
        simpl. split; [|done]. exists F1, F2. auto.
      + split; [done|]. by intros ? ?.
  Qed.

  Lemma fp_no_race {A} F (p : prog T Q R A) : fp F p → ¬ race p.
  Proof.
    revert F.
    induction p as [A a|A e|A i k IH|A i x k IH|A q k IH|A B C p1 IH1 p2 IH2 k IH| |];
      intros F H Hr; simpl in *; try done.
    destruct H as [(F1 & F2 & H1 & H2 & Hd & Hp1 & Hp2) Hk].
    destruct Hr as [Hr|[Hr|(a1 & p1' & a2 & p2' & Hs1 & Hs2 & i & Ht1 & Ht2 & _)]]; [by eapply IH1|by eapply IH2|].
    destruct (fp_step _ _ _ _ Hp1 Hs1) as [_ HF1].
    destruct (fp_step _ _ _ _ Hp2 Hs2) as [_ HF2]. eauto.
  Qed.

  (** ** Every schedule is finite. *)
  Lemma step_wf {A} (p : prog T Q R A) : Acc (λ p' p, ∃ act, step p act p') p.
  Proof.
    induction p as [A a|A e|A i k IH|A i x k IH|A q k IH|A B C p1 IH1 p2 IH2 k IH| |].
    - constructor. intros p' (act & []).
    - constructor. intros p' (act & []).
    - constructor. intros p' (act & x & _ & ->). auto.
    - constructor. intros p' (act & _ & ->). auto.
    - constructor. intros p' (act & r & _ & _ & ->). auto.
    - revert p2 IH2. induction IH1 as [p1 _ IHp1]. intros p2 IH2.
      induction IH2 as [p2 Hp2 IHp2].
      constructor. intros p' (act & [(p1' & Hs & ->)|[(p2' & Hs & ->)|(b & c & _ & _ & _ & ->)]]).
      + apply IHp1; [by exists act|]. by constructor.
      + apply IHp2. by exists act.
      + apply IH.
    - constructor. intros p' (act & []).
    - constructor. intros p' (act & []).
  Qed.
  Lemma stepm_wf {A} (p : prog T Q R A) l : Acc (λ c' c, stepm c c') (p, l).
  Proof.
    revert l. induction (step_wf p) as [p _ IH]. intros l.
    constructor. intros [p' l'] (act & Hs & He). simpl in *. apply IH. by exists act.
  Qed.

  (** ** Actions outside of its footprint do not disturb a program. *)
  Lemma effect_length act l l' : effect (T:=T) act l l' → length l' = length l.
  Proof.
    destruct act; simpl.
    - by intros ->.
    - by intros [_ ->].
    - intros [_ ->]. apply insert_length.
  Qed.

  Lemma wp_frame {A} F (p : prog T Q R A) act :
    fp F p → (∀ i, touches act i → F i → False) →
    ∀ (Φ Φ' : A → list T → Prop) (E E' : exn → list T → Prop) l l',
    effect act l l' → wp ans p Φ E l →
    (∀ a m m', effect act m m' → Φ a m → Φ' a m') →
    (∀ e m m', effect act m m' → E e m → E' e m') →
    wp ans p Φ' E' l'.
  Proof.
    intros Hfp Ht.
    assert (Hgen : ∀ G : nat → Prop, (∀ i, G i → F i) → fp G p →
      ∀ (Φ Φ' : A → list T → Prop) (E E' : exn → list T → Prop) l l',
      effect act l l' → wp ans p Φ E l →
      (∀ a m m', effect act m m' → Φ a m → Φ' a m') →
      (∀ e m m', effect act m m' → E e m → E' e m') → wp ans p Φ' E' l');
      [|by eapply Hgen].
    clear Hfp.
    induction p as [A a|A e|A i k IH|A i x k IH|A q k IH|A B C p1 IH1 p2 IH2 k IH| |];
      intros G HG Hfp Φ Φ' E E' l l' Hef Hwp HΦ HE; simpl in *; try done.
    - by eapply HΦ.
    - by eapply HE.
    - destruct Hfp as [HF Hk].
      assert (l' !! i = l !! i) as ->.
      { destruct act as [|j y|j y]; simpl in *; [by subst|by destruct Hef as [_ ->]|].
        destruct Hef as [_ ->]. rewrite list_lookup_insert_ne; [done|]. intros ->. eauto. }
      destruct (l !! i); [|done]. eauto.
    - destruct Hfp as [HF Hk], Hwp as [Hi Hwp].
      split; [by rewrite (effect_length _ _ _ Hef)|].
      eapply (IH G HG Hk); [|exact Hwp|done|done].
      destruct act as [|j y|j y]; simpl in *.
      + by subst.
      + destruct Hef as [Hj ->]. split; [|done]. rewrite list_lookup_insert_ne; [done|]. intros ->. eauto.
      + destruct Hef as [Hj ->]. split; [by rewrite insert_length|].
        rewrite list_insert_commute; [done|]. intros ->. eauto.
    - intros r Hr. eapply (IH r G HG (Hfp r)); eauto.
    - destruct Hfp as [(F1 & F2 & H1 & H2 & Hd & Hp1 & Hp2) Hk].
      eapply (IH1 F1); [eauto|done|exact Hef|exact Hwp| |]; intros b m m' Hm Hwp2; simpl in *;
        (eapply (IH2 F2); [eauto|done|exact Hm|exact Hwp2| |]; intros c m2 m2' Hm2 Hk2; simpl in *;
         eapply (IH _ _ G HG); eauto).
  Qed.

  (** ** One step preserves [wp]. *)
  Lemma wp_result {A} (p : prog T Q R A) r Φ E l :
    result p = Some r → wp ans p Φ E l → match r with inl a => Φ a l | inr e => E e l end.
  Proof. destruct p; simpl; intros [= <-]; done. Qed.

  Lemma wp_step {A} F (p : prog T Q R A) act p' :
    fp F p → step p act p' → ∀ Φ E l l', effect act l l' →
    wp ans p Φ E l → wp ans p' Φ E l'.
  Proof.
    revert F act p'.
    induction p as [A a|A e|A i k IH|A i x k IH|A q k IH|A B C p1 IH1 p2 IH2 k IH| |];
      intros F act p' Hfp Hs Φ E l l' Hef Hwp; simpl in *; try done.
    - destruct Hs as (x & -> & ->). simpl in Hef. destruct Hef as [Hx ->]. by rewrite Hx in Hwp.
    - destruct Hs as (-> & ->). simpl in Hef. destruct Hef as [Hx ->]. by destruct Hwp.
    - destruct Hs as (r & Hr & -> & ->). simpl in Hef. subst. eauto.
    - destruct Hfp as [(F1 & F2 & H1 & H2 & Hd & Hp1 & Hp2) Hk].
      destruct Hs as [(p1' & Hs & ->)|[(p2' & Hs & ->)|(b & c & Hb & Hc & -> & ->)]].
      + simpl. eapply IH1; eauto.
      + simpl. eapply (wp_frame F1 p1 act Hp1); [|exact Hef|exact Hwp| |].
        * intros i Hi. destruct (fp_step _ _ _ _ Hp2 Hs) as [_ HF2]. eauto.
        * intros b m m' Hm Hwp2. simpl in *. eapply (IH2 _ _ _ Hp2 Hs); eauto.
        * intros b m m' Hm Hwp2. simpl in *. eapply (IH2 _ _ _ Hp2 Hs); eauto.
      + simpl in Hef. subst.
        apply (wp_result _ _ _ _ _ Hb) in Hwp. destruct b as [b|e];
          apply (wp_result _ _ _ _ _ Hc) in Hwp; by destruct c.
  Qed.

  Lemma wp_steps {A} F (p p' : prog T Q R A) Φ E l l' :
    rtc stepm (p, l) (p', l') → fp F p → wp ans p Φ E l → fp F p' ∧ wp ans p' Φ E l'.
  Proof.
    intros Hs. remember (p, l) as c eqn:Hc. remember (p', l') as c' eqn:Hc'.
    revert p l Hc. induction Hs as [c|c c2 c3 (act & Hstep & Hef) Hs IH]; intros p l Hc Hfp Hwp.
    - simplify_eq. done.
    - subst. destruct c2 as [p2 l2]. simpl in *.
      eapply (IH eq_refl p2 l2); [done| |].
      + exact (proj1 (fp_step _ _ _ _ Hfp Hstep)).
      + exact (wp_step _ _ _ _ Hfp Hstep _ _ _ _ Hef Hwp).
  Qed.

  (** ** Sequential results: [seq_result p l r l'] if running the arms of every [Par] one
      after the other, with some answers of the closure, [p] can turn memory [l]
      into [l'] with result [r]. *)
  Fixpoint seq_result {A} (p : prog T Q R A) (l : list T) (r : A + exn) (l' : list T) : Prop :=
    match p with
    | Ret a => r = inl a ∧ l' = l
    | Throw e => r = inr e ∧ l' = l
    | Read i k => ∃ x, l !! i = Some x ∧ seq_result (k x) l r l'
    | Write i x k => i < length l ∧ seq_result k (<[i:=x]> l) r l'
    | Ask q k => ∃ r0, ans q r0 ∧ seq_result (k r0) l r l'
    | Par p1 p2 k =>
        ∃ b l1 c l2, seq_result p1 l b l1 ∧ seq_result p2 l1 c l2 ∧ seq_result (k b c) l2 r l'
    | Undef | NoFuel => False
    end.

  Lemma wp_seq_result {A} (p : prog T Q R A) Φ E l :
    wp ans p Φ E l →
    wp ans p (λ a l', Φ a l' ∧ seq_result p l (inl a) l')
             (λ e l', E e l' ∧ seq_result p l (inr e) l') l.
  Proof.
    revert Φ E l.
    induction p as [A a|A e|A i k IH|A i x k IH|A q k IH|A B C p1 IH1 p2 IH2 k IH| |];
      intros Φ E l Hwp; simpl in *; try done.
    - destruct (l !! i) as [x|]; [|done]. eapply wp_mono; [by apply IH| |]; simpl;
        intros ? ? _ [? ?]; eauto.
    - destruct Hwp as [Hi Hwp]. split; [done|]. eapply wp_mono; [by apply IH| |]; simpl;
        intros ? ? _ [? ?]; eauto.
    - intros r Hr. eapply wp_mono; [by apply IH, Hwp| |]; simpl;
        intros ? ? _ [? ?]; eauto.
    - eapply wp_mono; [apply IH1, Hwp| |]; simpl; intros b l1 _ [Hwp2 Hr1];
        (eapply wp_mono; [apply IH2, Hwp2| |]; simpl; intros d l2 _ [Hk Hr2];
         (eapply wp_mono; [apply IH, Hk| |]; simpl; intros a l3 _ [? ?]; eauto 10)).
  Qed.

  (** The closure has an answer to every question (so tasks cannot get stuck). *)
  Hypothesis total : ∀ q, ∃ r, ans q r.

  Lemma wp_ends {A} F (p : prog T Q R A) Φ E l :
    fp F p → wp ans p Φ E l →
    ∃ l', length l' = length l ∧ (∀ i, (F i → False) → l' !! i = l !! i) ∧
      ((∃ a, Φ a l') ∨ (∃ e, E e l')).
  Proof.
    revert F Φ E l.
    induction p as [A a|A e|A i k IH|A i x k IH|A q k IH|A B C p1 IH1 p2 IH2 k IH| |];
      intros F Φ E l Hfp Hwp; simpl in *; try done; eauto 10.
    - destruct Hfp as [Hi Hk]. destruct (l !! i); [|done]. eauto.
    - destruct Hfp as [Hi Hk], Hwp as [Hl Hwp].
      destruct (IH _ _ _ _ Hk Hwp) as (l' & Hlen & Hag & H).
      exists l'. rewrite insert_length in Hlen. split; [done|]. split; [|done].
      intros j Hj. rewrite Hag by done. apply list_lookup_insert_ne. by intros ->.
    - destruct (total q) as [r Hr]. eauto.
    - destruct Hfp as [(F1 & F2 & H1 & H2 & Hd & Hp1 & Hp2) Hk].
      destruct (IH1 _ _ _ _ Hp1 Hwp) as (l1 & Hlen1 & Hag1 & [[b Hwp1]|[e Hwp1]]);
        destruct (IH2 _ _ _ _ Hp2 Hwp1) as (l2 & Hlen2 & Hag2 & [[d Hwp2]|[e' Hwp2]]);
        destruct (IH _ _ _ _ _ _ (Hk _ _) Hwp2) as (l3 & Hlen3 & Hag3 & H3);
        (exists l3; split; [congruence|]; split; [|done];
         intros j Hj; rewrite Hag3, Hag2, Hag1 by eauto; done).
  Qed.

  Lemma wrong_agree {A} F (p : prog T Q R A) l l' :
    fp F p → length l' = length l → (∀ i, F i → l' !! i = l !! i) → wrong p l → wrong p l'.
  Proof.
    revert F.
    induction p as [A a|A e|A i k IH|A i x k IH|A q k IH|A B C p1 IH1 p2 IH2 k IH| |];
      intros F Hfp Hlen Hag Hw; simpl in *; try done.
    - destruct Hfp as [Hi _]. by rewrite Hag.
    - lia.
    - destruct Hfp as [(F1 & F2 & H1 & H2 & Hd & Hp1 & Hp2) Hk].
      destruct Hw as [Hw|Hw]; [left; eapply IH1|right; eapply IH2]; eauto.
  Qed.

  Lemma wp_not_wrong {A} F (p : prog T Q R A) Φ E l : fp F p → wp ans p Φ E l → ¬ wrong p l.
  Proof.
    revert F Φ E l.
    induction p as [A a|A e|A i k IH|A i x k IH|A q k IH|A B C p1 IH1 p2 IH2 k IH| |];
      intros F Φ E l Hfp Hwp Hw; simpl in *; try done.
    - by rewrite Hw in Hwp.
    - destruct Hwp. lia.
    - destruct Hfp as [(F1 & F2 & H1 & H2 & Hd & Hp1 & Hp2) Hk].
      destruct Hw as [Hw|Hw]; [by eapply (IH1 F1)|].
      destruct (wp_ends _ _ _ _ _ Hp1 Hwp) as (l1 & Hlen & Hag & H).
      assert (Hw1 : wrong p2 l1).
      { eapply (wrong_agree F2); [done|done| |done]. intros i Hi. apply Hag. eauto. }
      destruct H as [[b Hwp1]|[e Hwp1]]; by eapply (IH2 F2).
  Qed.

  Lemma not_wrong_step {A} (p : prog T Q R A) l :
    ¬ wrong p l → result p ≠ None ∨ ∃ c, stepm (p, l) c.
  Proof.
    induction p as [A a|A e|A i k IH|A i x k IH|A q k IH|A B C p1 IH1 p2 IH2 k IH| |];
      intros Hw; simpl in *; try (by left); try (by destruct Hw).
    - right. destruct (l !! i) as [x|] eqn:Hx; [|done].
      exists (k x, l), (Rd i x). simpl. eauto.
    - right. exists (k, <[i:=x]> l), (Wr i x). simpl. repeat split; auto. lia.
    - right. destruct (total q) as [r Hr]. exists (k r, l), Tau. simpl. eauto 10.
    - right. destruct IH1 as [H1|[[p1' l1] (act & Hs & He)]]; [tauto| |].
      2: { exists (Par p1' p2 k, l1), act. simpl in *. split; [|done]. left. eauto. }
      destruct IH2 as [H2|[[p2' l2] (act & Hs & He)]]; [tauto| |].
      2: { exists (Par p1 p2' k, l2), act. simpl in *. split; [|done]. right; left. eauto. }
      destruct (result p1) as [b|] eqn:Hb; [|done]. destruct (result p2) as [d|] eqn:Hd; [|done].
      exists (k b d, l), Tau. simpl. split; [|done]. right; right. eauto 10.
  Qed.

  (** What [wp] says about a program with disjoint tasks holds for every
      schedule. *)
  Lemma wp_every_schedule {A} F (p : prog T Q R A) Φ E l :
    fp F p → wp ans p Φ E l → every_schedule p l Φ E.
  Proof.
    intros Hfp Hwp. split.
    - apply stepm_wf.
    - intros p' l' Hs. destruct (wp_steps _ _ _ _ _ _ _ Hs Hfp Hwp) as [Hfp' Hwp'].
      by eapply wp_not_wrong.
    - intros p' l' Hs. destruct (wp_steps _ _ _ _ _ _ _ Hs Hfp Hwp) as [Hfp' Hwp'].
      by eapply fp_no_race.
    - intros p' l' Hs. destruct (wp_steps _ _ _ _ _ _ _ Hs Hfp Hwp) as [Hfp' Hwp'].
      by eapply not_wrong_step, wp_not_wrong.
    - intros a l' Hs. by destruct (wp_steps _ _ _ _ _ _ _ Hs Hfp Hwp) as [_ Hwp'].
    - intros e l' Hs. by destruct (wp_steps _ _ _ _ _ _ _ Hs Hfp Hwp) as [_ Hwp'].
  Qed.

  (** ... in particular the result of every schedule is one the sequential
      composition of the tasks allows. *)
  Lemma schedules_are_sequential {A} F (p : prog T Q R A) Φ E l :
    fp F p → wp ans p Φ E l →
    every_schedule p l (λ a l', seq_result p l (inl a) l') (λ e l', seq_result p l (inr e) l').
  Proof.
    intros Hfp Hwp. eapply wp_every_schedule; [done|].
    eapply wp_mono; [apply wp_seq_result, Hwp| |]; simpl; intros ? ? _ [? ?]; done.
  Qed.
End interleave.

(** ** Footprint rules. *)
Section fp.
  Context {T Q R : Type}.
  Notation P A := (prog T Q R A).

  Lemma fp_bind {A B} F (p : P A) (f : A → P B) :
    fp F p → (∀ a, fp F (f a)) → fp F (bind p f).
  Proof.
    revert B f.
    induction p as [A a|A e|A i k IH|A i x k IH|A q k IH|A B' C p1 IH1 p2 IH2 k IH| |];
      intros B f Hp Hf; simpl in *; auto.
    - destruct Hp. auto.
    - destruct Hp. auto.
    - destruct Hp. auto.
  Qed.
  Lemma fp_on_unwind {A} F (c : P unit) (p : P A) :
    fp F c → fp F p → fp F (on_unwind c p).
  Proof.
    intros Hc.
    induction p as [A a|A e|A i k IH|A i x k IH|A q k IH|A B' C p1 IH1 p2 IH2 k IH| |];
      intros Hp; simpl in *; auto.
    - by apply fp_bind.
    - destruct Hp. auto.
    - destruct Hp. auto.
    - destruct Hp. auto.
  Qed.
  (** The image of a footprint under an injective address map. *)
  Lemma fp_relocate {A} (F : nat → Prop) (f : nat → nat) (p : P A) :
    (∀ i j, F i → F j → f i = f j → i = j) →
    fp F p → fp (λ j, ∃ i, F i ∧ j = f i) (relocate f p).
  Proof.
    revert F.
    induction p as [A a|A e|A i k IH|A i x k IH|A q k IH|A B' C p1 IH1 p2 IH2 k IH| |];
      intros F Hinj Hp; simpl in *; auto.
    - destruct Hp. split; [|by auto]. eauto.
    - destruct Hp. split; [|by auto]. eauto.
    - destruct Hp as [(F1 & F2 & H1 & H2 & Hd & Hp1 & Hp2) Hk]. split; [|by auto].
      exists (λ j, ∃ i, F1 i ∧ j = f i), (λ j, ∃ i, F2 i ∧ j = f i).
      split; [intros j (i & ? & ->); eauto|]. split; [intros j (i & ? & ->); eauto|].
      split; [|split; [apply IH1; eauto|apply IH2; eauto]].
      intros j (i1 & Hi1 & ->) (i2 & Hi2 & He). apply Hinj in He; eauto. subst. eauto.
  Qed.
  Lemma fp_focus {A} (F F' : nat → Prop) off (p : P A) :
    fp F p → (∀ i, F i → F' (off + i)) → fp F' (focus off p).
  Proof.
    intros Hp HF. eapply (fp_mono _ F'); [|apply (fp_relocate F)]; [|intros; lia|done].
    intros j (i & Hi & ->). auto.
  Qed.
  Lemma fp_Par {A B C} (F F1 F2 : nat → Prop) (p1 : P B) (p2 : P C) (k : B + exn → C + exn → P A) :
    (∀ i, F1 i → F i) → (∀ i, F2 i → F i) → (∀ i, F1 i → F2 i → False) →
    fp F1 p1 → fp F2 p2 → (∀ b c, fp F (k b c)) → fp F (Par p1 p2 k).
  Proof. intros. split; [|done]. exists F1, F2. done. Qed.
  Lemma fp_ret {A} F (a : A) : fp F (Ret a : P A).
  Proof. done. Qed.
  Lemma fp_throw {A} F e : fp F (Throw e : P A).
  Proof. done. Qed.
  Lemma fp_undef {A} F : fp F (Undef : P A).
  Proof. done. Qed.
  Lemma fp_nofuel {A} F : fp F (NoFuel : P A).
  Proof. done. Qed.
  Lemma fp_Read {A} (F : nat → Prop) i (k : T → P A) : F i → (∀ x, fp F (k x)) → fp F (Read i k).
  Proof. done. Qed.
  Lemma fp_Write {A} (F : nat → Prop) i x (k : P A) : F i → fp F k → fp F (Write i x k).
  Proof. done. Qed.
  Lemma fp_Ask {A} (F : nat → Prop) q (k : R → P A) : (∀ r, fp F (k r)) → fp F (Ask q k).
  Proof. done. Qed.
End fp.
Global Opaque fp.
