(** * Alike: programs that do the same on related elements. *)
From Verif Require Export AlikeSpec Subst.
From stdpp Require Import list relations.

Local Transparent bind on_unwind relocate focus.
Local Arguments bind {T Q R A B} !p f.
Local Arguments on_unwind {T Q R A} c !p.
Local Arguments relocate {T Q R A} f !p.
Local Arguments with_asks {T Q R Q' R'} h {A} !p.

Definition sum_alike {A A'} (RA : A → A' → Prop) (r : A + exn) (r' : A' + exn) : Prop :=
  match r, r' with
  | inl a, inl a' => RA a a'
  | inr e, inr e' => e = e'
  | _, _ => False
  end.

Section alike.
  Context {T U Q Q' X X' : Type} (R : T → U → Prop) (RQ : Q → Q' → Prop) (RX : X → X' → Prop).
  Notation P A := (prog T Q X A).
  Notation P' A := (prog U Q' X' A).

  (** The same accesses at the same places with related values, related questions
      and, for related values read and related answers, alike continuations. *)
  Fixpoint alike {A A'} (RA : A → A' → Prop) (p : P A) (p' : P' A') {struct p} : Prop :=
    match p, p' with
    | Ret a, Ret a' => RA a a'
    | Throw e, Throw e' => e = e'
    | Read i k, Read i' k' => i = i' ∧ ∀ x x', R x x' → alike RA (k x) (k' x')
    | Write i x k, Write i' x' k' => i = i' ∧ R x x' ∧ alike RA k k'
    | Ask q k, Ask q' k' => RQ q q' ∧ ∀ r r', RX r r' → alike RA (k r) (k' r')
    | @Par _ _ _ _ B C p1 p2 k, @Par _ _ _ _ B' C' p1' p2' k' =>
        ∃ (RB : B → B' → Prop) (RC : C → C' → Prop), alike RB p1 p1' ∧ alike RC p2 p2' ∧
        ∀ b b' d d', sum_alike RB b b' → sum_alike RC d d' → alike RA (k b d) (k' b' d')
    | Undef, Undef | NoFuel, NoFuel => True
    | _, _ => False
    end.

  Lemma alike_mono {A A'} (RA RA' : A → A' → Prop) (p : P A) (p' : P' A') :
    alike RA p p' → (∀ a a', RA a a' → RA' a a') → alike RA' p p'.
  Proof.
    revert A' RA RA' p'.
    induction p as [A a|A e|A i k IH|A i x k IH|A q k IH|A B C p1 IH1 p2 IH2 k IH| |];
      intros A' RA RA' [] H HR; simpl in *; auto.
    - destruct H. split; [done|]. eauto.
    - destruct H as (?&?&?). eauto.
    - destruct H. split; [done|]. eauto.
    - destruct H as (RB & RC & H1 & H2 & H). exists RB, RC. split; [done|]. split; [done|]. eauto.
  Qed.
  Lemma alike_bind {A A' B B'} (RA : A → A' → Prop) (RB : B → B' → Prop) (p : P A) (p' : P' A')
      (f : A → P B) (f' : A' → P' B') :
    alike RA p p' → (∀ a a', RA a a' → alike RB (f a) (f' a')) → alike RB (bind p f) (bind p' f').
  Proof.
    revert A' B B' RA RB p' f f'.
    induction p as [A a|A e|A i k IH|A i x k IH|A q k IH|A B0 C p1 IH1 p2 IH2 k IH| |];
      intros A' B B' RA RB [] f f' H Hf; simpl in *; auto; try done.
    - destruct H. split; [done|]. eauto.
    - destruct H as (?&?&?). eauto.
    - destruct H. split; [done|]. eauto.
    - destruct H as (RB' & RC & H1 & H2 & H). exists RB', RC. split; [done|]. split; [done|]. eauto.
  Qed.
  Lemma alike_on_unwind {A A'} (RA : A → A' → Prop) (RU : unit → unit → Prop) (c : P unit) (c' : P' unit)
      (p : P A) (p' : P' A') :
    alike RA p p' → alike RU c c' → alike RA (on_unwind c p) (on_unwind c' p').
  Proof.
    revert A' RA p'.
    induction p as [A a|A e|A i k IH|A i x k IH|A q k IH|A B0 C p1 IH1 p2 IH2 k IH| |];
      intros A' RA [] H Hc; simpl in *; auto; try done.
    - eapply alike_bind; [exact Hc|]. intros. exact H.
    - destruct H. split; [done|]. eauto.
    - destruct H as (?&?&?). eauto.
    - destruct H. split; [done|]. eauto.
    - destruct H as (RB' & RC & H1 & H2 & H). exists RB', RC. split; [done|]. split; [done|]. eauto.
  Qed.
  Lemma alike_relocate {A A'} (RA : A → A' → Prop) f (p : P A) (p' : P' A') :
    alike RA p p' → alike RA (relocate f p) (relocate f p').
  Proof.
    revert A' RA p'.
    induction p as [A a|A e|A i k IH|A i x k IH|A q k IH|A B0 C p1 IH1 p2 IH2 k IH| |];
      intros A' RA [] H; simpl in *; auto; try done.
    - destruct H as [-> H]. split; [done|]. eauto.
    - destruct H as (->&?&?). eauto.
    - destruct H. split; [done|]. eauto.
    - destruct H as (RB' & RC & H1 & H2 & H). exists RB', RC. split; [eauto|]. split; [eauto|]. eauto.
  Qed.
  Lemma alike_focus {A A'} (RA : A → A' → Prop) off (p : P A) (p' : P' A') :
    alike RA p p' → alike RA (focus off p) (focus off p').
  Proof. apply alike_relocate. Qed.

  (** ** What it means for runs. *)
  Lemma alike_run {S S' A A'} (RS : S → S' → Prop) (RA : A → A' → Prop) o o' (p : P A) (p' : P' A') s s' l l' :
    closures_alike RS RQ RX o o' → alike RA p p' → RS s s' → Forall2 R l l' →
    runs_alike R RS RA (run o p s l) (run o' p' s' l').
  Proof.
    intros Ho. revert A' RA p' s s' l l'.
    induction p as [A a|A e|A i k IH|A i x k IH|A q k IH|A B0 C p1 IH1 p2 IH2 k IH| |];
      intros A' RA [] s s' l l' H Hs Hl; simpl in *; try done.
    - destruct H as [<- H]. pose proof (proj1 (Forall2_lookup R l l') Hl i) as Hlk. inversion Hlk; [|done]. eauto.
    - destruct H as (<- & Hx & H). rewrite <-(Forall2_length _ _ _ Hl).
      case_decide; [|done]. apply IH; auto. by apply Forall2_insert.
    - destruct H as [Hq H]. destruct (Ho s s' _ _ Hs Hq) as [Hr Hs2].
      destruct (o s q), (o' s' q0); simpl in *. auto.
    - destruct H as (RB & RC & H1 & H2 & H).
      destruct (IH1 _ RB _ _ _ _ _ H1 Hs Hl) as (Hr1 & Hs1 & Hl1).
      destruct (run o p1 s l) as [[r1 s1] l1], (run o' p0 s' l') as [[r1' s1'] l1']; simpl in *.
      destruct (IH2 _ RC _ _ _ _ _ H2 Hs1 Hl1) as (Hr2 & Hs2 & Hl2).
      destruct (run o p2 s1 l1) as [[r2 s2] l2], (run o' p3 s1' l1') as [[r2' s2'] l2']; simpl in *.
      destruct r1, r1'; try done; destruct r2, r2'; try done; apply IH; auto.
  Qed.

  Lemma alike_result {A A'} (RA : A → A' → Prop) (p : P A) (p' : P' A') :
    alike RA p p' → ends_alike RA (result p) (result p').
  Proof. destruct p, p'; simpl; done. Qed.
  Lemma result_alike {A A'} (RA : A → A' → Prop) (p : P A) (p' : P' A') b :
    alike RA p p' → result p = Some b → ∃ b', result p' = Some b' ∧ sum_alike RA b b'.
  Proof. destruct p, p'; simpl; try done; intros H [= <-]; eauto. Qed.

  Definition action_alike (a : action T) (a' : action U) : Prop :=
    match a, a' with
    | Tau, Tau => True
    | Rd i x, Rd i' x' | Wr i x, Wr i' x' => i = i' ∧ R x x'
    | _, _ => False
    end.

  Lemma alike_step {A A'} (RA : A → A' → Prop) (ans : Q → X → Prop) (ans' : Q' → X' → Prop)
      (p q : P A) (p' : P' A') act l l' m :
    (∀ q q' r, RQ q q' → ans q r → ∃ r', ans' q' r' ∧ RX r r') →
    alike RA p p' → step ans p act q → effect act l m → Forall2 R l l' →
    ∃ q' act' m', step ans' p' act' q' ∧ effect act' l' m' ∧ alike RA q q' ∧ Forall2 R m m'.
  Proof.
    intros Hans. revert A' RA p' q act l l' m.
    induction p as [A a|A e|A i k IH|A i x k IH|A q0 k IH|A B0 C p1 IH1 p2 IH2 k IH| |];
      intros A' RA p' q act l l' m H Hst Heff Hl; destruct p'; simpl in *; try done.
    - destruct H as [<- H], Hst as (x & -> & ->), Heff as [Hx ->].
      pose proof (proj1 (Forall2_lookup R l l') Hl i) as Hlk. rewrite Hx in Hlk.
      inversion Hlk as [? x' Hxx Heq Hx'|]; subst.
      exists (k0 x'), (Rd i x'), l'. simpl. eauto 10.
    - destruct H as (<- & Hx & H), Hst as [-> ->], Heff as [Hi ->].
      eexists _, (Wr i x0), _. simpl. split; [eauto|]. split; [split; [|done]; by rewrite <-(Forall2_length _ _ _ Hl)|].
      split; [done|]. by apply Forall2_insert.
    - destruct H as [Hq H], Hst as (r & Hr & -> & ->). destruct (Hans _ _ _ Hq Hr) as (r' & Hr' & Hrr).
      simpl in Heff. subst. exists (k0 r'), Tau, l'. simpl. eauto 10.
    - destruct H as (RB & RC & H1 & H2 & H).
      destruct Hst as [(p1' & Hst & ->)|[(p2' & Hst & ->)|(b & d & Hb & Hd & -> & ->)]].
      + destruct (IH1 _ _ _ _ _ _ _ _ H1 Hst Heff Hl) as (q' & act' & m' & ? & ? & ? & ?).
        eexists _, act', m'. split; [left; eauto|]. split; [done|]. split; [|done]. simpl. eauto 10.
      + destruct (IH2 _ _ _ _ _ _ _ _ H2 Hst Heff Hl) as (q' & act' & m' & ? & ? & ? & ?).
        eexists _, act', m'. split; [right; left; eauto|]. split; [done|]. split; [|done]. simpl. eauto 10.
      + destruct (result_alike _ _ _ _ H1 Hb) as (b' & Hb' & Hbb).
        destruct (result_alike _ _ _ _ H2 Hd) as (d' & Hd' & Hdd).
        simpl in Heff. subst. eexists _, Tau, l'. split; [right; right; eauto 10|].
        split; [done|]. split; [|done]. auto.
  Qed.
  Lemma alike_schedules {A A'} (RA : A → A' → Prop) (ans : Q → X → Prop) (ans' : Q' → X' → Prop)
      (p : P A) (p' : P' A') l l' :
    (∀ q q' r, RQ q q' → ans q r → ∃ r', ans' q' r' ∧ RX r r') →
    alike RA p p' → Forall2 R l l' → schedules_alike R RA ans ans' p l p' l'.
  Proof.
    intros Hans Hp Hl q m Hst.
    remember (p, l) as x eqn:Hx. remember (q, m) as y eqn:Hy. revert p l p' l' Hx Hp Hl.
    induction Hst as [x|x [p2 l2] y [act [Hst Heff]] Hsts IH]; intros p l p' l' Hx Hp Hl; subst.
    - injection Hx as -> ->. exists p', l'. split; [done|]. split; [done|]. by apply alike_result.
    - simpl in *. destruct (alike_step _ _ _ _ _ _ _ _ _ _ Hans Hp Hst Heff Hl) as (q' & act' & m' & ? & ? & ? & ?).
      destruct (IH eq_refl p2 l2 q' m') as (q2 & m2 & ? & ? & ?); [done..|].
      exists q2, m2. split; [|done]. eapply rtc_l; [|eassumption]. exists act'. done.
  Qed.
End alike.

(** Replacing the closure of alike programs. *)
Lemma alike_with_asks {T U Q Q' X X' Q2 Q2' X2 X2' A A'} (R : T → U → Prop) (RQ : Q → Q' → Prop) (RX : X → X' → Prop)
    (RQ2 : Q2 → Q2' → Prop) (RX2 : X2 → X2' → Prop) (RA : A → A' → Prop)
    (h : Q → prog T Q2 X2 X) (h' : Q' → prog U Q2' X2' X') p p' :
  (∀ q q', RQ q q' → alike R RQ2 RX2 RX (h q) (h' q')) →
  alike R RQ RX RA p p' → alike R RQ2 RX2 RA (with_asks h p) (with_asks h' p').
Proof.
  intros Hh. revert A' RA p'.
  induction p as [A a|A e|A i k IH|A i x k IH|A q k IH|A B0 C p1 IH1 p2 IH2 k IH| |];
    intros A' RA [] H; simpl in *; auto; try done.
  - destruct H as [-> H]. split; [done|]. eauto.
  - destruct H as (->&?&?). eauto.
  - destruct H. eapply alike_bind; [by apply Hh|]. eauto.
  - destruct H as (RB' & RC & H1 & H2 & H). exists RB', RC. split; [eauto|]. split; [eauto|]. eauto.
Qed.
Global Opaque alike.
