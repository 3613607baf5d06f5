(** * Prog: the programming language in which the model of the crate is written.

    The crate's algorithms run over one-dimensional [ndarray] views.  They read
    and write elements, call user closures (comparators, key functions,
    predicates), may panic, contain [unsafe] unchecked accesses, and the [rayon]
    variants fork with [rayon::join].  This file gives a small executable
    language with exactly these effects, its deterministic interpreter [run],
    and the predicate transformer [wp] used in the proofs.

    Nothing in this file models a particular function of /repo; it models the
    Rust runtime behaviour that all the functions share. *)

From stdpp Require Export base list numbers.
From Coq Require Export Lia.

(** Why a panic happened.  [UserPanic] is a panic raised inside a user-supplied
    closure (comparator, key function, ...) and propagated; all others are
    raised by the crate's own code (or by ndarray on its behalf). *)
Inductive exn :=
| UserPanic       (* the user's closure panicked *)
| IndexPanic      (* a bounds-checked access / slice / split_at out of range *)
| AssertPanic     (* an [assert!] or explicit [panic!] *)
| DebugPanic      (* a [debug_assert!], only when compiled with debug assertions *)
| OverflowPanic.  (* integer overflow, only when compiled with overflow checks *)

(** A program over an array of [T], asking questions of type [Q] to user
    closures and receiving answers of type [R], returning an [A].  Programs are
    finite trees, so every run terminates; loops are written with explicit fuel
    and [NoFuel] marks a loop or recursion whose fuel ran out. *)
Inductive prog (T Q R A : Type) : Type :=
| Ret (a : A)
| Throw (e : exn)
| Read (i : nat) (k : T → prog T Q R A)
| Write (i : nat) (x : T) (k : prog T Q R A)
| Ask (q : Q) (k : R → prog T Q R A)
| Par {B C : Type} (p1 : prog T Q R B) (p2 : prog T Q R C)
      (k : B + exn → C + exn → prog T Q R A)
| Undef
| NoFuel.

Global Arguments Ret {T Q R A} a.
Global Arguments Throw {T Q R A} e.
Global Arguments Read {T Q R A} i k.
Global Arguments Write {T Q R A} i x k.
Global Arguments Ask {T Q R A} q k.
Global Arguments Par {T Q R A B C} p1 p2 k.
Global Arguments Undef {T Q R A}.
Global Arguments NoFuel {T Q R A}.

(** The observable outcome of a run. *)
Inductive outcome (A : Type) :=
| Done (a : A)          (* returned normally *)
| Panicked (e : exn)    (* unwound with a panic *)
| Undefined             (* undefined behaviour: an out-of-bounds unchecked access,
                           an uninitialised slot, an overlapping raw copy *)
| Diverged.             (* exhausted the fuel of a loop *)
Global Arguments Done {A} a.
Global Arguments Panicked {A} e.
Global Arguments Undefined {A}.
Global Arguments Diverged {A}.

Section lang.
  Context {T Q R : Type}.

  (** Sequencing ([;] / [?]-free straight-line code). *)
  Fixpoint bind {A B} (p : prog T Q R A) (f : A → prog T Q R B) : prog T Q R B :=
    match p with
    | Ret a => f a
    | Throw e => Throw e
    | Read i k => Read i (λ x, bind (k x) f)
    | Write i x k => Write i x (bind k f)
    | Ask q k => Ask q (λ r, bind (k r) f)
    | Par p1 p2 k => Par p1 p2 (λ b c, bind (k b c) f)
    | Undef => Undef
    | NoFuel => NoFuel
    end.

  (** A value with a destructor is in scope while [p] runs: if [p] unwinds, the
      destructor [c] runs before the panic propagates.  (On normal exit the
      model calls the destructor explicitly.) *)
  Fixpoint on_unwind {A} (c : prog T Q R unit) (p : prog T Q R A) : prog T Q R A :=
    match p with
    | Ret a => Ret a
    | Throw e => bind c (λ _, Throw e)
    | Read i k => Read i (λ x, on_unwind c (k x))
    | Write i x k => Write i x (on_unwind c k)
    | Ask q k => Ask q (λ r, on_unwind c (k r))
    | Par p1 p2 k => Par p1 p2 (λ b d, on_unwind c (k b d))
    | Undef => Undef
    | NoFuel => NoFuel
    end.

  (** Run [p] on another part of memory: address [i] of [p] is address [f i]. *)
  Fixpoint relocate {A} (f : nat → nat) (p : prog T Q R A) : prog T Q R A :=
    match p with
    | Ret a => Ret a
    | Throw e => Throw e
    | Read i k => Read (f i) (λ x, relocate f (k x))
    | Write i x k => Write (f i) x (relocate f k)
    | Ask q k => Ask q (λ r, relocate f (k r))
    | Par p1 p2 k => Par (relocate f p1) (relocate f p2) (λ b d, relocate f (k b d))
    | Undef => Undef
    | NoFuel => NoFuel
    end.

  (** The contiguous subview starting at [off]. *)
  Definition focus {A} (off : nat) (p : prog T Q R A) : prog T Q R A :=
    relocate (λ i, off + i) p.

  (** Deterministic interpreter.  The user closures are given by a state machine
      [o]: closure state and question to answer and new closure state.  The two
      arms of [Par] run left to right here; [Interleave.v] gives the semantics
      with arbitrary interleaving. *)
  Fixpoint run {S A} (o : S → Q → R * S) (p : prog T Q R A) (s : S) (l : list T)
    {struct p} : outcome A * S * list T :=
    match p with
    | Ret a => (Done a, s, l)
    | Throw e => (Panicked e, s, l)
    | Read i k =>
        match l !! i with
        | Some x => run o (k x) s l
        | None => (Undefined, s, l)
        end
    | Write i x k =>
        if decide (i < length l) then run o k s (<[i:=x]> l) else (Undefined, s, l)
    | Ask q k => let '(r, s') := o s q in run o (k r) s' l
    | Par p1 p2 k =>
        match run o p1 s l with
        | (Done b, s1, l1) =>
            match run o p2 s1 l1 with
            | (Done c, s2, l2) => run o (k (inl b) (inl c)) s2 l2
            | (Panicked e, s2, l2) => run o (k (inl b) (inr e)) s2 l2
            | (Undefined, s2, l2) => (Undefined, s2, l2)
            | (Diverged, s2, l2) => (Diverged, s2, l2)
            end
        | (Panicked e1, s1, l1) =>
            match run o p2 s1 l1 with
            | (Done c, s2, l2) => run o (k (inr e1) (inl c)) s2 l2
            | (Panicked e, s2, l2) => run o (k (inr e1) (inr e)) s2 l2
            | (Undefined, s2, l2) => (Undefined, s2, l2)
            | (Diverged, s2, l2) => (Diverged, s2, l2)
            end
        | (Undefined, s1, l1) => (Undefined, s1, l1)
        | (Diverged, s1, l1) => (Diverged, s1, l1)
        end
    | Undef => (Undefined, s, l)
    | NoFuel => (Diverged, s, l)
    end.

  (** ** Predicate transformer.
      [wp ans p Φ E l]: started on array [l], with user closures that answer
      question [q] only with answers [r] such that [ans q r], program [p] has no
      undefined behaviour, does not run out of fuel, and ends either normally
      with [Φ] or by a panic with [E]. *)
  Fixpoint wp {A} (ans : Q → R → Prop) (p : prog T Q R A)
    (Φ : A → list T → Prop) (E : exn → list T → Prop) (l : list T)
    {struct p} : Prop :=
    match p with
    | Ret a => Φ a l
    | Throw e => E e l
    | Read i k => match l !! i with Some x => wp ans (k x) Φ E l | None => False end
    | Write i x k => i < length l ∧ wp ans k Φ E (<[i:=x]> l)
    | Ask q k => ∀ r, ans q r → wp ans (k r) Φ E l
    | Par p1 p2 k =>
        wp ans p1
          (λ b l1, wp ans p2 (λ c l2, wp ans (k (inl b) (inl c)) Φ E l2)
                             (λ e l2, wp ans (k (inl b) (inr e)) Φ E l2) l1)
          (λ e1 l1, wp ans p2 (λ c l2, wp ans (k (inr e1) (inl c)) Φ E l2)
                              (λ e l2, wp ans (k (inr e1) (inr e)) Φ E l2) l1) l
    | Undef => False
    | NoFuel => False
    end.

  Lemma wp_mono_ans {A} (ans ans' : Q → R → Prop) (p : prog T Q R A) :
    (∀ q r, ans' q r → ans q r) →
    ∀ (Φ Φ' : A → list T → Prop) (E E' : exn → list T → Prop) l,
    wp ans p Φ E l →
    (∀ a l', length l' = length l → Φ a l' → Φ' a l') →
    (∀ e l', length l' = length l → E e l' → E' e l') →
    wp ans' p Φ' E' l.
  Proof.
    intros Hans.
    induction p as [A a|A e|A i k IH|A i x k IH|A q k IH|A B C p1 IH1 p2 IH2 k IH| |];
      intros Φ Φ' E E' l Hwp HΦ HE; simpl in *; auto.
    - destruct (l !! i) as [x|]; [|done]. eauto.
    - destruct Hwp as [Hi Hwp]. split; [done|].
      eapply IH; [exact Hwp| |]; intros ? ? Hl; [apply HΦ|apply HE];
        by rewrite insert_length in Hl.
    - intros r Hr. eauto.
    - eapply IH1; [exact Hwp| |]; simpl; intros b l1 Hl1 Hwp2;
        (eapply IH2; [exact Hwp2| |]; simpl; intros c l2 Hl2 Hk;
         (eapply IH; [exact Hk| |]; intros ? ? Hl; [apply HΦ|apply HE]; congruence)).
  Qed.

  Lemma wp_mono {A} (ans : Q → R → Prop) (p : prog T Q R A)
    (Φ Φ' : A → list T → Prop) (E E' : exn → list T → Prop) l :
    wp ans p Φ E l →
    (∀ a l', length l' = length l → Φ a l' → Φ' a l') →
    (∀ e l', length l' = length l → E e l' → E' e l') →
    wp ans p Φ' E' l.
  Proof. by apply wp_mono_ans. Qed.

  Lemma wp_len {A} (ans : Q → R → Prop) (p : prog T Q R A) Φ E l :
    wp ans p Φ E l →
    wp ans p (λ a l', length l' = length l ∧ Φ a l')
             (λ e l', length l' = length l ∧ E e l') l.
  Proof. intros H. eapply wp_mono; [exact H| |]; auto. Qed.

  Lemma wp_conj {A} (ans1 ans2 ans : Q → R → Prop) (p : prog T Q R A) :
    (∀ q r, ans q r → ans1 q r) → (∀ q r, ans q r → ans2 q r) →
    ∀ (Φ1 Φ2 : A → list T → Prop) (E1 E2 : exn → list T → Prop) l,
    wp ans1 p Φ1 E1 l → wp ans2 p Φ2 E2 l →
    wp ans p (λ a l', Φ1 a l' ∧ Φ2 a l') (λ e l', E1 e l' ∧ E2 e l') l.
  Proof.
    intros Ha1 Ha2.
    induction p as [A a|A e|A i k IH|A i x k IH|A q k IH|A B C p1 IH1 p2 IH2 k IH| |];
      intros Φ1 Φ2 E1 E2 l Hwp1 Hwp2; simpl in *; auto.
    - destruct (l !! i) as [x|]; [|done]. eauto.
    - destruct Hwp1, Hwp2. split; [done|]. eauto.
    - eapply wp_mono; [eapply IH1; [exact Hwp1|exact Hwp2]| |]; simpl;
        intros b l1 Hl1 [H1 H2];
        (eapply wp_mono; [eapply IH2; [exact H1|exact H2]| |]; simpl;
         intros c l2 Hl2 [? ?]; eapply IH; eauto).
  Qed.

  Lemma wp_bind {A B} (ans : Q → R → Prop) (p : prog T Q R A) (f : A → prog T Q R B) :
    ∀ Φ E l,
    wp ans p (λ a l', wp ans (f a) Φ E l') E l → wp ans (bind p f) Φ E l.
  Proof.
    revert B f.
    induction p as [A a|A e|A i k IH|A i x k IH|A q k IH|A B C p1 IH1 p2 IH2 k IH| |];
      intros B' f Φ E l Hwp; simpl in *; auto.
    - destruct (l !! i) as [x|]; [|done]. eauto.
    - destruct Hwp. split; [done|]. eauto.
    - eapply wp_mono; [exact Hwp| |]; simpl; intros b l1 Hl1 Hwp2;
        (eapply wp_mono; [exact Hwp2| |]; simpl; intros c l2 Hl2 Hk; eauto).
  Qed.

  Lemma wp_on_unwind {A} (ans : Q → R → Prop) (c : prog T Q R unit) (p : prog T Q R A) :
    ∀ Φ E l,
    wp ans p Φ (λ e l', wp ans c (λ _ l'', E e l'') E l') l →
    wp ans (on_unwind c p) Φ E l.
  Proof.
    induction p as [A a|A e|A i k IH|A i x k IH|A q k IH|A B C p1 IH1 p2 IH2 k IH| |];
      intros Φ E l Hwp; simpl in *; auto.
    - by apply wp_bind.
    - destruct (l !! i) as [x|]; [|done]. eauto.
    - destruct Hwp. split; [done|]. eauto.
    - eapply wp_mono; [exact Hwp| |]; simpl; intros b l1 Hl1 Hwp2;
        (eapply wp_mono; [exact Hwp2| |]; simpl; intros d l2 Hl2 Hk; eauto).
  Qed.

  Lemma wp_focus_app {A} (ans : Q → R → Prop) (p : prog T Q R A) pre post :
    ∀ (Φ : A → list T → Prop) (E : exn → list T → Prop) m,
    wp ans p (λ a m', length m' = length m → Φ a (pre ++ m' ++ post))
             (λ e m', length m' = length m → E e (pre ++ m' ++ post)) m →
    wp ans (focus (length pre) p) Φ E (pre ++ m ++ post).
  Proof.
    unfold focus.
    induction p as [A a|A e|A i k IH|A i x k IH|A q k IH|A B C p1 IH1 p2 IH2 k IH| |];
      intros Φ E m Hwp; simpl in *; auto.
    - destruct (m !! i) as [x|] eqn:Hi; [|done].
      assert (Hlt : i < length m) by (by eapply lookup_lt_Some).
      rewrite lookup_app_r by lia.
      replace (length pre + i - length pre) with i by lia.
      rewrite lookup_app_l by done. rewrite Hi. eauto.
    - destruct Hwp as [Hi Hwp]. rewrite !app_length. split; [lia|].
      rewrite insert_app_r, insert_app_l by done.
      apply IH. eapply wp_mono; [exact Hwp| |]; simpl;
        intros ? ? Hl ? Hl'; rewrite insert_length in *; auto.
    - eapply IH1, wp_mono; [exact Hwp| |]; simpl; intros b m1 Hl1 Hwp2 _;
        (eapply IH2, wp_mono; [exact Hwp2| |]; simpl; intros d m2 Hl2 Hk _;
         (eapply IH, wp_mono; [exact Hk| |]; simpl; intros ? m3 Hl3 Hm3 _; apply Hm3; congruence)).
  Qed.

  Lemma wp_focus {A} (ans : Q → R → Prop) (p : prog T Q R A) off n
    (Φ : A → list T → Prop) (E : exn → list T → Prop) l :
    off + n ≤ length l →
    wp ans p (λ a m, length m = n → Φ a (take off l ++ m ++ drop (off + n) l))
             (λ e m, length m = n → E e (take off l ++ m ++ drop (off + n) l))
             (take n (drop off l)) →
    wp ans (focus off p) Φ E l.
  Proof.
    intros Hlen Hwp.
    assert (Hl : l = take off l ++ take n (drop off l) ++ drop (off + n) l).
    { rewrite <-(take_drop off l) at 1. f_equal.
      rewrite <-(take_drop n (drop off l)) at 1. f_equal. by rewrite drop_drop. }
    assert (Hoff : off = length (take off l)) by (rewrite take_length; lia).
    rewrite Hl at 1. rewrite Hoff at 1. apply wp_focus_app.
    eapply wp_mono; [exact Hwp| |]; simpl; intros ? m Hm Hk Hm'; apply Hk;
      rewrite Hm', take_length, drop_length; lia.
  Qed.

  (** Soundness of [wp] with respect to the interpreter. *)
  Lemma wp_run {S A} (ans : Q → R → Prop) (o : S → Q → R * S) (p : prog T Q R A) :
    (∀ s q, ans q (o s q).1) →
    ∀ Φ E s l, wp ans p Φ E l →
    match run o p s l with
    | (Done a, _, l') => Φ a l'
    | (Panicked e, _, l') => E e l'
    | (Undefined, _, _) | (Diverged, _, _) => False
    end.
  Proof.
    intros Ho.
    induction p as [A a|A e|A i k IH|A i x k IH|A q k IH|A B C p1 IH1 p2 IH2 k IH| |];
      intros Φ E s l Hwp; simpl in *; auto.
    - destruct (l !! i) as [x|]; [|done]. exact (IH x Φ E s l Hwp).
    - destruct Hwp as [Hi Hwp]. rewrite decide_True by done. exact (IH Φ E s _ Hwp).
    - destruct (o s q) as [r s'] eqn:Ho'. specialize (Ho s q). rewrite Ho' in Ho.
      exact (IH r Φ E s' l (Hwp r Ho)).
    - specialize (IH1 _ _ s l Hwp). simpl in IH1.
      destruct (run o p1 s l) as [[[b|e1| |] s1] l1]; simpl in *; try done;
        specialize (IH2 _ _ s1 l1 IH1); simpl in IH2;
        destruct (run o p2 s1 l1) as [[[c|e2| |] s2] l2]; simpl in *; try done;
        match goal with |- context [k ?b ?c] => exact (IH b c Φ E s2 l2 IH2) end.
  Qed.
End lang.

Global Arguments wp : simpl never.
Global Arguments bind : simpl never.
Global Arguments on_unwind : simpl never.
Global Arguments relocate : simpl never.
Global Arguments focus : simpl never.

Lemma wp_ret {T Q R A} (ans : Q → R → Prop) (a : A) (Φ : A → list T → Prop)
    (E : exn → list T → Prop) l :
  Φ a l → wp (R:=R) ans (Ret a) Φ E l.
Proof. done. Qed.
Lemma wp_throw {T Q R A} (ans : Q → R → Prop) e (Φ : A → list T → Prop)
    (E : exn → list T → Prop) l :
  E e l → wp (R:=R) ans (Throw e) Φ E l.
Proof. done. Qed.

Declare Scope prog_scope.
Delimit Scope prog_scope with prog.
Notation "x ← p ; q" := (bind p (λ x, q%prog))
  (at level 20, p at level 100, q at level 200, only parsing) : prog_scope.
Notation "' x ← p ; q" := (bind p (λ x, q%prog))
  (at level 20, x pattern, p at level 100, q at level 200, only parsing) : prog_scope.
Notation "p ;; q" := (bind p (λ _, q%prog))
  (at level 100, q at level 200, right associativity, only parsing) : prog_scope.
