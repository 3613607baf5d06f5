(** * Subst: answering a closure's questions by calling other closures.

    The crate's entry points wrap the user's closure: [sort_by] passes
    [|a, b| compare(a, b) == Less], [sort_by_key] passes [|a, b| f(a).lt(&f(b))].
    [with_asks h p] is [p] with every call of its closure replaced by the code
    [h] of the wrapper closure, which calls the user's closure(s). *)
From Verif Require Export Ops.

Local Arguments wp {T Q R A} ans !p Φ E l.
Local Arguments bind {T Q R A B} !p f.

Section subst.
  Context {T Q R Q' R' : Type} (h : Q → prog T Q' R' R).

  Fixpoint with_asks {A} (p : prog T Q R A) : prog T Q' R' A :=
    match p with
    | Ret a => Ret a
    | Throw e => Throw e
    | Read i k => Read i (λ x, with_asks (k x))
    | Write i x k => Write i x (with_asks k)
    | Ask q k => bind (h q) (λ r, with_asks (k r))
    | Par p1 p2 k => Par (with_asks p1) (with_asks p2) (λ b c, with_asks (k b c))
    | Undef => Undef
    | NoFuel => NoFuel
    end.

  Lemma wp_with_asks {A} (ans : Q → R → Prop) (ans' : Q' → R' → Prop) (p : prog T Q R A) :
    (∀ q (Φ : R → list T → Prop) E l,
       (∀ r, ans q r → Φ r l) → wp ans' (h q) Φ E l) →
    ∀ Φ E l, wp ans p Φ E l → wp ans' (with_asks p) Φ E l.
  Proof.
    intros Hh.
    induction p as [A a|A e|A i k IH|A i x k IH|A q k IH|A B C p1 IH1 p2 IH2 k IH| |];
      intros Φ E l Hwp; cbn in *; auto.
    - destruct (l !! i) as [x|]; [|done]. eauto.
    - destruct Hwp. split; [done|]. eauto.
    - apply wp_bind, Hh. eauto.
    - eapply IH1, wp_mono; [exact Hwp| |]; intros b l1 _ Hwp2;
        (eapply IH2, wp_mono; [exact Hwp2| |]; intros d l2 _ Hk; eauto).
  Qed.

  (** If the wrapper only calls closures, running the wrapped program is running
      the original program with the wrapper as its closure. *)
  Lemma run_bind {T1 Q1 R1 S A B} (o : S → Q1 → R1 * S) (p : prog T1 Q1 R1 A)
    (f : A → prog T1 Q1 R1 B) s l :
    run o (bind p f) s l =
      match run o p s l with
      | (Done a, s', l') => run o (f a) s' l'
      | (Panicked e, s', l') => (Panicked e, s', l')
      | (Undefined, s', l') => (Undefined, s', l')
      | (Diverged, s', l') => (Diverged, s', l')
      end.
  Proof.
    revert s l B f.
    induction p as [A a|A e|A i k IH|A i x k IH|A q k IH|A B' C p1 IH1 p2 IH2 k IH| |];
      intros s l B f; cbn; try done.
    - destruct (l !! i); [|done]. apply IH.
    - case_decide; [|done]. apply IH.
    - destruct (o s q) as [r s']. apply IH.
    - destruct (run o p1 s l) as [[[b|e1| |] s1] l1]; cbn; try done;
        destruct (run o p2 s1 l1) as [[[d|e2| |] s2] l2]; cbn; try done; apply IH.
  Qed.

  Lemma run_with_asks {S A} (o : S → Q → R * S) (o' : S → Q' → R' * S) (p : prog T Q R A) :
    (∀ q s l, run o' (h q) s l = (Done (o s q).1, (o s q).2, l)) →
    ∀ s l, run o' (with_asks p) s l = run o p s l.
  Proof.
    intros Hh.
    induction p as [A a|A e|A i k IH|A i x k IH|A q k IH|A B C p1 IH1 p2 IH2 k IH| |];
      intros s l; cbn; try done.
    - destruct (l !! i); [|done]. apply IH.
    - case_decide; [|done]. apply IH.
    - rewrite run_bind, Hh. destruct (o s q) as [r s']. apply IH.
    - rewrite IH1. destruct (run o p1 s l) as [[[b|e1| |] s1] l1]; try done;
        rewrite IH2; destruct (run o p2 s1 l1) as [[[d|e2| |] s2] l2]; try done; apply IH.
  Qed.
End subst.

Global Arguments with_asks : simpl never.

Section wrappers.
  Context {T : Type}.

  (** A user's [compare : FnMut(&A, &A) -> Ordering]; the answer is [None] if it
      panics. *)
  Definition by_compare {A} (p : cmp_prog T A) : prog T (T * T) (option comparison) A :=
    with_asks (λ q, Ask q (λ r, Ret (match r with
                                     | Some Lt => Some true
                                     | Some _ => Some false
                                     | None => None
                                     end))) p.

  (** A user's key function [f : FnMut(&A) -> K] together with [K]'s [lt]. *)
  Inductive key_question (K : Type) :=
  | KeyOf (a : T)          (* f(a) *)
  | KeyLt (k1 k2 : K).     (* k1.lt(&k2) *)
  Inductive key_answer (K : Type) :=
  | AKey (k : K)
  | ABool (b : bool)
  | APanic.
  Global Arguments KeyOf {K} a.
  Global Arguments KeyLt {K} k1 k2.
  Global Arguments AKey {K} k.
  Global Arguments ABool {K} b.
  Global Arguments APanic {K}.

  (** [|a, b| f(a).lt(&f(b))]; [f(a)] is called first.  An answer of the wrong
      kind (impossible in Rust) is treated like a panic. *)
  Definition by_key {K A} (p : cmp_prog T A) : prog T (key_question K) (key_answer K) A :=
    with_asks (λ '(a, b),
      Ask (KeyOf a) (λ r1,
        match r1 with
        | AKey ka =>
            Ask (KeyOf b) (λ r2,
              match r2 with
              | AKey kb =>
                  Ask (KeyLt ka kb) (λ r3,
                    match r3 with
                    | ABool v => Ret (Some v)
                    | _ => Ret None
                    end)
              | _ => Ret None
              end)
        | _ => Ret None
        end)) p.
End wrappers.
