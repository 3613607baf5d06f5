(** * Closures: the user closures the theorems quantify over.

    A closure is a state machine [S → question → answer * S]; the answer [None]
    means that the call panics.  Pure closures are the special case with a
    trivial state. *)
From Verif Require Export Subst.

Section closures.
  Context {T : Type}.

  (** [A::lt] given by a Boolean function. *)
  Definition pure_less (lt : T → T → bool) : unit → T * T → option bool * unit :=
    λ s '(a, b), (Some (lt a b), s).
  (** [compare] given by a function to [Ordering]. *)
  Definition pure_compare (cmp : T → T → comparison) :
      unit → T * T → option comparison * unit :=
    λ s '(a, b), (Some (cmp a b), s).
  (** The "less" relation of a comparison function. *)
  Definition is_lt (cmp : T → T → comparison) (a b : T) : bool :=
    match cmp a b with Lt => true | _ => false end.
  (** A key function and the order of the keys. *)
  Definition pure_key {K} (f : T → K) (ltk : K → K → bool) :
      unit → key_question K → key_answer K * unit :=
    λ s q, (match q with KeyOf a => AKey (f a) | KeyLt k1 k2 => ABool (ltk k1 k2) end, s).

  (** The closure never panics. *)
  Definition no_panic {S Q R} (o : S → Q → option R * S) : Prop :=
    ∀ s q, (o s q).1 ≠ None.

  (** The less-than closure that the wrapper [|a, b| compare(a, b) == Less] makes
      of a compare closure. *)
  Definition less_of_compare {S} (o : S → T * T → option comparison * S) :
      S → T * T → option bool * S :=
    λ s q,
      let '(r, s') := o s q in
      (match r with Some Lt => Some true | Some _ => Some false | None => None end, s').
  (** The less-than closure that [|a, b| f(a).lt(&f(b))] makes of a key closure. *)
  Definition less_of_key {S K} (o : S → key_question K → key_answer K * S) :
      S → T * T → option bool * S :=
    λ s '(a, b),
      match o s (KeyOf a) with
      | (AKey ka, s1) =>
          match o s1 (KeyOf b) with
          | (AKey kb, s2) =>
              match o s2 (KeyLt ka kb) with
              | (ABool r, s3) => (Some r, s3)
              | (_, s3) => (None, s3)
              end
          | (_, s2) => (None, s2)
          end
      | (_, s1) => (None, s1)
      end.

  Lemma run_by_compare {S A} (o : S → T * T → option comparison * S) (p : cmp_prog T A) s l :
    run o (by_compare p) s l = run (less_of_compare o) p s l.
  Proof.
    unfold by_compare. apply run_with_asks. intros q s' l'. cbn.
    unfold less_of_compare. by destruct (o s' q) as [r s''].
  Qed.
  Lemma run_by_key {S A K} (o : S → key_question K → key_answer K * S) (p : cmp_prog T A) s l :
    run o (by_key p) s l = run (less_of_key o) p s l.
  Proof.
    unfold by_key. apply run_with_asks. intros [a b] s' l'. cbn.
    destruct (o s' (KeyOf a)) as [[ka| |] s1]; cbn; try done.
    destruct (o s1 (KeyOf b)) as [[kb| |] s2]; cbn; try done.
    by destruct (o s2 (KeyLt ka kb)) as [[?|?|] s3].
  Qed.

  Lemma less_of_pure_compare cmp s q :
    less_of_compare (pure_compare cmp) s q = pure_less (is_lt cmp) s q.
  Proof. destruct q as [a b]. unfold less_of_compare, pure_less, is_lt. cbn. by destruct (cmp a b). Qed.
  Lemma less_of_pure_key {K} (f : T → K) ltk s q :
    less_of_key (pure_key f ltk) s q = pure_less (λ a b, ltk (f a) (f b)) s q.
  Proof. by destruct q. Qed.

  Lemma run_ext {Q R S A} (o o' : S → Q → R * S) (p : prog T Q R A) :
    (∀ s q, o s q = o' s q) → ∀ s l, run o p s l = run o' p s l.
  Proof.
    intros Ho.
    induction p as [A a|A e|A i k IH|A i x k IH|A q k IH|A B C p1 IH1 p2 IH2 k IH| |];
      intros s l; cbn; try done.
    - destruct (l !! i); [|done]. apply IH.
    - case_decide; [|done]. apply IH.
    - rewrite Ho. destruct (o' s q). apply IH.
    - rewrite IH1. destruct (run o' p1 s l) as [[[b|e1| |] s1] l1]; try done;
        rewrite IH2; destruct (run o' p2 s1 l1) as [[[d|e2| |] s2] l2]; try done; apply IH.
  Qed.

  Lemma run_by_pure_compare {A} cmp (p : cmp_prog T A) s l :
    run (pure_compare cmp) (by_compare p) s l = run (pure_less (is_lt cmp)) p s l.
  Proof. rewrite run_by_compare. apply run_ext, less_of_pure_compare. Qed.
  Lemma run_by_pure_key {A K} (f : T → K) ltk (p : cmp_prog T A) s l :
    run (pure_key f ltk) (by_key p) s l = run (pure_less (λ a b, ltk (f a) (f b))) p s l.
  Proof. rewrite run_by_key. apply run_ext, less_of_pure_key. Qed.

  Lemma no_panic_less_of_compare {S} (o : S → T * T → option comparison * S) :
    no_panic o → no_panic (less_of_compare o).
  Proof.
    intros H s q. specialize (H s q). unfold less_of_compare.
    destruct (o s q) as [[[]|] s']; done.
  Qed.
End closures.
