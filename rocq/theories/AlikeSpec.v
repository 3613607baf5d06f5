(** * AlikeSpec: two runs on different elements that do the same.

    [R] relates elements of type [T] to elements of type [U], for instance each
    element to its key, or each value to its name. *)
From stdpp Require Import list relations.
From Verif Require Export Interleave Subst MSearch MDedup MCached.

(** Both members of a pair are related. *)
Definition pair_alike {A A' B B'} (RA : A → A' → Prop) (RB : B → B' → Prop) (x : A * B) (y : A' * B') : Prop :=
  RA x.1 y.1 ∧ RB x.2 y.2.

(** Both runs end the same way, the values returned being related. *)
Definition outcome_alike {A A'} (RA : A → A' → Prop) (r : outcome A) (r' : outcome A') : Prop :=
  match r, r' with
  | Done a, Done a' => RA a a'
  | Panicked e, Panicked e' => e = e'
  | Undefined, Undefined | Diverged, Diverged => True
  | _, _ => False
  end.

(** Two closures, with states related by [RS], answer related questions alike and
    their states stay related. *)
Definition closures_alike {S S' Q Q' R R'} (RS : S → S' → Prop) (RQ : Q → Q' → Prop) (RR : R → R' → Prop)
    (o : S → Q → R * S) (o' : S' → Q' → R' * S') : Prop :=
  ∀ s s' q q', RS s s' → RQ q q' → RR (o s q).1 (o' s' q').1 ∧ RS (o s q).2 (o' s' q').2.

(** Outcomes, final states of the closures and final arrays are related. *)
Definition runs_alike {T U S S' A A'} (R : T → U → Prop) (RS : S → S' → Prop) (RA : A → A' → Prop)
    (x : outcome A * S * list T) (y : outcome A' * S' * list U) : Prop :=
  outcome_alike RA x.1.1 y.1.1 ∧ RS x.1.2 y.1.2 ∧ Forall2 R x.2 y.2.

(** How far a task has got: its result if it has ended. *)
Definition ends_alike {A A'} (RA : A → A' → Prop) (r : option (A + exn)) (r' : option (A' + exn)) : Prop :=
  match r, r' with
  | Some (inl a), Some (inl a') => RA a a'
  | Some (inr e), Some (inr e') => e = e'
  | None, None => True
  | _, _ => False
  end.

(** Every schedule of [p] has a schedule of [p'] that reaches a related memory and
    a related end (and both are still running or both have ended). *)
Definition schedules_alike {T U Q Q' X X' A A'} (R : T → U → Prop) (RA : A → A' → Prop)
    (ans : Q → X → Prop) (ans' : Q' → X' → Prop)
    (p : prog T Q X A) (l : list T) (p' : prog U Q' X' A') (l' : list U) : Prop :=
  ∀ q m, rtc (stepm ans) (p, l) (q, m) →
  ∃ q' m', rtc (stepm ans') (p', l') (q', m') ∧ Forall2 R m m' ∧ ends_alike RA (result q) (result q').

(** ** Related questions to, and answers of, the closures of the key variants;
    [RK] relates the keys. *)
Definition key_questions_alike {T U K L} (R : T → U → Prop) (RK : K → L → Prop)
    (q : key_question (T:=T) K) (q' : key_question (T:=U) L) : Prop :=
  match q, q' with
  | KeyOf a, KeyOf a' => R a a'
  | KeyLt j k, KeyLt j' k' => RK j j' ∧ RK k k'
  | _, _ => False
  end.
Definition key_answers_alike {K L} (RK : K → L → Prop) (r : key_answer K) (r' : key_answer L) : Prop :=
  match r, r' with
  | AKey k, AKey k' => RK k k'
  | ABool b, ABool b' => b = b'
  | APanic, APanic => True
  | _, _ => False
  end.
Definition keyc_questions_alike {T U K L} (R : T → U → Prop) (RK : K → L → Prop)
    (q : keyc_question (T:=T) K) (q' : keyc_question (T:=U) L) : Prop :=
  match q, q' with
  | KeyOfC a, KeyOfC a' => R a a'
  | KeyCmp j k, KeyCmp j' k' => RK j j' ∧ RK k k'
  | _, _ => False
  end.
Definition keyc_answers_alike {K L} (RK : K → L → Prop) (r : keyc_answer K) (r' : keyc_answer L) : Prop :=
  match r, r' with
  | CKey k, CKey k' => RK k k'
  | COrd b, COrd b' => b = b'
  | CPanic, CPanic => True
  | _, _ => False
  end.
(** The closures of [partition_dedup_by] and [partition_dedup_by_key], which may
    change the elements they are called with. *)
Definition dedup_answers_alike {T U} (R : T → U → Prop) (r : dedup_answer T) (r' : dedup_answer U) : Prop :=
  match r, r' with
  | Bucket s a b, Bucket s' a' b' => s = s' ∧ R a a' ∧ R b b'
  | BucketPanic a b, BucketPanic a' b' => R a a' ∧ R b b'
  | _, _ => False
  end.
Definition dkey_questions_alike {T U K L} (R : T → U → Prop) (RK : K → L → Prop)
    (q : dkey_question T K) (q' : dkey_question U L) : Prop :=
  match q, q' with
  | DKeyOf a, DKeyOf a' => R a a'
  | DKeyEq j k, DKeyEq j' k' => RK j j' ∧ RK k k'
  | _, _ => False
  end.
Definition dkey_answers_alike {T U K L} (R : T → U → Prop) (RK : K → L → Prop)
    (r : dkey_answer T K) (r' : dkey_answer U L) : Prop :=
  match r, r' with
  | DKey k a, DKey k' a' => RK k k' ∧ R a a'
  | DBool b, DBool b' => b = b'
  | DPanic a, DPanic a' => R a a'
  | DPanicEq, DPanicEq => True
  | _, _ => False
  end.
(** The key function and the external sort of the (key, index) pairs of
    [sort_by_cached_key]. *)
Definition ck_questions_alike {T U K L} (R : T → U → Prop) (RK : K → L → Prop)
    (q : ck_question T K) (q' : ck_question U L) : Prop :=
  match q, q' with
  | CachedKey a, CachedKey a' => R a a'
  | SortPairs v, SortPairs v' => Forall2 (pair_alike RK eq) v v'
  | Pick n, Pick n' => n = n'
  | _, _ => False
  end.
Definition ck_answers_alike {K L} (RK : K → L → Prop) (r : ck_answer K) (r' : ck_answer L) : Prop :=
  match r, r' with
  | CKeyIs k, CKeyIs k' => RK k k'
  | SortedTo v, SortedTo v' => Forall2 (pair_alike RK eq) v v'
  | Picked a b s, Picked a' b' s' => a = a' ∧ b = b' ∧ s = s'
  | CKPanic, CKPanic => True
  | _, _ => False
  end.
