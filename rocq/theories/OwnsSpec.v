(** * OwnsSpec: calls of the closure on elements of an array. *)
From Verif Require Export CallSpec Subst.
From stdpp Require Import list.

(** Both arguments of every call of the comparator are elements of [l]. *)
Definition compares_only {T R} (l : list T) (tr : list (T * T * R)) : Prop :=
  Forall (λ e, e.1.1 ∈ l ∧ e.1.2 ∈ l) tr.

(** The key function is only called with elements of [l], and the keys that are
    compared are keys it returned for elements of [l]. *)
Definition key_compares_only {T K} (l : list T)
    (tr : list (key_question (T:=T) K * key_answer K)) : Prop :=
  Forall (λ e, match e.1 with
               | KeyOf a => a ∈ l
               | KeyLt k1 k2 => (∃ a, a ∈ l ∧ (KeyOf a, AKey k1) ∈ tr) ∧
                                (∃ a, a ∈ l ∧ (KeyOf a, AKey k2) ∈ tr)
               end) tr.

(** The first [length l] cells of the memory [m] hold elements of [l]. *)
Definition holds_only {T} (l m : list T) : Prop := Forall (λ x, x ∈ l) (take (length l) m).
