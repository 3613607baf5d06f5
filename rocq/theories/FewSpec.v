(** * FewSpec: arrays with few values. *)
From Verif Require Export Spec.
From stdpp Require Import list.

(** Up to equivalence, [l] has at most [k] values: each element is equivalent to one of [k]. *)
Definition few_values {T : Type} (lt : T → T → bool) (k : nat) (l : list T) : Prop :=
  ∃ values, length values ≤ k ∧
    Forall (λ x, ∃ v, v ∈ values ∧ lt x v = false ∧ lt v x = false) l.
