(** * Spec: the vocabulary in which the properties are stated.

    Nothing here refers to the model of the crate; only plain lists and boolean
    comparison functions. *)
From Coq Require Export Permutation Sorting.Sorted.
From stdpp Require Export base list.

Section spec.
  Context {T : Type}.
  Implicit Types (lt : T → T → bool) (l : list T).

  (** The contract documented for comparators: a strict weak order (the "less"
      part of a total preorder). *)
  Record strict_weak_order lt : Prop := {
    swo_irrefl : ∀ x, lt x x = false;
    swo_trans : ∀ x y z, lt x y = true → lt y z = true → lt x z = true;
    swo_negtrans : ∀ x y z, lt x y = false → lt y z = false → lt x z = false
  }.

  (** Neither is less: the two elements compare equal. *)
  Definition equivb lt (x y : T) : bool := negb (lt x y) && negb (lt y x).

  (** Every element is not greater than each later element. *)
  Definition sorted_wrt lt l : Prop := StronglySorted (λ a b, lt b a = false) l.

  (** [l'] keeps the relative order that equal elements have in [l]: for every
      [x], the sub-sequence of elements equal to [x] is the same. *)
  Definition same_order_of_equals lt l l' : Prop :=
    ∀ x, List.filter (equivb lt x) l' = List.filter (equivb lt x) l.
End spec.

(** Indices accepted by the selection of many positions: strictly increasing and
    within [offset, offset + n). *)
Definition valid_indices (offset n : nat) (inds : list nat) : Prop :=
  StronglySorted Nat.lt inds ∧ Forall (λ i, offset ≤ i < offset + n) inds.

Section placed.
  Context {T : Type}.
  (** Position [i] of [l] holds [x], nothing before it is greater and nothing
      after it is smaller. *)
  Definition placed (lt : T → T → bool) (l : list T) (i : nat) (x : T) : Prop :=
    l !! i = Some x ∧
    Forall (λ y, lt x y = false) (take i l) ∧
    Forall (λ y, lt y x = false) (drop (S i) l).
  (** Every sorted arrangement of [l] has an element equal to [x] at [i]. *)
  Definition order_statistic (lt : T → T → bool) (l : list T) (i : nat) (x : T) : Prop :=
    ∀ ls, Permutation l ls → sorted_wrt lt ls →
      ∃ y, ls !! i = Some y ∧ equivb lt x y = true.
End placed.

Section search_spec.
  Context {T : Type}.
  (** First elements mapped to [Lt], then to [Eq], then to [Gt]. *)
  Definition monotone (f : T → comparison) (l : list T) : Prop :=
    ∃ l1 l2 l3, l = l1 ++ l2 ++ l3 ∧
      Forall (λ x, f x = Lt) l1 ∧ Forall (λ x, f x = Eq) l2 ∧ Forall (λ x, f x = Gt) l3.

  (** The contract of [Ord::cmp]: a total preorder given as a comparison. *)
  Record ord_compare (cmp : T → T → comparison) : Prop := {
    oc_opp : ∀ x y, cmp y x = CompOpp (cmp x y);
    oc_swo : strict_weak_order (λ x y, match cmp x y with Lt => true | _ => false end)
  }.

  (** Pairs of neighbours, from left to right. *)
  Definition neighbours (l : list T) : list (T * T) := zip l (tail l).

  (** What a left-to-right scan keeps that drops every element in the same
      bucket as the last kept element [k]. *)
  Fixpoint keep_firsts (same : T → T → bool) (k : T) (l : list T) : list T :=
    match l with
    | [] => []
    | x :: l => if same x k then keep_firsts same k l else x :: keep_firsts same x l
    end.
  Definition firsts (same : T → T → bool) (l : list T) : list T :=
    match l with [] => [] | x :: l => x :: keep_firsts same x l end.
End search_spec.
