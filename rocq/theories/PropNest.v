(** * C62: the selection of many indices and the merging of the parallel stable sort
    nest their tasks logarithmically deep. *)
From Verif Require Import CNest TPar Examples.
From stdpp Require Import relations.

(** C62.  In every state that can be reached, whatever the closure answers: the joins
    of a selection of [m] indices wait for each other at most [log2 m] deep. *)
Theorem par_select_many_nests_logarithmically :
  ∀ (T : Type) (c : cfg) (ans : T * T → option comparison → Prop) (n vlen : nat) (indices : list nat)
    (l : list T) p' (l' : list T),
  rtc (stepm ans) (par_select_many_nth_unstable_by c n vlen indices, l) (p', l') →
  active p' ≤ Nat.log2 (length indices).
Proof. exact @par_select_many_active. Qed.
Print Assumptions par_select_many_nests_logarithmically.

(** The same by key. *)
Theorem par_select_many_by_key_nests_logarithmically :
  ∀ (T K : Type) (c : cfg) (ans : key_question K → key_answer K → Prop) (n vlen : nat)
    (indices : list nat) (l : list T) p' (l' : list T),
  rtc (stepm ans) (par_select_many_nth_unstable_by_key c n vlen indices, l) (p', l') →
  active p' ≤ Nat.log2 (length indices).
Proof. exact @par_select_many_key_active. Qed.
Print Assumptions par_select_many_by_key_nests_logarithmically.

(** [recurse] of src/par/merge_sort.rs:692-808, which merges sorted chunks of an
    array of [n] elements, together with the parallel merges it calls. *)
Theorem par_merging_nests_logarithmically :
  ∀ (T : Type) (c : cfg) (ans : T * T → option comparison → Prop) (fuel : nat) (v buf : view)
    (chunks : list (nat * nat)) (into_buf : bool) (n : nat) (l : list T) p' (l' : list T),
  Forall (λ x, x.2 ≤ n) chunks →
  rtc (stepm ans) (by_compare (pm_recurse c fuel v buf chunks into_buf), l) (p', l') →
  active p' ≤ Nat.log2_up (length chunks) + 4 * (Nat.log2 n - 11).
Proof. exact @pm_recurse_active. Qed.
Print Assumptions par_merging_nests_logarithmically.

(** [par_sort_unstable] (for which C49 refutes a logarithmic bound). *)
Theorem par_sort_unstable_nests_linearly :
  ∀ (T : Type) (c : cfg) (ans : T * T → option comparison → Prop) (n : nat) (l : list T) p' (l' : list T),
  rtc (stepm ans) (par_sort_unstable_by c n, l) (p', l') →
  active p' ≤ n - N.to_nat 2001.
Proof. exact @par_sort_unstable_active. Qed.
Print Assumptions par_sort_unstable_nests_linearly.

(** Three chunks: two joins are active when the merging starts, as many as allowed. *)
Example nests_logarithmically_example :
  let p := by_compare (pm_recurse cfg_debug64 4 (0, 3) (3, 3) [(0, 1); (1, 2); (2, 3)] false) in
  rtc (stepm (ans_cmp digit_cmp)) (p, [17; 25; 33; 0; 0; 0]) (p, [17; 25; 33; 0; 0; 0]) ∧
  Forall (λ x : nat * nat, x.2 ≤ 3) [(0, 1); (1, 2); (2, 3)] ∧
  active p = 2 ∧ Nat.log2_up 3 + 4 * (Nat.log2 3 - 11) = 2.
Proof.
  split; [apply rtc_refl|]. split; [repeat constructor|]. split; vm_compute; reflexivity.
Qed.
