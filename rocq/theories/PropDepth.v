(** * Property C64: the recursion of the selections is shallow. *)
From Verif Require Import TDepth Examples.

(** C64.  [median_of_medians] receives the permitted recursion depth as its first argument
    and reports [Diverged] if it would be exceeded.  A depth of [3 + d] suffices for fewer
    than [8448 * 1024^d] elements, whatever the closure does. *)
Theorem median_of_medians_recursion :
  ∀ (T S : Type) (c : cfg) (o : S → T * T → option bool * S) (s : S) (l : list T) (k d : nat),
  zst c = false → k < length l → (N.of_nat (length l) < 8448 * 1024 ^ N.of_nat d)%N →
  (run o (median_of_medians c (3 + d) (length l) k) s l).1.1 ≠ Diverged.
Proof. exact @median_of_medians_depth. Qed.
Print Assumptions median_of_medians_recursion.

(** Eight nested calls suffice for every array that fits into memory.  The left-hand side
    is the call in [partition_at_index_loop]. *)
Theorem median_of_medians_recursion_memory :
  ∀ (T S : Type) (c : cfg) (o : S → T * T → option bool * S) (s : S) (l : list T) (k : nat),
  zst c = false → k < length l → (N.of_nat (length l) < 2 ^ 63)%N →
  run o (median_of_medians c (bit_length (length l) + 1) (length l) k) s l =
    run o (median_of_medians c 8 (length l) k) s l ∧
  (run o (median_of_medians c 8 (length l) k) s l).1.1 ≠ Diverged.
Proof. exact @median_of_medians_eight. Qed.
Print Assumptions median_of_medians_recursion_memory.

(** [partition_at_indices] for [m] indices, in range or not, sorted or not, nests at most
    [log2 m + 2] deep. *)
Theorem partition_at_indices_recursion :
  ∀ (T S : Type) (c : cfg) (o : S → T * T → option bool * S) (s : S) (l : list T) (inds : list nat),
  inds ≠ [] → (N.of_nat (length l) ≤ if wide c then 2 ^ 64 else 2 ^ 32)%N →
  ∀ fuel, length inds < fuel →
  (run o (partition_at_indices c (Nat.log2 (length inds) + 2) fuel (length l) 0 0 inds) s l).1.1 ≠ Diverged.
Proof. exact @partition_at_indices_depth. Qed.
Print Assumptions partition_at_indices_recursion.

(** [select_many_nth_unstable] is [partition_at_indices] with exactly this depth. *)
Theorem select_many_nth_unstable_recursion :
  ∀ (T : Type) (c : cfg) (n : nat) (inds : list nat), inds ≠ [] →
  select_many_nth_unstable (T:=T) c n inds =
    partition_at_indices c (Nat.log2 (length inds) + 2) (length inds + 1) n 0 0 inds.
Proof. exact @select_many_uses_depth. Qed.
Print Assumptions select_many_nth_unstable_recursion.

(** 140 elements need three nested calls, 15 need two. *)
Example recursion_example :
  let l := map (λ i, i * 89 mod 140) (seq 0 140) in
  let l' := map (λ i, i * 4 mod 15) (seq 0 15) in
  (N.of_nat (length l) < 8448 * 1024 ^ N.of_nat 0)%N ∧
  (run (pure_less Nat.ltb) (median_of_medians cfg_release64 3 140 70) tt l).1.1 = Done tt ∧
  (run (pure_less Nat.ltb) (median_of_medians cfg_release64 2 140 70) tt l).1.1 = Diverged ∧
  (run (pure_less Nat.ltb) (median_of_medians cfg_release64 2 15 7) tt l').1.1 = Done tt ∧
  (run (pure_less Nat.ltb) (median_of_medians cfg_release64 1 15 7) tt l').1.1 = Diverged.
Proof. repeat split; vm_compute; reflexivity. Qed.

(** Five indices, depth four; they need three. *)
Example indices_recursion_example :
  let l := rev (seq 0 20) in
  (run (pure_less Nat.ltb) (partition_at_indices cfg_release64 4 6 20 0 0 [1; 3; 4; 11; 17]) tt l).1.1 =
    Done [(1, 1); (3, 3); (4, 4); (11, 11); (17, 17)] ∧
  (run (pure_less Nat.ltb) (partition_at_indices cfg_release64 2 6 20 0 0 [1; 3; 4; 11; 17]) tt l).1.1 = Diverged.
Proof. split; vm_compute; reflexivity. Qed.
