(** * DocExamples: the examples of the documentation in src/lib.rs, run on the model.

    They test the model, not the crate: each [Example] is one code block of src/lib.rs,
    at the lines given, with its assertions.  Elements of type [i32] are integers [Z];
    blocks that use floating-point numbers are left out. *)
From Verif Require Import TSearch TCached MPar MParMerge.
From Coq Require Import ZArith String DecimalString.
From stdpp Require Import list.
Import ListNotations.
Open Scope Z_scope.

Definition after {A S T} (r : outcome A * S * list T) : list T := r.2.
Definition back (a b : Z) : comparison := Z.compare b a.
Definition take_all (_ : nat) : bool := true.

(** 166-169, 354-357, 531-534, 667-670. *)
Example doc_sort :
  let v := [-5; 4; 1; -3; 2] in
  let w := (Done tt, tt, [-5; -3; 1; 2; 4]) in
  run (pure_less Z.ltb) (par_sort cfg_release64 take_all 5) tt v = w ∧
  run (pure_less Z.ltb) (MApi.sort cfg_release64 5) tt v = w ∧
  run (pure_less Z.ltb) (par_sort_unstable cfg_release64 5) tt v = w ∧
  run (pure_less Z.ltb) (sort_unstable cfg_release64 5) tt v = w.
Proof. vm_compute. auto. Qed.

(** 222-228, 405-411, 587-593, 718-724. *)
Example doc_sort_by :
  let v := [5; 4; 1; 3; 2] in
  let w := [1; 2; 3; 4; 5] in
  let up := pure_compare Z.compare in
  let down := pure_compare back in
  after (run up (par_sort_by cfg_release64 take_all 5) tt v) = w ∧
  after (run down (par_sort_by cfg_release64 take_all 5) tt w) = rev w ∧
  after (run up (sort_by cfg_release64 5) tt v) = w ∧
  after (run down (sort_by cfg_release64 5) tt w) = rev w ∧
  after (run up (par_sort_unstable_by cfg_release64 5) tt v) = w ∧
  after (run down (par_sort_unstable_by cfg_release64 5) tt w) = rev w ∧
  after (run up (sort_unstable_by cfg_release64 5) tt v) = w ∧
  after (run down (sort_unstable_by cfg_release64 5) tt w) = rev w.
Proof. vm_compute. repeat split. Qed.

(** 269-272, 450-453, 631-634, 756-759. *)
Example doc_sort_by_key :
  let v := [-5; 4; 2; -3; 1] in
  let w := [1; 2; -3; 4; -5] in
  let f := pure_key Z.abs Z.ltb in
  after (run f (par_sort_by_key cfg_release64 take_all 5) tt v) = w ∧
  after (run f (sort_by_key cfg_release64 5) tt v) = w ∧
  after (run f (par_sort_unstable_by_key cfg_release64 5) tt v) = w ∧
  after (run f (sort_unstable_by_key cfg_release64 5) tt v) = w.
Proof. vm_compute. repeat split. Qed.

(** 317-320, 492-495.  The index type has the width for a key of 24 bytes; the sort of
    the pairs of keys and indices and the order of the tasks are those of [demo_env]. *)
Definition to_string (z : Z) : string := NilZero.string_of_int (Z.to_int z).
Definition string_env (s : unit) (q : ck_question Z string) : ck_answer string * unit :=
  (match q with
   | CachedKey a => CKeyIs (to_string a)
   | SortPairs v => SortedTo (sorting.merge_sort (pair_le String.ltb) v)
   | Pick n => Picked (n - 1) (n / 2)%nat false
   end, s).
Example doc_sort_by_cached_key :
  let v := [-5; 4; 32; -3; 2] in
  let w := [-3; -5; 2; 32; 4] in
  to_string (-5) = "-5"%string ∧
  after (run string_env (par_sort_by_cached_key cfg_release64 (Sizes 32 32 32 32) 5) tt v) = w ∧
  after (run string_env (sort_by_cached_key cfg_release64 (Sizes 32 32 32 32) 5) tt v) = w.
Proof. vm_compute. repeat split. Qed.

Definition answer {A S T} (r : outcome A * S * list T) : outcome A := r.1.1.

(** 785-788. *)
Example doc_is_sorted :
  answer (run (pure_less Z.leb) (MSearch.is_sorted 4) tt [1; 2; 2; 9]) = Done true ∧
  answer (run (pure_less Z.leb) (MSearch.is_sorted 4) tt [1; 3; 2; 4]) = Done false ∧
  answer (run (pure_less Z.leb) (MSearch.is_sorted 1) tt [0]) = Done true ∧
  answer (run (pure_less Z.leb) (MSearch.is_sorted 0) tt []) = Done true.
Proof. vm_compute. repeat split. Qed.

(** 805-813. *)
Example doc_is_sorted_by :
  answer (run (pure_less Z.leb) (is_sorted_by 4) tt [1; 2; 2; 9]) = Done true ∧
  answer (run (pure_less Z.ltb) (is_sorted_by 4) tt [1; 2; 2; 9]) = Done false ∧
  answer (run (pure_less (λ _ _, true)) (is_sorted_by 1) tt [0]) = Done true ∧
  answer (run (pure_less (λ _ _, false)) (is_sorted_by 1) tt [0]) = Done true ∧
  answer (run (pure_less (λ _ _, false)) (is_sorted_by 0) tt ([] : list Z)) = Done true ∧
  answer (run (pure_less (λ _ _, true)) (is_sorted_by 0) tt ([] : list Z)) = Done true.
Proof. vm_compute. repeat split. Qed.

(** 832-833. *)
Example doc_is_sorted_by_key :
  answer (run (pure_key String.length Nat.leb) (is_sorted_by_key 3) tt
            ["c"; "bb"; "aaa"]%string) = Done true ∧
  answer (run (pure_key Z.abs Z.leb) (is_sorted_by_key 4) tt [-2; -1; 0; 3]) = Done false.
Proof. vm_compute. repeat split. Qed.

(** The elements at the returned places. *)
Definition at_slots (r : outcome (list (option nat)) * unit * list Z) : option (list (option Z)) :=
  match r with
  | (Done is, _, l) => Some (map (λ i, i ≫= λ i : nat, l !! i) is)
  | _ => None
  end.
Definition at_entries (r : outcome (list (nat * nat)) * unit * list Z) :
    option (list (nat * option Z)) :=
  match r with
  | (Done m, _, l) => Some (map (λ e : nat * nat, (e.1, l !! e.2)) m)
  | _ => None
  end.
Definition nine : list Z := [-5; 4; 2; -3; 1; 9; 3; 4; 0].

(** 870-878, 920-928, 972-980. *)
Example doc_par_select_many :
  at_slots (run (pure_less Z.ltb)
    (par_select_many_nth_unstable cfg_release64 9 3 [1; 4; 6]%nat) tt nine) =
    Some [Some (-3); Some 2; Some 4] ∧
  at_slots (run (pure_compare back)
    (par_select_many_nth_unstable_by cfg_release64 9 3 [1; 4; 6]%nat) tt nine) =
    Some [Some 4; Some 2; Some 0] ∧
  at_slots (run (pure_key Z.abs Z.ltb)
    (par_select_many_nth_unstable_by_key cfg_release64 9 3 [1; 4; 6]%nat) tt nine) =
    Some [Some 1; Some 3; Some 4].
Proof. vm_compute. repeat split. Qed.

(** 1025-1034, 1076-1085, 1129-1138. *)
Example doc_select_many :
  (∃ m, at_entries (run (pure_less Z.ltb)
     (select_many_nth_unstable cfg_release64 9 [1; 4; 6]%nat) tt nine) = Some m ∧
     Permutation m [(1%nat, Some (-3)); (4%nat, Some 2); (6%nat, Some 4)]) ∧
  (∃ m, at_entries (run (pure_compare back)
     (select_many_nth_unstable_by cfg_release64 9 [1; 4; 6]%nat) tt nine) = Some m ∧
     Permutation m [(1%nat, Some 4); (4%nat, Some 2); (6%nat, Some 0)]) ∧
  (∃ m, at_entries (run (pure_key Z.abs Z.ltb)
     (select_many_nth_unstable_by_key cfg_release64 9 [1; 4; 6]%nat) tt nine) = Some m ∧
     Permutation m [(1%nat, Some 1); (4%nat, Some 3); (6%nat, Some 4)]).
Proof.
  split; [|split]; (eexists; split; [vm_compute; reflexivity|]);
    apply (bool_decide_unpack _); vm_compute; exact I.
Qed.

(** The three views returned by the selection. *)
Definition three {S} (r : outcome ((nat * nat) * nat * (nat * nat)) * S * list Z) :
    option (list Z * option Z * list Z) :=
  match r with
  | (Done (v1, i, v2), _, l) => Some (view_elems l v1, l !! i, view_elems l v2)
  | _ => None
  end.

(** 1182-1197. *)
Example doc_select_nth :
  let r := run (pure_less Z.ltb) (select_nth_unstable cfg_release64 5 2) tt [-5; 4; 2; -3; 1] in
  ∃ lesser greater, three r = Some (lesser, Some 1, greater) ∧
    (lesser = [-3; -5] ∨ lesser = [-5; -3]) ∧ (greater = [4; 2] ∨ greater = [2; 4]) ∧
    after r = lesser ++ [1] ++ greater.
Proof. vm_compute. do 2 eexists. split; [reflexivity|]. auto. Qed.

(** 1239-1256. *)
Example doc_select_nth_by :
  let r := run (pure_compare back) (select_nth_unstable_by cfg_release64 5 2) tt [-5; 4; 2; -3; 1] in
  ∃ lesser greater, three r = Some (lesser, Some 1, greater) ∧
    (lesser = [4; 2] ∨ lesser = [2; 4]) ∧ (greater = [-3; -5] ∨ greater = [-5; -3]) ∧
    after r = lesser ++ [1] ++ greater.
Proof. vm_compute. do 2 eexists. split; [reflexivity|]. auto. Qed.

(** 1299-1316. *)
Example doc_select_nth_by_key :
  let r := run (pure_key Z.abs Z.ltb) (select_nth_unstable_by_key cfg_release64 5 2) tt
             [-5; 4; 2; -3; 1] in
  ∃ lesser greater, three r = Some (lesser, Some (-3), greater) ∧
    (lesser = [1; 2] ∨ lesser = [2; 1]) ∧ (greater = [4; -5] ∨ greater = [-5; 4]) ∧
    after r = lesser ++ [-3] ++ greater.
Proof. vm_compute. do 2 eexists. split; [reflexivity|]. auto. Qed.

(** 1355-1372. *)
Example doc_partition_point :
  answer (run (pure_fun (λ x, Z.ltb x 5)) (partition_point cfg_release64 7) tt
            [1; 2; 3; 3; 5; 6; 7]) = Done 4%nat ∧
  answer (run (pure_fun (λ x, Z.ltb x 100)) (partition_point cfg_release64 3) tt [2; 4; 8]) =
    Done 3%nat ∧
  answer (run (pure_fun (λ x, Z.ltb x 100)) (partition_point cfg_release64 0) tt []) = Done 0%nat.
Proof. vm_compute. repeat split. Qed.

(** 1407-1409. *)
Example doc_contains :
  answer (run (pure_less Z.eqb) (MSearch.contains 3 30) tt [10; 40; 30]) = Done true ∧
  answer (run (pure_less Z.eqb) (MSearch.contains 3 50) tt [10; 40; 30]) = Done false.
Proof. vm_compute. repeat split. Qed.

Definition fib : list Z := [0; 1; 1; 1; 1; 2; 3; 5; 8; 13; 21; 34; 55].

(** 1455-1461. *)
Example doc_binary_search :
  let r x := answer (run (pure_compare Z.compare) (binary_search cfg_release64 13 x) tt fib) in
  r 13 = Done (Found 9) ∧ r 4 = Done (Missing 7) ∧ r 100 = Done (Missing 13) ∧
  ∃ i, r 1 = Done (Found i) ∧ (1 ≤ i ≤ 4)%nat.
Proof. vm_compute. do 3 (split; [reflexivity|]). eexists. split; [reflexivity|]. lia. Qed.

(** 1472-1488. *)
Example doc_range :
  let p f := answer (run (pure_fun f) (partition_point cfg_release64 13) tt fib) in
  p (λ x, Z.ltb x 1) = Done 1%nat ∧ p (λ x, Z.leb x 1) = Done 5%nat ∧
  p (λ x, Z.ltb x 11) = Done 9%nat ∧ p (λ x, Z.leb x 11) = Done 9%nat ∧
  answer (run (pure_compare Z.compare) (binary_search cfg_release64 13 11) tt fib) = Done (Missing 9).
Proof. vm_compute. repeat split. Qed.

(** 1381-1387, 1498-1507. *)
Example doc_insert :
  answer (run (pure_fun (λ x, Z.ltb x 42)) (partition_point cfg_release64 13) tt fib) = Done 12%nat ∧
  take 12 fib ++ 42 :: drop 12 fib = [0; 1; 1; 1; 1; 2; 3; 5; 8; 13; 21; 34; 42; 55].
Proof. vm_compute. repeat split. Qed.

(** 1544-1554. *)
Example doc_binary_search_by :
  let r x := answer (run (pure_fun (λ probe, Z.compare probe x)) (binary_search_by cfg_release64 13)
                       tt fib) in
  r 13 = Done (Found 9) ∧ r 4 = Done (Missing 7) ∧ r 100 = Done (Missing 13) ∧
  ∃ i, r 1 = Done (Found i) ∧ (1 ≤ i ≤ 4)%nat.
Proof. vm_compute. do 3 (split; [reflexivity|]). eexists. split; [reflexivity|]. lia. Qed.

(** 1599-1607. *)
Example doc_binary_search_by_key :
  let s := [(0, 0); (2, 1); (4, 1); (5, 1); (3, 1); (1, 2); (2, 3); (4, 5); (5, 8); (3, 13);
            (1, 21); (2, 34); (4, 55)] in
  let r b := answer (run (pure_keyc (snd : Z * Z → Z) Z.compare)
                       (binary_search_by_key cfg_release64 13 b) tt s) in
  r 13 = Done (Found 9) ∧ r 4 = Done (Missing 7) ∧ r 100 = Done (Missing 13) ∧
  ∃ i, r 1 = Done (Found i) ∧ (1 ≤ i ≤ 4)%nat.
Proof. vm_compute. do 3 (split; [reflexivity|]). eexists. split; [reflexivity|]. lia. Qed.

(** The two views returned by the deduplications. *)
Definition two {T S} (r : outcome ((nat * nat) * (nat * nat)) * S * list T) :
    option (list T * list T) :=
  match r with
  | (Done (v1, v2), _, l) => Some (view_elems l v1, view_elems l v2)
  | _ => None
  end.

(** 1627-1632. *)
Example doc_partition_dedup :
  two (run (pure_less Z.eqb) (partition_dedup 8) tt [1; 2; 2; 3; 3; 2; 1; 1]) =
    Some ([1; 2; 3; 2; 1], [2; 3; 1]).
Proof. vm_compute. reflexivity. Qed.

(** 1656-1661. *)
Definition lower (a : Ascii.ascii) : Ascii.ascii :=
  let n := Ascii.nat_of_ascii a in
  if (65 <=? n)%nat && (n <=? 90)%nat then Ascii.ascii_of_nat (n + 32) else a.
Fixpoint lowercase (s : string) : string :=
  match s with
  | EmptyString => EmptyString
  | String a s => String (lower a) (lowercase s)
  end.
Example doc_partition_dedup_by :
  two (run (pure_bucket (λ a b, String.eqb (lowercase a) (lowercase b))) (partition_dedup_by 7) tt
         ["foo"; "Foo"; "BAZ"; "Bar"; "bar"; "baz"; "BAZ"]%string) =
    Some (["foo"; "BAZ"; "Bar"; "baz"]%string, ["bar"; "Foo"; "BAZ"]%string).
Proof. vm_compute. reflexivity. Qed.

(** 1683-1688. *)
Example doc_partition_dedup_by_key :
  two (run (λ (s : unit) (q : dkey_question Z Z),
              match q with
              | DKeyOf x => (DKey (x / 10) x, s)
              | DKeyEq a b => (DBool (a =? b), s)
              end) (partition_dedup_by_key 8) tt [10; 20; 21; 30; 30; 20; 11; 13]) =
    Some ([10; 20; 30; 20; 11], [21; 30; 13]).
Proof. vm_compute. reflexivity. Qed.

(** 1706-1708. *)
Example doc_reverse :
  run (pure_less Z.ltb) (MPartition.reverse 3) tt [1; 2; 3] = (Done tt, tt, [3; 2; 1]).
Proof. vm_compute. reflexivity. Qed.
