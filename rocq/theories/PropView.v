(** * C26: operations on views.

    A view of [n] elements is given by the address [f i] of each of its elements
    ([view_ok]: different and inside of memory); [relocate f p] is the operation
    [p] run on the view.  [acts_on_view], [acts_on_view_scheduled] and
    [acts_on_view_buffered] (TView.v): the operation acts on the view as on an
    array that holds the elements in view order, and changes nothing else. *)
From Verif Require Import TView TSort Examples.
From stdpp Require Import list.

Theorem sorts_act_on_views : ∀ (T : Type) (c : cfg) (n : nat),
  acts_on_view n (MApi.sort (T:=T) c n) ∧ acts_on_view n (sort_by (T:=T) c n) ∧
  acts_on_view n (sort_unstable (T:=T) c n) ∧ acts_on_view n (sort_unstable_by (T:=T) c n) ∧
  ∀ (K : Type) (sz : sizes),
    acts_on_view n (sort_by_key (T:=T) (K:=K) c n) ∧
    acts_on_view n (sort_unstable_by_key (T:=T) (K:=K) c n) ∧
    acts_on_view n (sort_by_cached_key (T:=T) (K:=K) c sz n) ∧
    acts_on_view n (par_sort_by_cached_key (T:=T) (K:=K) c sz n).
Proof. exact @sorts_views. Qed.
Print Assumptions sorts_act_on_views.

Theorem selections_act_on_views : ∀ (T : Type) (c : cfg) (n i : nat) (inds : list nat),
  acts_on_view n (select_nth_unstable (T:=T) c n i) ∧
  acts_on_view n (select_nth_unstable_by (T:=T) c n i) ∧
  acts_on_view n (select_many_nth_unstable (T:=T) c n inds) ∧
  acts_on_view n (select_many_nth_unstable_by (T:=T) c n inds) ∧
  ∀ K : Type,
    acts_on_view n (select_nth_unstable_by_key (T:=T) (K:=K) c n i) ∧
    acts_on_view n (select_many_nth_unstable_by_key (T:=T) (K:=K) c n inds).
Proof. exact @selections_views. Qed.
Print Assumptions selections_act_on_views.

Theorem dedup_and_reverse_act_on_views : ∀ (T : Type) (n : nat),
  (∀ Q R : Type, acts_on_view n (MPartition.reverse (T:=T) (Q:=Q) (R:=R) n)) ∧
  acts_on_view n (partition_dedup (T:=T) n) ∧
  acts_on_view n (partition_dedup_by (T:=T) n) ∧
  ∀ K : Type, acts_on_view n (partition_dedup_by_key (T:=T) (K:=K) n).
Proof. exact @others_views. Qed.
Print Assumptions dedup_and_reverse_act_on_views.

Theorem searches_act_on_views : ∀ (T : Type) (c : cfg) (n : nat),
  (∀ x, acts_on_view n (contains (T:=T) n x)) ∧
  acts_on_view n (is_sorted_by (T:=T) n) ∧
  (∀ x, acts_on_view n (binary_search (T:=T) c n x)) ∧
  acts_on_view n (binary_search_by (T:=T) c n) ∧
  acts_on_view n (partition_point (T:=T) c n) ∧
  ∀ K : Type, acts_on_view n (is_sorted_by_key (T:=T) (K:=K) n) ∧
    ∀ b : K, acts_on_view n (binary_search_by_key (T:=T) c n b).
Proof. exact @searches_views. Qed.
Print Assumptions searches_act_on_views.

Theorem parallel_operations_act_on_views : ∀ (T : Type) (c : cfg) (n vlen : nat) (inds : list nat),
  acts_on_view_scheduled n (par_sort_unstable (T:=T) c n) ∧
  acts_on_view_scheduled n (par_sort_unstable_by (T:=T) c n) ∧
  acts_on_view_scheduled n (par_select_many_nth_unstable (T:=T) c n vlen inds) ∧
  acts_on_view_scheduled n (par_select_many_nth_unstable_by (T:=T) c n vlen inds) ∧
  ∀ K : Type,
    acts_on_view_scheduled n (par_sort_unstable_by_key (T:=T) (K:=K) c n) ∧
    acts_on_view_scheduled n (par_select_many_nth_unstable_by_key (T:=T) (K:=K) c n vlen inds).
Proof. exact @par_views. Qed.
Print Assumptions parallel_operations_act_on_views.

Theorem par_sort_acts_on_views : ∀ (T : Type) (c : cfg) (take_item : nat → bool) (n : nat),
  acts_on_view_buffered n (par_sort (T:=T) c take_item n) ∧
  acts_on_view_buffered n (par_sort_by (T:=T) c take_item n) ∧
  ∀ K : Type, acts_on_view_buffered n (par_sort_by_key (T:=T) (K:=K) c take_item n).
Proof. exact @par_stable_views. Qed.
Print Assumptions par_sort_acts_on_views.

(** Any offset and any non-zero stride give a view. *)
Theorem strided_views : ∀ (T : Type) (mem : list T) (n : nat) (off stride : Z),
  stride ≠ 0%Z →
  (∀ i, i < n → (0 ≤ off + stride * Z.of_nat i < Z.of_nat (length mem))%Z) →
  view_ok (λ i, Z.to_nat (off + stride * Z.of_nat i)) n mem.
Proof. exact @strided_ok. Qed.
Print Assumptions strided_views.

(** Sorting every second element, backwards. *)
Definition every_second (i : nat) : nat := Z.to_nat (9 + (-2) * Z.of_nat i).
Example views_example :
  let mem := [100; 3; 101; 23; 102; 12; 103; 4; 104; 11; 105] in
  view_ok every_second 5 mem ∧ view_of every_second 5 mem [11; 4; 12; 23; 3] ∧
  run (pure_compare digit_cmp) (sort_by cfg_debug64 5) tt [11; 4; 12; 23; 3] =
    (Done tt, tt, [11; 12; 23; 3; 4]) ∧
  run (pure_compare digit_cmp) (relocate every_second (sort_by cfg_debug64 5)) tt mem =
    (Done tt, tt, [100; 4; 101; 3; 102; 23; 103; 12; 104; 11; 105]).
Proof.
  intros mem. split; [|split; [|split]]; [| |vm_compute; reflexivity|vm_compute; reflexivity].
  - apply strided_ok; [done|]. unfold mem. simpl length. lia.
  - split; [done|]. intros i Hi. do 5 (destruct i as [|i]; [reflexivity|]). lia.
Qed.
