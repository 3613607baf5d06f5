(** * Model of the methods of [Slice1Ext] (src/lib.rs). *)
From Verif Require Export Subst MQuick MSelect MMerge.

Section api.
  Context {T : Type} (c : cfg).

  (** src/lib.rs:1924-1931 [sort_unstable]: [quick_sort(self.view_mut(), A::lt)]. *)
  Definition sort_unstable (n : nat) : cmp_prog T unit := quick_sort c n.
  (** src/lib.rs:1932-1939 [sort_unstable_by]. *)
  Definition sort_unstable_by (n : nat) : prog T (T * T) (option comparison) unit :=
    by_compare (quick_sort c n).
  (** src/lib.rs:1940-1948 [sort_unstable_by_key]. *)
  Definition sort_unstable_by_key {K} (n : nat) : prog T (key_question K) (key_answer K) unit :=
    by_key (quick_sort c n).

  (** src/lib.rs:1810-1818 [sort]: [stable_sort(self.view_mut(), A::lt)]. *)
  Definition sort (n : nat) : cmp_prog T unit := stable_sort c n.
  (** src/lib.rs:1819-1827 [sort_by]. *)
  Definition sort_by (n : nat) : prog T (T * T) (option comparison) unit :=
    by_compare (stable_sort c n).
  (** src/lib.rs:1828-1837 [sort_by_key]. *)
  Definition sort_by_key {K} (n : nat) : prog T (key_question K) (key_answer K) unit :=
    by_key (stable_sort c n).

  (** src/lib.rs:2096-2104 [select_nth_unstable]. *)
  Definition select_nth_unstable (n index : nat) : cmp_prog T ((nat * nat) * nat * (nat * nat)) :=
    partition_at_index c n index.
  (** src/lib.rs:2105-2118 [select_nth_unstable_by]. *)
  Definition select_nth_unstable_by (n index : nat) :
      prog T (T * T) (option comparison) ((nat * nat) * nat * (nat * nat)) :=
    by_compare (partition_at_index c n index).
  (** src/lib.rs:2119-2132 [select_nth_unstable_by_key]. *)
  Definition select_nth_unstable_by_key {K} (n index : nat) :
      prog T (key_question K) (key_answer K) ((nat * nat) * nat * (nat * nat)) :=
    by_key (partition_at_index c n index).

  (** [partition_at_indices(self.view_mut(), 0, indices.view(), ..)] with enough
      fuel for the recursion (which halves the number of indices). *)
  Definition select_many (n : nat) (inds : list nat) : cmp_prog T (list (nat * nat)) :=
    partition_at_indices c (S (bit_length (length inds))) (S (length inds)) n 0 0 inds.
  (** src/lib.rs:2038-2051 [select_many_nth_unstable]. *)
  Definition select_many_nth_unstable (n : nat) (inds : list nat) :
      cmp_prog T (list (nat * nat)) := select_many n inds.
  (** src/lib.rs:2052-2071 [select_many_nth_unstable_by]. *)
  Definition select_many_nth_unstable_by (n : nat) (inds : list nat) :
      prog T (T * T) (option comparison) (list (nat * nat)) := by_compare (select_many n inds).
  (** src/lib.rs:2072-2093 [select_many_nth_unstable_by_key]. *)
  Definition select_many_nth_unstable_by_key {K} (n : nat) (inds : list nat) :
      prog T (key_question K) (key_answer K) (list (nat * nat)) := by_key (select_many n inds).
End api.
