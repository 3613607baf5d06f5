(** * C09-C11, C33 and part of C39: the cached-key sorts. *)
From Verif Require Import TCached.
From stdpp Require Import list.

(** C09.  [cached_env ltk f o]: the environment [o] answers the calls of the key
    function with [f] (its state may change) and sorts (key, index) pairs
    correctly, in any correct way.  [key_lt ltk f a b] is [f a < f b].  [called tr]
    are the arguments of the calls of the key function, in order. *)
Theorem sort_by_cached_key_sorts :
  ∀ (T K S : Type) (c : cfg) (sz : sizes) (ltk : K → K → bool) (f : T → K)
    (o : S → ck_question T K → ck_answer K * S) (s : S) (l : list T),
  strict_weak_order ltk → cached_env ltk f o → fits c (length l) →
  ∃ s' l' tr, run (logged o) (sort_by_cached_key c sz (length l)) (s, []) l =
      (Done tt, (s', tr), l') ∧
    Permutation l l' ∧ sorted_wrt (key_lt ltk f) l' ∧
    same_order_of_equals (key_lt ltk f) l l' ∧
    called tr = if 2 <=? length l then l else [].
Proof. exact @sort_by_cached_key_stable. Qed.
Print Assumptions sort_by_cached_key_sorts.

Example sort_by_cached_key_example :
  strict_weak_order Nat.ltb ∧ cached_env Nat.ltb (λ x, x mod 10) (demo_env (λ x, x mod 10)) ∧
  fits cfg_debug64 (length [31; 12; 21; 2; 11]) ∧
  run (demo_env (λ x, x mod 10)) (sort_by_cached_key cfg_debug64 (Sizes 9 10 12 16) 5) tt
    [31; 12; 21; 2; 11] = (Done tt, tt, [31; 21; 11; 12; 2]).
Proof.
  split; [exact ltb_swo|]. split; [apply demo_env_ok|]. split; [by vm_compute|].
  vm_compute. reflexivity.
Qed.

(** C10.  Nothing is assumed of the keys, their comparisons and the external sort,
    except that if the latter returns, then with a permutation.  Any panic comes
    from the key function or from the external sort and leaves the array as it
    was. *)
Theorem sort_by_cached_key_panic_safe :
  ∀ (T K S : Type) (c : cfg) (sz : sizes) (o : S → ck_question T K → ck_answer K * S) (s : S)
    (l : list T),
  sort_permutes o → fits c (length l) →
  ∃ r s' l' tr, run (logged o) (sort_by_cached_key c sz (length l)) (s, []) l = (r, (s', tr), l') ∧
    ((r = Done tt ∧ Permutation l l') ∨
     (r = Panicked UserPanic ∧ l' = l ∧
      ∃ tr0 q a, tr = tr0 ++ [(q, a)] ∧
        ((∃ x, q = CachedKey x ∧ (∀ k, a ≠ CKeyIs k)) ∨
         (∃ v, q = SortPairs v ∧ (∀ v', a ≠ SortedTo v'))))).
Proof. exact @sort_by_cached_key_any. Qed.
Print Assumptions sort_by_cached_key_panic_safe.

Theorem sort_by_cached_key_panics_with_key :
  ∀ (T K S : Type) (c : cfg) (sz : sizes) (o : S → ck_question T K → ck_answer K * S) (s : S)
    (l : list T) (a : T),
  a ∈ l → 2 ≤ length l → (∀ s k, (o s (CachedKey a)).1 ≠ CKeyIs k) →
  sort_permutes o → fits c (length l) →
  ∃ s', run o (sort_by_cached_key c sz (length l)) s l = (Panicked UserPanic, s', l).
Proof. exact @sort_by_cached_key_key_panics. Qed.
Print Assumptions sort_by_cached_key_panics_with_key.

Theorem par_sort_by_cached_key_panic_safe :
  ∀ (T K S : Type) (c : cfg) (sz : sizes) (o : S → ck_question T K → ck_answer K * S) (s : S)
    (l : list T),
  sort_permutes o → fits c (length l) →
  ∃ r s' l', run o (par_sort_by_cached_key c sz (length l)) s l = (r, s', l') ∧
    ((r = Done tt ∧ Permutation l l') ∨ (r = Panicked UserPanic ∧ l' = l)).
Proof. exact @par_sort_by_cached_key_any. Qed.
Print Assumptions par_sort_by_cached_key_panic_safe.

(** The key function panics on 2, the fourth element. *)
Example sort_by_cached_key_panic_example :
  let o := λ (s : nat) (q : ck_question nat nat),
    (match q with
     | CachedKey 2 => CKPanic
     | CachedKey a => CKeyIs a
     | SortPairs v => SortedTo v
     | Pick n => Picked s 0 true
     end, S s) in
  sort_permutes o ∧ (∀ s k, (o s (CachedKey 2)).1 ≠ CKeyIs k) ∧
  run o (sort_by_cached_key cfg_debug64 (Sizes 9 10 12 16) 5) 0 [31; 12; 21; 2; 11] =
    (Panicked UserPanic, 4, [31; 12; 21; 2; 11]) ∧
  run o (par_sort_by_cached_key cfg_debug64 (Sizes 9 10 12 16) 5) 0 [31; 12; 21; 2; 11] =
    (Panicked UserPanic, 5, [31; 12; 21; 2; 11]).
Proof.
  intros o. split; [intros s v v' H; by simplify_eq/=|]. split; [done|].
  vm_compute. split; reflexivity.
Qed.

(** C11.  The index type is chosen from the sizes of the pair types; whatever these
    are, the run is the same, for every environment.  Likewise for every admitted
    index type. *)
Theorem cached_key_index_width_invisible :
  ∀ (T K S : Type) (c : cfg) (o : S → ck_question T K → ck_answer K * S) (sz sz' : sizes)
    (n : nat) (s : S) (l : list T),
  fits c n →
  run o (sort_by_cached_key c sz n) s l = run o (sort_by_cached_key c sz' n) s l ∧
  run o (par_sort_by_cached_key c sz n) s l = run o (par_sort_by_cached_key c sz' n) s l.
Proof. exact @cached_key_sizes. Qed.
Print Assumptions cached_key_index_width_invisible.

Theorem cached_key_index_width_exchangeable :
  ∀ (T K S : Type) (c : cfg) (o : S → ck_question T K → ck_answer K * S) (w w' : index_type)
    (n : nat) (s : S) (l : list T),
  (N.of_nat n <= width_count c w)%N → (N.of_nat n <= width_count c w')%N →
  run o (sort_by_key_macro c w n) s l = run o (sort_by_key_macro c w' n) s l.
Proof. exact @sort_by_key_macro_width. Qed.
Print Assumptions cached_key_index_width_exchangeable.

(** The chosen type holds every index of the array: no index is truncated. *)
Theorem cached_key_index_not_truncated :
  ∀ (c : cfg) (sz : sizes) (n i : nat), fits c n → i < n → cast c (choose_width sz n) i = i.
Proof. exact chosen_width_holds. Qed.
Print Assumptions cached_key_index_not_truncated.

(** [u8] is chosen for 255 elements, not for 256; 256 itself would be truncated. *)
Example cached_key_index_width_example :
  fits cfg_debug64 255 ∧
  choose_width (Sizes 2 4 8 16) 255 = U8 ∧ choose_width (Sizes 2 4 8 16) 256 = U16 ∧
  choose_width (Sizes 16 16 16 16) 255 = Usize ∧
  cast cfg_debug64 U8 255 = 255 ∧ cast cfg_debug64 U8 256 = 0.
Proof. vm_compute. repeat split; discriminate. Qed.

(** C33.  The answers of [o] to [Pick] decide in which order the elements are
    processed and in which order the pairs are collected. *)
Theorem par_sort_by_cached_key_sorts :
  ∀ (T K S : Type) (c : cfg) (sz : sizes) (ltk : K → K → bool) (f : T → K)
    (o : S → ck_question T K → ck_answer K * S) (s : S) (l : list T),
  strict_weak_order ltk → cached_env ltk f o → fits c (length l) →
  ∃ s' l' tr, run (logged o) (par_sort_by_cached_key c sz (length l)) (s, []) l =
      (Done tt, (s', tr), l') ∧
    Permutation l l' ∧ sorted_wrt (key_lt ltk f) l' ∧
    same_order_of_equals (key_lt ltk f) l l' ∧
    Permutation (called tr) (if 2 <=? length l then l else []).
Proof. exact @par_sort_by_cached_key_stable. Qed.
Print Assumptions par_sort_by_cached_key_sorts.

(** Two schedules (and the sequential variant) give the same array. *)
Theorem par_sort_by_cached_key_schedule_independent :
  ∀ (T K S : Type) (c : cfg) (sz : sizes) (ltk : K → K → bool) (f : T → K)
    (o o' : S → ck_question T K → ck_answer K * S) (s s' : S) (l : list T),
  strict_weak_order ltk → cached_env ltk f o → cached_env ltk f o' → fits c (length l) →
  ∃ l', (∃ s1, run o (sort_by_cached_key c sz (length l)) s l = (Done tt, s1, l')) ∧
        (∃ s2, run o' (par_sort_by_cached_key c sz (length l)) s' l = (Done tt, s2, l')).
Proof. exact @cached_keys_agree. Qed.
Print Assumptions par_sort_by_cached_key_schedule_independent.

Example par_sort_by_cached_key_example :
  strict_weak_order Nat.ltb ∧ cached_env Nat.ltb (λ x, x mod 10) (demo_env (λ x, x mod 10)) ∧
  run (logged (demo_env (λ x, x mod 10)))
    (par_sort_by_cached_key cfg_debug64 (Sizes 9 10 12 16) 3) (tt, []) [31; 12; 21] =
  (Done tt,
   (tt, [(Pick 3, Picked 2 1 false); (CachedKey 21, CKeyIs 1);
         (Pick 2, Picked 1 1 false); (CachedKey 12, CKeyIs 2);
         (Pick 1, Picked 0 0 false); (CachedKey 31, CKeyIs 1);
         (SortPairs [(1, 0); (1, 2); (2, 1)], SortedTo [(1, 0); (1, 2); (2, 1)])]),
   [31; 21; 12]).
Proof.
  split; [exact ltb_swo|]. split; [apply demo_env_ok|]. vm_compute. reflexivity.
Qed.

(** Part of C39: with the identity as key, both variants give what [sort] gives. *)
Theorem sort_by_cached_key_agrees_with_sort :
  ∀ (T S : Type) (c : cfg) (sz : sizes) (lt : T → T → bool)
    (o : S → ck_question T T → ck_answer T * S) (s : S) (l : list T),
  strict_weak_order lt → (zst c = true → ∀ x y : T, x = y) →
  cached_env lt id o → fits c (length l) →
  ∃ l', run (pure_less lt) (MApi.sort c (length l)) tt l = (Done tt, tt, l') ∧
    (∃ s', run o (sort_by_cached_key c sz (length l)) s l = (Done tt, s', l')) ∧
    (∃ s', run o (par_sort_by_cached_key c sz (length l)) s l = (Done tt, s', l')).
Proof. exact @cached_key_agrees_with_sort. Qed.
Print Assumptions sort_by_cached_key_agrees_with_sort.

Example sort_by_cached_key_agrees_example :
  cached_env Nat.ltb id (demo_env id) ∧
  run (demo_env id) (sort_by_cached_key cfg_debug64 (Sizes 9 10 12 16) 3) tt [3; 1; 2] =
    (Done tt, tt, [1; 2; 3]) ∧
  run (pure_less Nat.ltb) (MApi.sort cfg_debug64 3) tt [3; 1; 2] = (Done tt, tt, [1; 2; 3]).
Proof. split; [apply demo_env_ok|]. vm_compute. repeat split. Qed.
