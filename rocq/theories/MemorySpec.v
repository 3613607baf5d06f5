(** * MemorySpec: allocators with a limited amount of memory.

    [left a k] is how many elements, for [ElemBlock], or runs, for [RunBlock], the
    allocator can still hand out in the state [a].  It refuses nothing that is not
    longer than this, an allocated block costs its length, and freeing it gives its
    length back. *)
From Verif Require Export HeapSpec.

Record limited {A : Type} (al : A → block_kind → nat → option nat * A)
    (fr : A → block_kind → nat → nat → A) (left : A → block_kind → nat) : Prop := {
  limited_grants : ∀ a k len, len ≤ left a k → (al a k len).1 ≠ None;
  limited_costs : ∀ a k len k', left a k' - (if decide (k = k') then len else 0) ≤ left (al a k len).2 k';
  limited_refuses : ∀ a k len k', (al a k len).1 = None → left a k' ≤ left (al a k len).2 k';
  limited_returns : ∀ a k p len k',
    left a k' + (if decide (k = k') then len else 0) ≤ left (fr a k p len) k'
}.

(** A heap with room for [h_elems] elements and [h_runs] runs that hands out a new
    address each time. *)
Record small_heap := SmallHeap { h_elems : nat; h_runs : nat; h_next : nat }.
Definition room_left (h : small_heap) (k : block_kind) : nat :=
  match k with ElemBlock => h_elems h | RunBlock => h_runs h end.
Definition heap_alloc (h : small_heap) (k : block_kind) (len : nat) : option nat * small_heap :=
  if len <=? room_left h k then
    (Some (h_next h),
     match k with
     | ElemBlock => SmallHeap (h_elems h - len) (h_runs h) (S (h_next h))
     | RunBlock => SmallHeap (h_elems h) (h_runs h - len) (S (h_next h))
     end)
  else (None, h).
Definition heap_free (h : small_heap) (k : block_kind) (p len : nat) : small_heap :=
  match k with
  | ElemBlock => SmallHeap (h_elems h + len) (h_runs h) (h_next h)
  | RunBlock => SmallHeap (h_elems h) (h_runs h + len) (h_next h)
  end.
Lemma small_heap_limited : limited heap_alloc heap_free room_left.
Proof.
  split.
  - intros h k len H. unfold heap_alloc. by rewrite (proj2 (Nat.leb_le _ _) H).
  - intros h k len k'. unfold heap_alloc. destruct (Nat.leb_spec len (room_left h k)); simpl; [|lia].
    destruct k, k'; simpl; lia.
  - intros h k len k'. unfold heap_alloc. by destruct (len <=? room_left h k).
  - intros h k p len k'. destruct k, k'; simpl; lia.
Qed.
