(** * C56: what a method does to the elements is decided by the closure's answers. *)
From Verif Require Import TAlikeTop Examples.

(** C56.  [R] relates the elements of two arrays, of any two types, place by place,
    and the two closures give the same answers to calls with related elements ([RS]
    relates their states, [RK] the keys of the key variants; answers may be
    panics).  Then the two runs end the same way, return the same (indices and
    subviews are equal), and leave arrays that are still related place by place: the
    elements move in the same way.  [l] and [l'] are the whole memory: for [par_sort]
    that is the array and the scratch buffer.  The theorems named [schedules] are
    about every schedule of the tasks. *)
Theorem sort_data_independent :
  ∀ (T U S S' : Type) (R : T → U → Prop) (RS : S → S' → Prop) (c : cfg)
    (o : S → T * T → option bool * S) (o' : S' → U * U → option bool * S') (n : nat),
  closures_alike RS (pair_alike R R) eq o o' →
  ∀ s s' l l', RS s s' → Forall2 R l l' →
  runs_alike R RS eq (run o (MApi.sort c n) s l) (run o' (MApi.sort c n) s' l').
Proof. intros T U S S' R RS c o o' n Ho s s' l l'. exact (alike_run _ _ _ RS eq o o' _ _ s s' l l' Ho ((stable_sort_alike R c _))). Qed.
Print Assumptions sort_data_independent.

Theorem sort_by_data_independent :
  ∀ (T U S S' : Type) (R : T → U → Prop) (RS : S → S' → Prop) (c : cfg)
    (o : S → T * T → option comparison * S) (o' : S' → U * U → option comparison * S') (n : nat),
  closures_alike RS (pair_alike R R) eq o o' →
  ∀ s s' l l', RS s s' → Forall2 R l l' →
  runs_alike R RS eq (run o (sort_by c n) s l) (run o' (sort_by c n) s' l').
Proof. intros T U S S' R RS c o o' n Ho s s' l l'. exact (alike_run _ _ _ RS eq o o' _ _ s s' l l' Ho (by_compare_alike _ _ _ _ (stable_sort_alike R c _))). Qed.
Print Assumptions sort_by_data_independent.

Theorem sort_by_key_data_independent :
  ∀ (T U K L S S' : Type) (R : T → U → Prop) (RK : K → L → Prop) (RS : S → S' → Prop) (c : cfg)
    (o : S → key_question (T:=T) K → key_answer K * S) (o' : S' → key_question (T:=U) L → key_answer L * S') (n : nat),
  closures_alike RS (key_questions_alike R RK) (key_answers_alike RK) o o' →
  ∀ s s' l l', RS s s' → Forall2 R l l' →
  runs_alike R RS eq (run o (sort_by_key c n) s l) (run o' (sort_by_key c n) s' l').
Proof. intros T U K L S S' R RK RS c o o' n Ho s s' l l'. exact (alike_run _ _ _ RS eq o o' _ _ s s' l l' Ho (by_key_alike _ RK _ _ _ (stable_sort_alike R c _))). Qed.
Print Assumptions sort_by_key_data_independent.

Theorem sort_unstable_data_independent :
  ∀ (T U S S' : Type) (R : T → U → Prop) (RS : S → S' → Prop) (c : cfg)
    (o : S → T * T → option bool * S) (o' : S' → U * U → option bool * S') (n : nat),
  closures_alike RS (pair_alike R R) eq o o' →
  ∀ s s' l l', RS s s' → Forall2 R l l' →
  runs_alike R RS eq (run o (sort_unstable c n) s l) (run o' (sort_unstable c n) s' l').
Proof. intros T U S S' R RS c o o' n Ho s s' l l'. exact (alike_run _ _ _ RS eq o o' _ _ s s' l l' Ho ((quick_sort_alike R c _))). Qed.
Print Assumptions sort_unstable_data_independent.

Theorem sort_unstable_by_data_independent :
  ∀ (T U S S' : Type) (R : T → U → Prop) (RS : S → S' → Prop) (c : cfg)
    (o : S → T * T → option comparison * S) (o' : S' → U * U → option comparison * S') (n : nat),
  closures_alike RS (pair_alike R R) eq o o' →
  ∀ s s' l l', RS s s' → Forall2 R l l' →
  runs_alike R RS eq (run o (sort_unstable_by c n) s l) (run o' (sort_unstable_by c n) s' l').
Proof. intros T U S S' R RS c o o' n Ho s s' l l'. exact (alike_run _ _ _ RS eq o o' _ _ s s' l l' Ho (by_compare_alike _ _ _ _ (quick_sort_alike R c _))). Qed.
Print Assumptions sort_unstable_by_data_independent.

Theorem sort_unstable_by_key_data_independent :
  ∀ (T U K L S S' : Type) (R : T → U → Prop) (RK : K → L → Prop) (RS : S → S' → Prop) (c : cfg)
    (o : S → key_question (T:=T) K → key_answer K * S) (o' : S' → key_question (T:=U) L → key_answer L * S') (n : nat),
  closures_alike RS (key_questions_alike R RK) (key_answers_alike RK) o o' →
  ∀ s s' l l', RS s s' → Forall2 R l l' →
  runs_alike R RS eq (run o (sort_unstable_by_key c n) s l) (run o' (sort_unstable_by_key c n) s' l').
Proof. intros T U K L S S' R RK RS c o o' n Ho s s' l l'. exact (alike_run _ _ _ RS eq o o' _ _ s s' l l' Ho (by_key_alike _ RK _ _ _ (quick_sort_alike R c _))). Qed.
Print Assumptions sort_unstable_by_key_data_independent.

Theorem select_nth_unstable_data_independent :
  ∀ (T U S S' : Type) (R : T → U → Prop) (RS : S → S' → Prop) (c : cfg)
    (i : nat)
    (o : S → T * T → option bool * S) (o' : S' → U * U → option bool * S') (n : nat),
  closures_alike RS (pair_alike R R) eq o o' →
  ∀ s s' l l', RS s s' → Forall2 R l l' →
  runs_alike R RS eq (run o (select_nth_unstable c n i) s l) (run o' (select_nth_unstable c n i) s' l').
Proof. intros T U S S' R RS c i o o' n Ho s s' l l'. exact (alike_run _ _ _ RS eq o o' _ _ s s' l l' Ho ((partition_at_index_alike R c _ _))). Qed.
Print Assumptions select_nth_unstable_data_independent.

Theorem select_nth_unstable_by_data_independent :
  ∀ (T U S S' : Type) (R : T → U → Prop) (RS : S → S' → Prop) (c : cfg)
    (i : nat)
    (o : S → T * T → option comparison * S) (o' : S' → U * U → option comparison * S') (n : nat),
  closures_alike RS (pair_alike R R) eq o o' →
  ∀ s s' l l', RS s s' → Forall2 R l l' →
  runs_alike R RS eq (run o (select_nth_unstable_by c n i) s l) (run o' (select_nth_unstable_by c n i) s' l').
Proof. intros T U S S' R RS c i o o' n Ho s s' l l'. exact (alike_run _ _ _ RS eq o o' _ _ s s' l l' Ho (by_compare_alike _ _ _ _ (partition_at_index_alike R c _ _))). Qed.
Print Assumptions select_nth_unstable_by_data_independent.

Theorem select_nth_unstable_by_key_data_independent :
  ∀ (T U K L S S' : Type) (R : T → U → Prop) (RK : K → L → Prop) (RS : S → S' → Prop) (c : cfg)
    (i : nat)
    (o : S → key_question (T:=T) K → key_answer K * S) (o' : S' → key_question (T:=U) L → key_answer L * S') (n : nat),
  closures_alike RS (key_questions_alike R RK) (key_answers_alike RK) o o' →
  ∀ s s' l l', RS s s' → Forall2 R l l' →
  runs_alike R RS eq (run o (select_nth_unstable_by_key c n i) s l) (run o' (select_nth_unstable_by_key c n i) s' l').
Proof. intros T U K L S S' R RK RS c i o o' n Ho s s' l l'. exact (alike_run _ _ _ RS eq o o' _ _ s s' l l' Ho (by_key_alike _ RK _ _ _ (partition_at_index_alike R c _ _))). Qed.
Print Assumptions select_nth_unstable_by_key_data_independent.

Theorem select_many_nth_unstable_data_independent :
  ∀ (T U S S' : Type) (R : T → U → Prop) (RS : S → S' → Prop) (c : cfg)
    (inds : list nat)
    (o : S → T * T → option bool * S) (o' : S' → U * U → option bool * S') (n : nat),
  closures_alike RS (pair_alike R R) eq o o' →
  ∀ s s' l l', RS s s' → Forall2 R l l' →
  runs_alike R RS eq (run o (select_many_nth_unstable c n inds) s l) (run o' (select_many_nth_unstable c n inds) s' l').
Proof. intros T U S S' R RS c inds o o' n Ho s s' l l'. exact (alike_run _ _ _ RS eq o o' _ _ s s' l l' Ho ((select_many_alike R c _ _))). Qed.
Print Assumptions select_many_nth_unstable_data_independent.

Theorem select_many_nth_unstable_by_data_independent :
  ∀ (T U S S' : Type) (R : T → U → Prop) (RS : S → S' → Prop) (c : cfg)
    (inds : list nat)
    (o : S → T * T → option comparison * S) (o' : S' → U * U → option comparison * S') (n : nat),
  closures_alike RS (pair_alike R R) eq o o' →
  ∀ s s' l l', RS s s' → Forall2 R l l' →
  runs_alike R RS eq (run o (select_many_nth_unstable_by c n inds) s l) (run o' (select_many_nth_unstable_by c n inds) s' l').
Proof. intros T U S S' R RS c inds o o' n Ho s s' l l'. exact (alike_run _ _ _ RS eq o o' _ _ s s' l l' Ho (by_compare_alike _ _ _ _ (select_many_alike R c _ _))). Qed.
Print Assumptions select_many_nth_unstable_by_data_independent.

Theorem select_many_nth_unstable_by_key_data_independent :
  ∀ (T U K L S S' : Type) (R : T → U → Prop) (RK : K → L → Prop) (RS : S → S' → Prop) (c : cfg)
    (inds : list nat)
    (o : S → key_question (T:=T) K → key_answer K * S) (o' : S' → key_question (T:=U) L → key_answer L * S') (n : nat),
  closures_alike RS (key_questions_alike R RK) (key_answers_alike RK) o o' →
  ∀ s s' l l', RS s s' → Forall2 R l l' →
  runs_alike R RS eq (run o (select_many_nth_unstable_by_key c n inds) s l) (run o' (select_many_nth_unstable_by_key c n inds) s' l').
Proof. intros T U K L S S' R RK RS c inds o o' n Ho s s' l l'. exact (alike_run _ _ _ RS eq o o' _ _ s s' l l' Ho (by_key_alike _ RK _ _ _ (select_many_alike R c _ _))). Qed.
Print Assumptions select_many_nth_unstable_by_key_data_independent.

Theorem par_sort_data_independent :
  ∀ (T U S S' : Type) (R : T → U → Prop) (RS : S → S' → Prop) (c : cfg)
    (take_item : nat → bool)
    (o : S → T * T → option bool * S) (o' : S' → U * U → option bool * S') (n : nat),
  closures_alike RS (pair_alike R R) eq o o' →
  ∀ s s' l l', RS s s' → Forall2 R l l' →
  runs_alike R RS eq (run o (par_sort c take_item n) s l) (run o' (par_sort c take_item n) s' l').
Proof. intros T U S S' R RS c take_item o o' n Ho s s' l l'. exact (alike_run _ _ _ RS eq o o' _ _ s s' l l' Ho ((par_merge_sort_alike R c _ _))). Qed.
Print Assumptions par_sort_data_independent.

Theorem par_sort_schedules_data_independent :
  ∀ (T U : Type) (R : T → U → Prop) (c : cfg) (take_item : nat → bool)
    (ans : T * T → option bool → Prop) (ans' : U * U → option bool → Prop) (n : nat),
  (∀ q q' r, (pair_alike R R) q q' → ans q r → ∃ r', ans' q' r' ∧ eq r r') →
  ∀ l l', Forall2 R l l' →
  schedules_alike R eq ans ans' (par_sort c take_item n) l (par_sort c take_item n) l'.
Proof. intros T U R c take_item ans ans' n Ha l l'. exact (alike_schedules _ _ _ eq ans ans' _ _ l l' Ha ((par_merge_sort_alike R c _ _))). Qed.
Print Assumptions par_sort_schedules_data_independent.

Theorem par_sort_by_data_independent :
  ∀ (T U S S' : Type) (R : T → U → Prop) (RS : S → S' → Prop) (c : cfg)
    (take_item : nat → bool)
    (o : S → T * T → option comparison * S) (o' : S' → U * U → option comparison * S') (n : nat),
  closures_alike RS (pair_alike R R) eq o o' →
  ∀ s s' l l', RS s s' → Forall2 R l l' →
  runs_alike R RS eq (run o (par_sort_by c take_item n) s l) (run o' (par_sort_by c take_item n) s' l').
Proof. intros T U S S' R RS c take_item o o' n Ho s s' l l'. exact (alike_run _ _ _ RS eq o o' _ _ s s' l l' Ho (by_compare_alike _ _ _ _ (par_merge_sort_alike R c _ _))). Qed.
Print Assumptions par_sort_by_data_independent.

Theorem par_sort_by_schedules_data_independent :
  ∀ (T U : Type) (R : T → U → Prop) (c : cfg) (take_item : nat → bool)
    (ans : T * T → option comparison → Prop) (ans' : U * U → option comparison → Prop) (n : nat),
  (∀ q q' r, (pair_alike R R) q q' → ans q r → ∃ r', ans' q' r' ∧ eq r r') →
  ∀ l l', Forall2 R l l' →
  schedules_alike R eq ans ans' (par_sort_by c take_item n) l (par_sort_by c take_item n) l'.
Proof. intros T U R c take_item ans ans' n Ha l l'. exact (alike_schedules _ _ _ eq ans ans' _ _ l l' Ha (by_compare_alike _ _ _ _ (par_merge_sort_alike R c _ _))). Qed.
Print Assumptions par_sort_by_schedules_data_independent.

Theorem par_sort_by_key_data_independent :
  ∀ (T U K L S S' : Type) (R : T → U → Prop) (RK : K → L → Prop) (RS : S → S' → Prop) (c : cfg)
    (take_item : nat → bool)
    (o : S → key_question (T:=T) K → key_answer K * S) (o' : S' → key_question (T:=U) L → key_answer L * S') (n : nat),
  closures_alike RS (key_questions_alike R RK) (key_answers_alike RK) o o' →
  ∀ s s' l l', RS s s' → Forall2 R l l' →
  runs_alike R RS eq (run o (par_sort_by_key c take_item n) s l) (run o' (par_sort_by_key c take_item n) s' l').
Proof. intros T U K L S S' R RK RS c take_item o o' n Ho s s' l l'. exact (alike_run _ _ _ RS eq o o' _ _ s s' l l' Ho (by_key_alike _ RK _ _ _ (par_merge_sort_alike R c _ _))). Qed.
Print Assumptions par_sort_by_key_data_independent.

Theorem par_sort_by_key_schedules_data_independent :
  ∀ (T U K L : Type) (R : T → U → Prop) (RK : K → L → Prop) (c : cfg) (take_item : nat → bool)
    (ans : key_question (T:=T) K → key_answer K → Prop) (ans' : key_question (T:=U) L → key_answer L → Prop) (n : nat),
  (∀ q q' r, (key_questions_alike R RK) q q' → ans q r → ∃ r', ans' q' r' ∧ (key_answers_alike RK) r r') →
  ∀ l l', Forall2 R l l' →
  schedules_alike R eq ans ans' (par_sort_by_key c take_item n) l (par_sort_by_key c take_item n) l'.
Proof. intros T U K L R RK c take_item ans ans' n Ha l l'. exact (alike_schedules _ _ _ eq ans ans' _ _ l l' Ha (by_key_alike _ RK _ _ _ (par_merge_sort_alike R c _ _))). Qed.
Print Assumptions par_sort_by_key_schedules_data_independent.

Theorem par_sort_unstable_data_independent :
  ∀ (T U S S' : Type) (R : T → U → Prop) (RS : S → S' → Prop) (c : cfg)
    (o : S → T * T → option bool * S) (o' : S' → U * U → option bool * S') (n : nat),
  closures_alike RS (pair_alike R R) eq o o' →
  ∀ s s' l l', RS s s' → Forall2 R l l' →
  runs_alike R RS eq (run o (par_sort_unstable c n) s l) (run o' (par_sort_unstable c n) s' l').
Proof. intros T U S S' R RS c o o' n Ho s s' l l'. exact (alike_run _ _ _ RS eq o o' _ _ s s' l l' Ho ((par_quick_sort_alike R c _))). Qed.
Print Assumptions par_sort_unstable_data_independent.

Theorem par_sort_unstable_schedules_data_independent :
  ∀ (T U : Type) (R : T → U → Prop) (c : cfg)
    (ans : T * T → option bool → Prop) (ans' : U * U → option bool → Prop) (n : nat),
  (∀ q q' r, (pair_alike R R) q q' → ans q r → ∃ r', ans' q' r' ∧ eq r r') →
  ∀ l l', Forall2 R l l' →
  schedules_alike R eq ans ans' (par_sort_unstable c n) l (par_sort_unstable c n) l'.
Proof. intros T U R c ans ans' n Ha l l'. exact (alike_schedules _ _ _ eq ans ans' _ _ l l' Ha ((par_quick_sort_alike R c _))). Qed.
Print Assumptions par_sort_unstable_schedules_data_independent.

Theorem par_sort_unstable_by_data_independent :
  ∀ (T U S S' : Type) (R : T → U → Prop) (RS : S → S' → Prop) (c : cfg)
    (o : S → T * T → option comparison * S) (o' : S' → U * U → option comparison * S') (n : nat),
  closures_alike RS (pair_alike R R) eq o o' →
  ∀ s s' l l', RS s s' → Forall2 R l l' →
  runs_alike R RS eq (run o (par_sort_unstable_by c n) s l) (run o' (par_sort_unstable_by c n) s' l').
Proof. intros T U S S' R RS c o o' n Ho s s' l l'. exact (alike_run _ _ _ RS eq o o' _ _ s s' l l' Ho (by_compare_alike _ _ _ _ (par_quick_sort_alike R c _))). Qed.
Print Assumptions par_sort_unstable_by_data_independent.

Theorem par_sort_unstable_by_schedules_data_independent :
  ∀ (T U : Type) (R : T → U → Prop) (c : cfg)
    (ans : T * T → option comparison → Prop) (ans' : U * U → option comparison → Prop) (n : nat),
  (∀ q q' r, (pair_alike R R) q q' → ans q r → ∃ r', ans' q' r' ∧ eq r r') →
  ∀ l l', Forall2 R l l' →
  schedules_alike R eq ans ans' (par_sort_unstable_by c n) l (par_sort_unstable_by c n) l'.
Proof. intros T U R c ans ans' n Ha l l'. exact (alike_schedules _ _ _ eq ans ans' _ _ l l' Ha (by_compare_alike _ _ _ _ (par_quick_sort_alike R c _))). Qed.
Print Assumptions par_sort_unstable_by_schedules_data_independent.

Theorem par_sort_unstable_by_key_data_independent :
  ∀ (T U K L S S' : Type) (R : T → U → Prop) (RK : K → L → Prop) (RS : S → S' → Prop) (c : cfg)
    (o : S → key_question (T:=T) K → key_answer K * S) (o' : S' → key_question (T:=U) L → key_answer L * S') (n : nat),
  closures_alike RS (key_questions_alike R RK) (key_answers_alike RK) o o' →
  ∀ s s' l l', RS s s' → Forall2 R l l' →
  runs_alike R RS eq (run o (par_sort_unstable_by_key c n) s l) (run o' (par_sort_unstable_by_key c n) s' l').
Proof. intros T U K L S S' R RK RS c o o' n Ho s s' l l'. exact (alike_run _ _ _ RS eq o o' _ _ s s' l l' Ho (by_key_alike _ RK _ _ _ (par_quick_sort_alike R c _))). Qed.
Print Assumptions par_sort_unstable_by_key_data_independent.

Theorem par_sort_unstable_by_key_schedules_data_independent :
  ∀ (T U K L : Type) (R : T → U → Prop) (RK : K → L → Prop) (c : cfg)
    (ans : key_question (T:=T) K → key_answer K → Prop) (ans' : key_question (T:=U) L → key_answer L → Prop) (n : nat),
  (∀ q q' r, (key_questions_alike R RK) q q' → ans q r → ∃ r', ans' q' r' ∧ (key_answers_alike RK) r r') →
  ∀ l l', Forall2 R l l' →
  schedules_alike R eq ans ans' (par_sort_unstable_by_key c n) l (par_sort_unstable_by_key c n) l'.
Proof. intros T U K L R RK c ans ans' n Ha l l'. exact (alike_schedules _ _ _ eq ans ans' _ _ l l' Ha (by_key_alike _ RK _ _ _ (par_quick_sort_alike R c _))). Qed.
Print Assumptions par_sort_unstable_by_key_schedules_data_independent.

Theorem par_select_many_nth_unstable_data_independent :
  ∀ (T U S S' : Type) (R : T → U → Prop) (RS : S → S' → Prop) (c : cfg)
    (vlen : nat) (inds : list nat)
    (o : S → T * T → option bool * S) (o' : S' → U * U → option bool * S') (n : nat),
  closures_alike RS (pair_alike R R) eq o o' →
  ∀ s s' l l', RS s s' → Forall2 R l l' →
  runs_alike R RS eq (run o (par_select_many_nth_unstable c n vlen inds) s l) (run o' (par_select_many_nth_unstable c n vlen inds) s' l').
Proof. intros T U S S' R RS c vlen inds o o' n Ho s s' l l'. exact (alike_run _ _ _ RS eq o o' _ _ s s' l l' Ho ((par_select_many_alike R c _ _ _))). Qed.
Print Assumptions par_select_many_nth_unstable_data_independent.

Theorem par_select_many_nth_unstable_schedules_data_independent :
  ∀ (T U : Type) (R : T → U → Prop) (c : cfg) (vlen : nat) (inds : list nat)
    (ans : T * T → option bool → Prop) (ans' : U * U → option bool → Prop) (n : nat),
  (∀ q q' r, (pair_alike R R) q q' → ans q r → ∃ r', ans' q' r' ∧ eq r r') →
  ∀ l l', Forall2 R l l' →
  schedules_alike R eq ans ans' (par_select_many_nth_unstable c n vlen inds) l (par_select_many_nth_unstable c n vlen inds) l'.
Proof. intros T U R c vlen inds ans ans' n Ha l l'. exact (alike_schedules _ _ _ eq ans ans' _ _ l l' Ha ((par_select_many_alike R c _ _ _))). Qed.
Print Assumptions par_select_many_nth_unstable_schedules_data_independent.

Theorem par_select_many_nth_unstable_by_data_independent :
  ∀ (T U S S' : Type) (R : T → U → Prop) (RS : S → S' → Prop) (c : cfg)
    (vlen : nat) (inds : list nat)
    (o : S → T * T → option comparison * S) (o' : S' → U * U → option comparison * S') (n : nat),
  closures_alike RS (pair_alike R R) eq o o' →
  ∀ s s' l l', RS s s' → Forall2 R l l' →
  runs_alike R RS eq (run o (par_select_many_nth_unstable_by c n vlen inds) s l) (run o' (par_select_many_nth_unstable_by c n vlen inds) s' l').
Proof. intros T U S S' R RS c vlen inds o o' n Ho s s' l l'. exact (alike_run _ _ _ RS eq o o' _ _ s s' l l' Ho (by_compare_alike _ _ _ _ (par_select_many_alike R c _ _ _))). Qed.
Print Assumptions par_select_many_nth_unstable_by_data_independent.

Theorem par_select_many_nth_unstable_by_schedules_data_independent :
  ∀ (T U : Type) (R : T → U → Prop) (c : cfg) (vlen : nat) (inds : list nat)
    (ans : T * T → option comparison → Prop) (ans' : U * U → option comparison → Prop) (n : nat),
  (∀ q q' r, (pair_alike R R) q q' → ans q r → ∃ r', ans' q' r' ∧ eq r r') →
  ∀ l l', Forall2 R l l' →
  schedules_alike R eq ans ans' (par_select_many_nth_unstable_by c n vlen inds) l (par_select_many_nth_unstable_by c n vlen inds) l'.
Proof. intros T U R c vlen inds ans ans' n Ha l l'. exact (alike_schedules _ _ _ eq ans ans' _ _ l l' Ha (by_compare_alike _ _ _ _ (par_select_many_alike R c _ _ _))). Qed.
Print Assumptions par_select_many_nth_unstable_by_schedules_data_independent.

Theorem par_select_many_nth_unstable_by_key_data_independent :
  ∀ (T U K L S S' : Type) (R : T → U → Prop) (RK : K → L → Prop) (RS : S → S' → Prop) (c : cfg)
    (vlen : nat) (inds : list nat)
    (o : S → key_question (T:=T) K → key_answer K * S) (o' : S' → key_question (T:=U) L → key_answer L * S') (n : nat),
  closures_alike RS (key_questions_alike R RK) (key_answers_alike RK) o o' →
  ∀ s s' l l', RS s s' → Forall2 R l l' →
  runs_alike R RS eq (run o (par_select_many_nth_unstable_by_key c n vlen inds) s l) (run o' (par_select_many_nth_unstable_by_key c n vlen inds) s' l').
Proof. intros T U K L S S' R RK RS c vlen inds o o' n Ho s s' l l'. exact (alike_run _ _ _ RS eq o o' _ _ s s' l l' Ho (by_key_alike _ RK _ _ _ (par_select_many_alike R c _ _ _))). Qed.
Print Assumptions par_select_many_nth_unstable_by_key_data_independent.

Theorem par_select_many_nth_unstable_by_key_schedules_data_independent :
  ∀ (T U K L : Type) (R : T → U → Prop) (RK : K → L → Prop) (c : cfg) (vlen : nat) (inds : list nat)
    (ans : key_question (T:=T) K → key_answer K → Prop) (ans' : key_question (T:=U) L → key_answer L → Prop) (n : nat),
  (∀ q q' r, (key_questions_alike R RK) q q' → ans q r → ∃ r', ans' q' r' ∧ (key_answers_alike RK) r r') →
  ∀ l l', Forall2 R l l' →
  schedules_alike R eq ans ans' (par_select_many_nth_unstable_by_key c n vlen inds) l (par_select_many_nth_unstable_by_key c n vlen inds) l'.
Proof. intros T U K L R RK c vlen inds ans ans' n Ha l l'. exact (alike_schedules _ _ _ eq ans ans' _ _ l l' Ha (by_key_alike _ RK _ _ _ (par_select_many_alike R c _ _ _))). Qed.
Print Assumptions par_select_many_nth_unstable_by_key_schedules_data_independent.

Theorem binary_search_data_independent :
  ∀ (T U S S' : Type) (R : T → U → Prop) (RS : S → S' → Prop) (c : cfg)
    (x : T) (x' : U)
    (o : S → T * T → option comparison * S) (o' : S' → U * U → option comparison * S') (n : nat),
  closures_alike RS (pair_alike R R) eq o o' →
  R x x' →
  ∀ s s' l l', RS s s' → Forall2 R l l' →
  runs_alike R RS eq (run o (binary_search c n x) s l) (run o' (binary_search c n x') s' l').
Proof. intros T U S S' R RS c x x' o o' n Ho Hx s s' l l'. exact (alike_run _ _ _ RS eq o o' _ _ s s' l l' Ho (binary_search_alike R c n x x' Hx)). Qed.
Print Assumptions binary_search_data_independent.

Theorem binary_search_by_data_independent :
  ∀ (T U S S' : Type) (R : T → U → Prop) (RS : S → S' → Prop) (c : cfg)
    (o : S → T → option comparison * S) (o' : S' → U → option comparison * S') (n : nat),
  closures_alike RS R eq o o' →
  ∀ s s' l l', RS s s' → Forall2 R l l' →
  runs_alike R RS eq (run o (binary_search_by c n) s l) (run o' (binary_search_by c n) s' l').
Proof. intros T U S S' R RS c o o' n Ho s s' l l'. exact (alike_run _ _ _ RS eq o o' _ _ s s' l l' Ho (binary_search_by_alike R c n)). Qed.
Print Assumptions binary_search_by_data_independent.

Theorem binary_search_by_key_data_independent :
  ∀ (T U K L S S' : Type) (R : T → U → Prop) (RK : K → L → Prop) (RS : S → S' → Prop) (c : cfg)
    (b : K) (b' : L)
    (o : S → keyc_question (T:=T) K → keyc_answer K * S) (o' : S' → keyc_question (T:=U) L → keyc_answer L * S') (n : nat),
  closures_alike RS (keyc_questions_alike R RK) (keyc_answers_alike RK) o o' →
  RK b b' →
  ∀ s s' l l', RS s s' → Forall2 R l l' →
  runs_alike R RS eq (run o (binary_search_by_key c n b) s l) (run o' (binary_search_by_key c n b') s' l').
Proof. intros T U K L S S' R RK RS c b b' o o' n Ho Hb s s' l l'. exact (alike_run _ _ _ RS eq o o' _ _ s s' l l' Ho (binary_search_by_key_alike R c RK n b b' Hb)). Qed.
Print Assumptions binary_search_by_key_data_independent.

Theorem partition_point_data_independent :
  ∀ (T U S S' : Type) (R : T → U → Prop) (RS : S → S' → Prop) (c : cfg)
    (o : S → T → option bool * S) (o' : S' → U → option bool * S') (n : nat),
  closures_alike RS R eq o o' →
  ∀ s s' l l', RS s s' → Forall2 R l l' →
  runs_alike R RS eq (run o (partition_point c n) s l) (run o' (partition_point c n) s' l').
Proof. intros T U S S' R RS c o o' n Ho s s' l l'. exact (alike_run _ _ _ RS eq o o' _ _ s s' l l' Ho (partition_point_alike R c n)). Qed.
Print Assumptions partition_point_data_independent.

Theorem contains_data_independent :
  ∀ (T U S S' : Type) (R : T → U → Prop) (RS : S → S' → Prop) (c : cfg)
    (x : T) (x' : U)
    (o : S → T * T → option bool * S) (o' : S' → U * U → option bool * S') (n : nat),
  closures_alike RS (pair_alike R R) eq o o' →
  R x x' →
  ∀ s s' l l', RS s s' → Forall2 R l l' →
  runs_alike R RS eq (run o (contains n x) s l) (run o' (contains n x') s' l').
Proof. intros T U S S' R RS c x x' o o' n Ho Hx s s' l l'. exact (alike_run _ _ _ RS eq o o' _ _ s s' l l' Ho (contains_alike R n x x' Hx)). Qed.
Print Assumptions contains_data_independent.

Theorem is_sorted_data_independent :
  ∀ (T U S S' : Type) (R : T → U → Prop) (RS : S → S' → Prop) (c : cfg)
    (o : S → T * T → option bool * S) (o' : S' → U * U → option bool * S') (n : nat),
  closures_alike RS (pair_alike R R) eq o o' →
  ∀ s s' l l', RS s s' → Forall2 R l l' →
  runs_alike R RS eq (run o (MSearch.is_sorted n) s l) (run o' (MSearch.is_sorted n) s' l').
Proof. intros T U S S' R RS c o o' n Ho s s' l l'. exact (alike_run _ _ _ RS eq o o' _ _ s s' l l' Ho (is_sorted_alike R n)). Qed.
Print Assumptions is_sorted_data_independent.

Theorem is_sorted_by_key_data_independent :
  ∀ (T U K L S S' : Type) (R : T → U → Prop) (RK : K → L → Prop) (RS : S → S' → Prop) (c : cfg)
    (o : S → key_question (T:=T) K → key_answer K * S) (o' : S' → key_question (T:=U) L → key_answer L * S') (n : nat),
  closures_alike RS (key_questions_alike R RK) (key_answers_alike RK) o o' →
  ∀ s s' l l', RS s s' → Forall2 R l l' →
  runs_alike R RS eq (run o (is_sorted_by_key n) s l) (run o' (is_sorted_by_key n) s' l').
Proof. intros T U K L S S' R RK RS c o o' n Ho s s' l l'. exact (alike_run _ _ _ RS eq o o' _ _ s s' l l' Ho (by_key_alike _ RK _ _ _ (is_sorted_alike R n))). Qed.
Print Assumptions is_sorted_by_key_data_independent.

Theorem partition_dedup_data_independent :
  ∀ (T U S S' : Type) (R : T → U → Prop) (RS : S → S' → Prop) (c : cfg)
    (o : S → T * T → option bool * S) (o' : S' → U * U → option bool * S') (n : nat),
  closures_alike RS (pair_alike R R) eq o o' →
  ∀ s s' l l', RS s s' → Forall2 R l l' →
  runs_alike R RS eq (run o (partition_dedup n) s l) (run o' (partition_dedup n) s' l').
Proof. intros T U S S' R RS c o o' n Ho s s' l l'. exact (alike_run _ _ _ RS eq o o' _ _ s s' l l' Ho (partition_dedup_alike R n)). Qed.
Print Assumptions partition_dedup_data_independent.

Theorem partition_dedup_by_data_independent :
  ∀ (T U S S' : Type) (R : T → U → Prop) (RS : S → S' → Prop) (c : cfg)
    (o : S → T * T → dedup_answer T * S) (o' : S' → U * U → dedup_answer U * S') (n : nat),
  closures_alike RS (pair_alike R R) (dedup_answers_alike R) o o' →
  ∀ s s' l l', RS s s' → Forall2 R l l' →
  runs_alike R RS eq (run o (partition_dedup_by n) s l) (run o' (partition_dedup_by n) s' l').
Proof. intros T U S S' R RS c o o' n Ho s s' l l'. exact (alike_run _ _ _ RS eq o o' _ _ s s' l l' Ho (partition_dedup_by_alike R n)). Qed.
Print Assumptions partition_dedup_by_data_independent.

Theorem partition_dedup_by_key_data_independent :
  ∀ (T U K L S S' : Type) (R : T → U → Prop) (RK : K → L → Prop) (RS : S → S' → Prop) (c : cfg)
    (o : S → dkey_question T K → dkey_answer T K * S) (o' : S' → dkey_question U L → dkey_answer U L * S') (n : nat),
  closures_alike RS (dkey_questions_alike R RK) (dkey_answers_alike R RK) o o' →
  ∀ s s' l l', RS s s' → Forall2 R l l' →
  runs_alike R RS eq (run o (partition_dedup_by_key n) s l) (run o' (partition_dedup_by_key n) s' l').
Proof. intros T U K L S S' R RK RS c o o' n Ho s s' l l'. exact (alike_run _ _ _ RS eq o o' _ _ s s' l l' Ho (partition_dedup_by_key_alike R RK n)). Qed.
Print Assumptions partition_dedup_by_key_data_independent.

Theorem sort_by_cached_key_data_independent :
  ∀ (T U K L S S' : Type) (R : T → U → Prop) (RK : K → L → Prop) (RS : S → S' → Prop) (c : cfg)
    (sz : sizes)
    (o : S → ck_question T K → ck_answer K * S) (o' : S' → ck_question U L → ck_answer L * S') (n : nat),
  closures_alike RS (ck_questions_alike R RK) (ck_answers_alike RK) o o' →
  ∀ s s' l l', RS s s' → Forall2 R l l' →
  runs_alike R RS eq (run o (sort_by_cached_key c sz n) s l) (run o' (sort_by_cached_key c sz n) s' l').
Proof. intros T U K L S S' R RK RS c sz o o' n Ho s s' l l'. exact (alike_run _ _ _ RS eq o o' _ _ s s' l l' Ho (sort_by_cached_key_alike R RK c sz n)). Qed.
Print Assumptions sort_by_cached_key_data_independent.

Theorem par_sort_by_cached_key_data_independent :
  ∀ (T U K L S S' : Type) (R : T → U → Prop) (RK : K → L → Prop) (RS : S → S' → Prop) (c : cfg)
    (sz : sizes)
    (o : S → ck_question T K → ck_answer K * S) (o' : S' → ck_question U L → ck_answer L * S') (n : nat),
  closures_alike RS (ck_questions_alike R RK) (ck_answers_alike RK) o o' →
  ∀ s s' l l', RS s s' → Forall2 R l l' →
  runs_alike R RS eq (run o (par_sort_by_cached_key c sz n) s l) (run o' (par_sort_by_cached_key c sz n) s' l').
Proof. intros T U K L S S' R RK RS c sz o o' n Ho s s' l l'. exact (alike_run _ _ _ RS eq o o' _ _ s s' l l' Ho (par_sort_by_cached_key_alike R RK c sz n)). Qed.
Print Assumptions par_sort_by_cached_key_data_independent.

(** In particular: a key variant moves the elements exactly as the plain method
    moves the array of their keys.  For the unstable methods this says where
    elements with equal keys go. *)

Theorem sort_by_key_moves_like_keys :
  ∀ (T K : Type) (f : T → K) (lt : K → K → bool) (c : cfg) (l : list T),
  let '(r, _, l1) := run (pure_key f lt) (sort_by_key c (length l)) tt l in
  let '(r', _, l2) := run (pure_less lt) (MApi.sort c (length l)) tt (map f l) in
  r' = r ∧ l2 = map f l1.
Proof. intros T K f lt c l. exact (keys_run f lt _ _ l (stable_sort_alike _ c _)). Qed.
Print Assumptions sort_by_key_moves_like_keys.

Theorem sort_unstable_by_key_moves_like_keys :
  ∀ (T K : Type) (f : T → K) (lt : K → K → bool) (c : cfg) (l : list T),
  let '(r, _, l1) := run (pure_key f lt) (sort_unstable_by_key c (length l)) tt l in
  let '(r', _, l2) := run (pure_less lt) (sort_unstable c (length l)) tt (map f l) in
  r' = r ∧ l2 = map f l1.
Proof. intros T K f lt c l. exact (keys_run f lt _ _ l (quick_sort_alike _ c _)). Qed.
Print Assumptions sort_unstable_by_key_moves_like_keys.

Theorem select_nth_unstable_by_key_moves_like_keys :
  ∀ (T K : Type) (f : T → K) (lt : K → K → bool) (c : cfg) (i : nat) (l : list T),
  let '(r, _, l1) := run (pure_key f lt) (select_nth_unstable_by_key c (length l) i) tt l in
  let '(r', _, l2) := run (pure_less lt) (select_nth_unstable c (length l) i) tt (map f l) in
  r' = r ∧ l2 = map f l1.
Proof. intros T K f lt c i l. exact (keys_run f lt _ _ l (partition_at_index_alike _ c _ _)). Qed.
Print Assumptions select_nth_unstable_by_key_moves_like_keys.

Theorem select_many_nth_unstable_by_key_moves_like_keys :
  ∀ (T K : Type) (f : T → K) (lt : K → K → bool) (c : cfg) (inds : list nat) (l : list T),
  let '(r, _, l1) := run (pure_key f lt) (select_many_nth_unstable_by_key c (length l) inds) tt l in
  let '(r', _, l2) := run (pure_less lt) (select_many_nth_unstable c (length l) inds) tt (map f l) in
  r' = r ∧ l2 = map f l1.
Proof. intros T K f lt c inds l. exact (keys_run f lt _ _ l (select_many_alike _ c _ _)). Qed.
Print Assumptions select_many_nth_unstable_by_key_moves_like_keys.

Theorem par_sort_unstable_by_key_moves_like_keys :
  ∀ (T K : Type) (f : T → K) (lt : K → K → bool) (c : cfg) (l : list T),
  let '(r, _, l1) := run (pure_key f lt) (par_sort_unstable_by_key c (length l)) tt l in
  let '(r', _, l2) := run (pure_less lt) (par_sort_unstable c (length l)) tt (map f l) in
  r' = r ∧ l2 = map f l1.
Proof. intros T K f lt c l. exact (keys_run f lt _ _ l (par_quick_sort_alike _ c _)). Qed.
Print Assumptions par_sort_unstable_by_key_moves_like_keys.

Theorem par_select_many_nth_unstable_by_key_moves_like_keys :
  ∀ (T K : Type) (f : T → K) (lt : K → K → bool) (c : cfg) (vlen : nat) (inds : list nat) (l : list T),
  let '(r, _, l1) := run (pure_key f lt) (par_select_many_nth_unstable_by_key c (length l) vlen inds) tt l in
  let '(r', _, l2) := run (pure_less lt) (par_select_many_nth_unstable c (length l) vlen inds) tt (map f l) in
  r' = r ∧ l2 = map f l1.
Proof. intros T K f lt c vlen inds l. exact (keys_run f lt _ _ l (par_select_many_alike _ c _ _ _)). Qed.
Print Assumptions par_select_many_nth_unstable_by_key_moves_like_keys.

(** Hypotheses that hold: numbers and their last digits, compared by digit. *)
Example closures_alike_example :
  closures_alike eq (pair_alike (λ x d, d = x mod 10) (λ x d, d = x mod 10)) eq
    (pure_compare digit_cmp) (pure_compare Nat.compare).
Proof. intros s ? [a b] [a' b'] <- [Ha Hb]. simpl in *. by subst. Qed.

(** A run: both move the elements in the same way. *)
Example data_independent_example :
  let l := map (λ i, i * 37 mod 200) (seq 0 60) in
  let '(r1, _, l1) := run (pure_compare digit_cmp) (sort_unstable_by cfg_debug64 60) tt l in
  let '(r2, _, l2) := run (pure_compare Nat.compare) (sort_unstable_by cfg_debug64 60) tt (map (λ x, x mod 10) l) in
  r1 = Done tt ∧ r2 = Done tt ∧ l2 = map (λ x, x mod 10) l1 ∧ l1 ≠ l ∧ take 3 l2 = [0; 0; 0].
Proof. vm_compute. repeat split; congruence. Qed.

(** A closure that ignores its arguments and answers by counting its calls: any two
    arrays of the same length are rearranged in the same way. *)
Example counting_closure_example :
  closures_alike eq (pair_alike (λ _ _, True) (λ _ _, True)) eq silly silly.
Proof. intros s ? q q' <- _. done. Qed.
