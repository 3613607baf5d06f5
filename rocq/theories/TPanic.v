(** * TPanic: the panic of a closure is the last call and the one that leaves. *)
From Verif Require Export Polite TSortUnstable TSort TSelect.
From stdpp Require Import list.

(** What a log of closure calls says about panics. *)
Definition calm {Q R} (tr : list (Q * option R)) : Prop :=
  Forall (λ e, e.2 ≠ None) tr.
Definition ends_in_panic {Q R} (tr : list (Q * option R)) : Prop :=
  ∃ tr0 q, tr = tr0 ++ [(q, None)] ∧ calm tr0.

Lemma polite_log {T Q R A S} (o : S → Q → option R * S) (p : prog T Q (option R) A) s l r s' tr l' :
  polite none_bad p → run (logged o) p (s, []) l = (r, (s', tr), l') →
  (calm tr ∧ r ≠ Panicked UserPanic) ∨ (ends_in_panic tr ∧ ∀ a, r ≠ Done a).
Proof.
  intros Hp Hr.
  destruct (polite_run none_bad o p _ s [] l r s' tr l' Hp Hr)
    as (tr2 & -> & [[Hf Hn]|(tr0 & [q a] & -> & He & Hf & Hn)]); simpl.
  - left. split; [|done]. eapply Forall_impl; [exact Hf|]. intros [? ?] Hx. exact Hx.
  - right. split; [|done]. exists tr0, q. unfold none_bad in He. simpl in He. subst a.
    split; [done|]. eapply Forall_impl; [exact Hf|]. intros [? ?] Hx. exact Hx.
Qed.

(** Key closures. *)
Definition key_calm {T K} (tr : list (key_question (T:=T) K * key_answer K)) : Prop :=
  Forall (λ e, ¬ key_bad e.1 e.2) tr.
Definition ends_in_key_panic {T K} (tr : list (key_question (T:=T) K * key_answer K)) : Prop :=
  ∃ tr0 e, tr = tr0 ++ [e] ∧ key_bad e.1 e.2 ∧ key_calm tr0.
Lemma polite_key_log {T K A S} (o : S → key_question (T:=T) K → key_answer K * S)
  (p : prog T (key_question K) (key_answer K) A) s l r s' tr l' :
  polite key_bad p → run (logged o) p (s, []) l = (r, (s', tr), l') →
  (key_calm tr ∧ r ≠ Panicked UserPanic) ∨ (ends_in_key_panic tr ∧ ∀ a, r ≠ Done a).
Proof.
  intros Hp Hr.
  destruct (polite_run key_bad o p _ s [] l r s' tr l' Hp Hr)
    as (tr2 & -> & [[Hf Hn]|(tr0 & e & -> & He & Hf & Hn)]); simpl.
  - by left.
  - right. split; [|done]. exists tr0, e. auto.
Qed.

Section propagate.
  Context {T S : Type} (c : cfg).

  Lemma sort_unstable_by_panics (o : S → T * T → option comparison * S) s l :
    ∃ r s' tr l', run (logged o) (sort_unstable_by c (length l)) (s, []) l = (r, (s', tr), l') ∧
      Permutation l l' ∧
      (r = Done tt ∧ calm tr ∨ r = Panicked UserPanic ∧ ends_in_panic tr).
  Proof.
    assert (Hp : polite none_bad (sort_unstable_by (T:=T) c (length l))).
    { apply polite_by_compare, quick_sort_polite. }
    destruct (run (logged o) (sort_unstable_by c (length l)) (s, []) l)
      as [[r [s' tr]] l'] eqn:Hr.
    exists r, s', tr, l'. split; [done|].
    pose proof (polite_log o _ s l _ _ _ _ Hp Hr) as Hlog.
    unfold sort_unstable_by in Hr. rewrite run_by_compare in Hr.
    destruct (quick_sort_all c (less_of_compare (logged o)) (s, []) l)
      as (r2 & s2 & l2 & Hr2 & Hcase & Hperm).
    rewrite Hr2 in Hr. simplify_eq. split; [done|].
    destruct Hlog as [[? Hn]|[? Hn]], Hcase as [->| ->]; auto; by edestruct Hn.
  Qed.

  Lemma sort_by_panics (o : S → T * T → option comparison * S) s l :
    ∃ r s' tr l', run (logged o) (sort_by c (length l)) (s, []) l = (r, (s', tr), l') ∧
      Permutation l l' ∧
      (r = Done tt ∧ calm tr ∨ r = Panicked UserPanic ∧ ends_in_panic tr).
  Proof.
    assert (Hp : polite none_bad (sort_by (T:=T) c (length l))).
    { apply polite_by_compare, stable_sort_polite. }
    destruct (run (logged o) (sort_by c (length l)) (s, []) l)
      as [[r [s' tr]] l'] eqn:Hr.
    exists r, s', tr, l'. split; [done|].
    pose proof (polite_log o _ s l _ _ _ _ Hp Hr) as Hlog.
    unfold sort_by in Hr. rewrite run_by_compare in Hr.
    destruct (stable_sort_all c (less_of_compare (logged o)) (s, []) l)
      as (r2 & s2 & l2 & Hr2 & Hcase & Hperm).
    rewrite Hr2 in Hr. simplify_eq. split; [done|].
    destruct Hlog as [[? Hn]|[? Hn]], Hcase as [->| ->]; auto; by edestruct Hn.
  Qed.

  Lemma select_nth_unstable_by_panics (o : S → T * T → option comparison * S) s index l :
    dbg c = false → index < length l →
    ∃ r s' tr l', run (logged o) (select_nth_unstable_by c (length l) index) (s, []) l =
        (r, (s', tr), l') ∧
      Permutation l l' ∧
      (r = Done ((0, index), index, (index + 1, length l - (index + 1))) ∧ calm tr ∨
       r = Panicked UserPanic ∧ ends_in_panic tr).
  Proof.
    intros Hdbg Hi.
    assert (Hp : polite none_bad (select_nth_unstable_by (T:=T) c (length l) index)).
    { apply polite_by_compare, partition_at_index_polite. }
    destruct (run (logged o) (select_nth_unstable_by c (length l) index) (s, []) l)
      as [[r [s' tr]] l'] eqn:Hr.
    exists r, s', tr, l'. split; [done|].
    pose proof (polite_log o _ s l _ _ _ _ Hp Hr) as Hlog.
    unfold select_nth_unstable_by in Hr. rewrite run_by_compare in Hr.
    destruct (select_nth_all c (less_of_compare (logged o)) (s, []) index l Hi)
      as (r2 & s2 & l2 & Hr2 & Hperm & Hcase).
    unfold select_nth_unstable in Hr2. rewrite Hr2 in Hr. simplify_eq. split; [done|].
    destruct Hcase as [->|[->|[-> ?]]]; [..|congruence];
      destruct Hlog as [[? Hn]|[? Hn]]; auto; by edestruct Hn.
  Qed.

  Lemma select_many_nth_unstable_by_panics (o : S → T * T → option comparison * S) s inds l :
    dbg c = false → fits c (length l) → valid_indices 0 (length l) inds →
    ∃ r s' tr l', run (logged o) (select_many_nth_unstable_by c (length l) inds) (s, []) l =
        (r, (s', tr), l') ∧
      Permutation l l' ∧
      (r = Done (map (λ i, (i, i)) inds) ∧ calm tr ∨
       r = Panicked UserPanic ∧ ends_in_panic tr).
  Proof.
    intros Hdbg Hf Hv.
    assert (Hp : polite none_bad (select_many_nth_unstable_by (T:=T) c (length l) inds)).
    { apply polite_by_compare, select_many_polite. }
    destruct (run (logged o) (select_many_nth_unstable_by c (length l) inds) (s, []) l)
      as [[r [s' tr]] l'] eqn:Hr.
    exists r, s', tr, l'. split; [done|].
    pose proof (polite_log o _ s l _ _ _ _ Hp Hr) as Hlog.
    unfold select_many_nth_unstable_by in Hr. rewrite run_by_compare in Hr.
    destruct (select_many_all c (less_of_compare (logged o)) (s, []) inds l Hf)
      as (r2 & s2 & l2 & Hr2 & Hperm & Hcase).
    rewrite Hr2 in Hr. simplify_eq. split; [done|].
    destruct Hcase as [[-> _]|[->|[[-> ?]|[? ?]]]]; [| |congruence|done];
      destruct Hlog as [[? Hn]|[? Hn]]; auto; by edestruct Hn.
  Qed.

  (** The key variants. *)
  Lemma sort_unstable_by_key_panics {K} (o : S → key_question (T:=T) K → key_answer K * S) s l :
    ∃ r s' tr l', run (logged o) (sort_unstable_by_key c (length l)) (s, []) l = (r, (s', tr), l') ∧
      Permutation l l' ∧
      (r = Done tt ∧ key_calm tr ∨ r = Panicked UserPanic ∧ ends_in_key_panic tr).
  Proof.
    assert (Hp : polite (key_bad (K:=K)) (sort_unstable_by_key (T:=T) c (length l))).
    { apply polite_by_key, quick_sort_polite. }
    destruct (run (logged o) (sort_unstable_by_key c (length l)) (s, []) l)
      as [[r [s' tr]] l'] eqn:Hr.
    exists r, s', tr, l'. split; [done|].
    pose proof (polite_key_log o _ s l _ _ _ _ Hp Hr) as Hlog.
    unfold sort_unstable_by_key in Hr. rewrite run_by_key in Hr.
    destruct (quick_sort_all c (less_of_key (logged o)) (s, []) l)
      as (r2 & s2 & l2 & Hr2 & Hcase & Hperm).
    rewrite Hr2 in Hr. simplify_eq. split; [done|].
    destruct Hlog as [[? Hn]|[? Hn]], Hcase as [->| ->]; auto; by edestruct Hn.
  Qed.
  Lemma sort_by_key_panics {K} (o : S → key_question (T:=T) K → key_answer K * S) s l :
    ∃ r s' tr l', run (logged o) (sort_by_key c (length l)) (s, []) l = (r, (s', tr), l') ∧
      Permutation l l' ∧
      (r = Done tt ∧ key_calm tr ∨ r = Panicked UserPanic ∧ ends_in_key_panic tr).
  Proof.
    assert (Hp : polite (key_bad (K:=K)) (sort_by_key (T:=T) c (length l))).
    { apply polite_by_key, stable_sort_polite. }
    destruct (run (logged o) (sort_by_key c (length l)) (s, []) l)
      as [[r [s' tr]] l'] eqn:Hr.
    exists r, s', tr, l'. split; [done|].
    pose proof (polite_key_log o _ s l _ _ _ _ Hp Hr) as Hlog.
    unfold sort_by_key in Hr. rewrite run_by_key in Hr.
    destruct (stable_sort_all c (less_of_key (logged o)) (s, []) l)
      as (r2 & s2 & l2 & Hr2 & Hcase & Hperm).
    rewrite Hr2 in Hr. simplify_eq. split; [done|].
    destruct Hlog as [[? Hn]|[? Hn]], Hcase as [->| ->]; auto; by edestruct Hn.
  Qed.
  Lemma select_nth_unstable_by_key_panics {K} (o : S → key_question (T:=T) K → key_answer K * S)
    s index l :
    dbg c = false → index < length l →
    ∃ r s' tr l', run (logged o) (select_nth_unstable_by_key c (length l) index) (s, []) l =
        (r, (s', tr), l') ∧
      Permutation l l' ∧
      (r = Done ((0, index), index, (index + 1, length l - (index + 1))) ∧ key_calm tr ∨
       r = Panicked UserPanic ∧ ends_in_key_panic tr).
  Proof.
    intros Hdbg Hi.
    assert (Hp : polite (key_bad (K:=K)) (select_nth_unstable_by_key (T:=T) c (length l) index)).
    { apply polite_by_key, partition_at_index_polite. }
    destruct (run (logged o) (select_nth_unstable_by_key c (length l) index) (s, []) l)
      as [[r [s' tr]] l'] eqn:Hr.
    exists r, s', tr, l'. split; [done|].
    pose proof (polite_key_log o _ s l _ _ _ _ Hp Hr) as Hlog.
    unfold select_nth_unstable_by_key in Hr. rewrite run_by_key in Hr.
    destruct (select_nth_all c (less_of_key (logged o)) (s, []) index l Hi)
      as (r2 & s2 & l2 & Hr2 & Hperm & Hcase).
    unfold select_nth_unstable in Hr2. rewrite Hr2 in Hr. simplify_eq. split; [done|].
    destruct Hcase as [->|[->|[-> ?]]]; [..|congruence];
      destruct Hlog as [[? Hn]|[? Hn]]; auto; by edestruct Hn.
  Qed.
  Lemma select_many_nth_unstable_by_key_panics {K}
    (o : S → key_question (T:=T) K → key_answer K * S) s inds l :
    dbg c = false → fits c (length l) → valid_indices 0 (length l) inds →
    ∃ r s' tr l', run (logged o) (select_many_nth_unstable_by_key c (length l) inds) (s, []) l =
        (r, (s', tr), l') ∧
      Permutation l l' ∧
      (r = Done (map (λ i, (i, i)) inds) ∧ key_calm tr ∨
       r = Panicked UserPanic ∧ ends_in_key_panic tr).
  Proof.
    intros Hdbg Hf Hv.
    assert (Hp : polite (key_bad (K:=K)) (select_many_nth_unstable_by_key (T:=T) c (length l) inds)).
    { apply polite_by_key, select_many_polite. }
    destruct (run (logged o) (select_many_nth_unstable_by_key c (length l) inds) (s, []) l)
      as [[r [s' tr]] l'] eqn:Hr.
    exists r, s', tr, l'. split; [done|].
    pose proof (polite_key_log o _ s l _ _ _ _ Hp Hr) as Hlog.
    unfold select_many_nth_unstable_by_key in Hr. rewrite run_by_key in Hr.
    destruct (select_many_all c (less_of_key (logged o)) (s, []) inds l Hf)
      as (r2 & s2 & l2 & Hr2 & Hperm & Hcase).
    rewrite Hr2 in Hr. simplify_eq. split; [done|].
    destruct Hcase as [[-> _]|[->|[[-> ?]|[? ?]]]]; [| |congruence|done];
      destruct Hlog as [[? Hn]|[? Hn]]; auto; by edestruct Hn.
  Qed.
End propagate.
