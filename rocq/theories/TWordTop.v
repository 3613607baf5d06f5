(** * TWordTop: the methods with [usize] arithmetic. *)
From Verif Require Export TWordMerge TSearch PDedup.
From Coq Require Import NArith.

Lemma run_logged_outcome {T Q R S A} (o : S → Q → R * S) (p : prog T Q R A) s l r s' tr l' :
  run (logged o) p (s, []) l = (r, (s', tr), l') → run o p s l = (r, s', l').
Proof. intros H. by rewrite (run_logged o p s [] l), H. Qed.

(** The same build with or without overflow checks. *)
Definition checked (c : cfg) (b : bool) : cfg :=
  {| dbg := dbg c; ovf := b; wide := wide c; zst := zst c |}.

Section top.
  Context {T S : Type} (c : cfg).
  Implicit Types (l : list T).

  Lemma quick_sort_word (o : S → T * T → option bool * S) s l : allowed c (length l) →
    run o (quick_sort_w c (length l)) s l = run o (quick_sort c (length l)) s l.
  Proof.
    intros Hn. eapply tracks_run; [by apply tracks_quick_sort|].
    destruct (quick_sort_all c o s l) as (r & s' & l' & -> & [->| ->] & _); [done|].
    by intros [|].
  Qed.
  Lemma stable_sort_word (o : S → T * T → option bool * S) s l : allowed c (length l) →
    run o (stable_sort_w c (length l)) s l = run o (stable_sort c (length l)) s l.
  Proof.
    intros Hn. eapply tracks_run; [by apply tracks_stable_sort|].
    destruct (stable_sort_all c o s l) as (r & s' & l' & -> & [->| ->] & _); [done|].
    by intros [|].
  Qed.
  Lemma select_word (o : S → T * T → option bool * S) s index l : allowed c (length l) →
    run o (partition_at_index_w c (length l) index) s l = run o (partition_at_index c (length l) index) s l.
  Proof.
    intros Hn. eapply tracks_run; [by apply tracks_partition_at_index|].
    destruct (decide (index < length l)).
    - destruct (select_nth_all c o s index l) as (r & s' & l' & -> & _ & [->|[->|[-> _]]]); [done|done|..];
        by intros [|].
    - rewrite select_nth_out_of_range by lia. by intros [|].
  Qed.
  Lemma select_many_word (o : S → T * T → option bool * S) s inds l : allowed c (length l) →
    ovf c = false ∨ valid_indices 0 (length l) inds →
    run o (select_many_w c (length l) inds) s l = run o (select_many c (length l) inds) s l.
  Proof.
    intros Hn Hv. eapply tracks_run; [by apply tracks_select_many|].
    destruct (select_many_all c o s inds l)
      as (r & s' & l' & -> & _ & [[-> _]|[->|[[-> _]|[[->|[-> ?]] ?]]]]); try done; try by intros [|].
    - unfold fits, allowed, words in *. destruct (wide c); lia.
    - destruct Hv; [congruence|done].
  Qed.
  Lemma binary_search_by_word (o : S → T → option comparison * S) s l : allowed c (length l) →
    run o (binary_search_by_w c (length l)) s l = run o (binary_search_by c (length l)) s l.
  Proof.
    intros Hn. eapply tracks_run; [by apply tracks_binary_search_by|].
    destruct (binary_search_by_any c o s l) as (r & s' & tr & Hr%run_logged_outcome & _ & H).
    rewrite Hr. destruct r as [|e| |]; cbn in *; try done. destruct H as [-> _]. by intros [|].
  Qed.
  Lemma partition_dedup_by_word (o : S → T * T → dedup_answer T * S) s l : allowed c (length l) →
    run o (partition_dedup_by_w c (length l)) s l = run o (partition_dedup_by (length l)) s l.
  Proof.
    intros Hn. eapply tracks_run; [by apply tracks_partition_dedup_by|].
    destruct (partition_dedup_by_any o s l) as (r & s' & tr & l' & Hr%run_logged_outcome & _ & H).
    rewrite Hr. destruct r as [|e| |]; cbn in *; try done. destruct H as [-> _]. by intros [|].
  Qed.

  Lemma quick_sort_by_word (o : S → T * T → option comparison * S) s l : allowed c (length l) →
    run o (by_compare (quick_sort_w c (length l))) s l = run o (sort_unstable_by c (length l)) s l.
  Proof. intros. unfold sort_unstable_by. rewrite !run_by_compare. by apply quick_sort_word. Qed.
  Lemma stable_sort_by_word (o : S → T * T → option comparison * S) s l : allowed c (length l) →
    run o (by_compare (stable_sort_w c (length l))) s l = run o (sort_by c (length l)) s l.
  Proof. intros. unfold sort_by. rewrite !run_by_compare. by apply stable_sort_word. Qed.
  Lemma select_by_word (o : S → T * T → option comparison * S) s index l : allowed c (length l) →
    run o (by_compare (partition_at_index_w c (length l) index)) s l =
    run o (select_nth_unstable_by c (length l) index) s l.
  Proof. intros. unfold select_nth_unstable_by. rewrite !run_by_compare. by apply select_word. Qed.
  Lemma select_many_by_word (o : S → T * T → option comparison * S) s inds l : allowed c (length l) →
    ovf c = false ∨ valid_indices 0 (length l) inds →
    run o (by_compare (select_many_w c (length l) inds)) s l =
    run o (select_many_nth_unstable_by c (length l) inds) s l.
  Proof. intros. unfold select_many_nth_unstable_by. rewrite !run_by_compare. by apply select_many_word. Qed.

  (** ** Overflow checks make no difference. *)
  Lemma quick_sort_checked b n : quick_sort (T:=T) (checked c b) n = quick_sort c n.
  Proof. by destruct c. Qed.
  Lemma stable_sort_checked b n : stable_sort (T:=T) (checked c b) n = stable_sort c n.
  Proof. by destruct c. Qed.
  Lemma partition_at_index_checked b n i : partition_at_index (T:=T) (checked c b) n i = partition_at_index c n i.
  Proof. by destruct c. Qed.
  Lemma binary_search_by_checked b n : binary_search_by (T:=T) (checked c b) n = binary_search_by c n.
  Proof. by destruct c. Qed.
End top.

Section keys.
  Context {T S K : Type} (c : cfg) (o : S → key_question (T:=T) K → key_answer K * S).
  Implicit Types (l : list T).

  Lemma quick_sort_by_key_word s l : allowed c (length l) →
    run o (by_key (quick_sort_w c (length l))) s l = run o (sort_unstable_by_key c (length l)) s l.
  Proof. intros. unfold sort_unstable_by_key. rewrite !run_by_key. by apply quick_sort_word. Qed.
  Lemma stable_sort_by_key_word s l : allowed c (length l) →
    run o (by_key (stable_sort_w c (length l))) s l = run o (sort_by_key c (length l)) s l.
  Proof. intros. unfold sort_by_key. rewrite !run_by_key. by apply stable_sort_word. Qed.
  Lemma select_by_key_word s index l : allowed c (length l) →
    run o (by_key (partition_at_index_w c (length l) index)) s l =
    run o (select_nth_unstable_by_key c (length l) index) s l.
  Proof. intros. unfold select_nth_unstable_by_key. rewrite !run_by_key. by apply select_word. Qed.
  Lemma select_many_by_key_word s inds l : allowed c (length l) →
    ovf c = false ∨ valid_indices 0 (length l) inds →
    run o (by_key (select_many_w c (length l) inds)) s l =
    run o (select_many_nth_unstable_by_key c (length l) inds) s l.
  Proof. intros. unfold select_many_nth_unstable_by_key. rewrite !run_by_key. by apply select_many_word. Qed.
End keys.

Lemma checked_word {T S : Type} (c : cfg) (o : S → T * T → option bool * S) s index (l : list T) :
  allowed c (length l) →
  run o (quick_sort_w (checked c true) (length l)) s l =
    run o (quick_sort_w (checked c false) (length l)) s l ∧
  run o (stable_sort_w (checked c true) (length l)) s l =
    run o (stable_sort_w (checked c false) (length l)) s l ∧
  run o (partition_at_index_w (checked c true) (length l) index) s l =
    run o (partition_at_index_w (checked c false) (length l) index) s l.
Proof.
  intros H. assert (Hb : ∀ b, allowed (checked c b) (length l)) by (intros b; exact H).
  split; [|split].
  - rewrite (quick_sort_word (checked c true) o s l (Hb true)).
    rewrite (quick_sort_word (checked c false) o s l (Hb false)).
    rewrite (quick_sort_checked c true), (quick_sort_checked c false). reflexivity.
  - rewrite (stable_sort_word (checked c true) o s l (Hb true)).
    rewrite (stable_sort_word (checked c false) o s l (Hb false)).
    rewrite (stable_sort_checked c true), (stable_sort_checked c false). reflexivity.
  - rewrite (select_word (checked c true) o s index l (Hb true)).
    rewrite (select_word (checked c false) o s index l (Hb false)).
    rewrite (partition_at_index_checked c true), (partition_at_index_checked c false). reflexivity.
Qed.
