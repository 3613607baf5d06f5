(** * TOwnsLog: the calls of the closure, and the contents of the array, in every
    schedule of the entry points. *)
From Verif Require Export OwnsSpec TOwnsPar.
From stdpp Require Import list.

Lemma schedule_log_answers {T Q R A} (ans ans' : Q → R → Prop) tr (c c' : prog T Q R A * list T) :
  schedule_log ans tr c c' → (∀ q r, (q, r) ∈ tr → ans' q r) → schedule_log ans' tr c c'.
Proof.
  induction 1 as [c|q r tr p p' l c Hq Hs Hm IH|tr c c' c'' Hs Hm IH]; intros Ha.
  - apply log_none.
  - eapply log_call; [apply Ha; by left|exact Hs|]. apply IH. intros q' r' Hin. apply Ha. by right.
  - eapply log_step; [exact Hs|]. by apply IH.
Qed.

Section generic.
  Context {T A : Type} (p : cmp_prog T A) (l junk : list T).
  Hypothesis p_owns : whole (λ x, x ∈ l) (length l) p (λ _, True).

  Lemma init_holds : holds (λ x, x ∈ l) (λ i, i < length l) (l ++ junk).
  Proof.
    intros i x Hi Hx. rewrite lookup_app_l in Hx by done. by eapply elem_of_list_lookup_2.
  Qed.
  Lemma holds_only_of (m : cells) mem :
    (∀ i, i < length l → m i) → holds (λ x, x ∈ l) m mem → holds_only l mem.
  Proof.
    intros Hm Hh. apply Forall_lookup_2. intros i x Hx. apply lookup_take_Some in Hx as [Hx Hi].
    eauto.
  Qed.
  Lemma owns_log_less (ans : T * T → option bool → Prop) tr p' m :
    schedule_log ans tr (p, l ++ junk) (p', m) → compares_only l tr ∧ holds_only l m.
  Proof.
    intros Hs.
    pose proof (p_owns (λ i, i < length l) (λ _ H, H)) as Ho.
    apply (owns_fewer_answers _ _ _ ans) in Ho; [|done].
    destruct (owns_schedule _ _ _ _ _ _ _ _ _ _ _ Hs Ho init_holds) as (Hf & m' & Hm & _ & Hh).
    split; [exact Hf|]. by eapply holds_only_of.
  Qed.
  Lemma owns_log_compare (ans : T * T → option comparison → Prop) tr p' m :
    schedule_log ans tr (by_compare p, l ++ junk) (p', m) → compares_only l tr ∧ holds_only l m.
  Proof.
    intros Hs.
    pose proof (owns_by_compare _ _ _ _ _ (p_owns (λ i, i < length l) (λ _ H, H))) as Ho.
    apply (owns_fewer_answers _ _ _ ans) in Ho; [|done].
    destruct (owns_schedule _ _ _ _ _ _ _ _ _ _ _ Hs Ho init_holds) as (Hf & m' & Hm & _ & Hh).
    split; [exact Hf|]. by eapply holds_only_of.
  Qed.
  Lemma owns_log_key {K} (ans : key_question (T:=T) K → key_answer K → Prop) tr p' m :
    schedule_log ans tr (by_key p, l ++ junk) (p', m) → key_compares_only l tr ∧ holds_only l m.
  Proof.
    intros Hs.
    pose proof (owns_by_key _ (λ k, ∃ a, a ∈ l ∧ (KeyOf a, AKey k) ∈ tr) _ _ _ _
      (p_owns (λ i, i < length l) (λ _ H, H))) as Ho.
    apply (owns_fewer_answers _ _ _ (λ q r, (q, r) ∈ tr)) in Ho.
    2: { intros [a|k1 k2] [k|b|] Hin; simpl; auto. eauto. }
    apply (schedule_log_answers _ (λ q r, (q, r) ∈ tr)) in Hs; [|done].
    destruct (owns_schedule _ _ _ _ _ _ _ _ _ _ _ Hs Ho init_holds) as (Hf & m' & Hm & _ & Hh).
    split; [|by eapply holds_only_of]. eapply Forall_impl; [exact Hf|]. by intros [[a|k1 k2] r].
  Qed.
End generic.

Section theorems.
  Context {T : Type} (c : cfg).
  Implicit Types (l junk m : list T).

  Lemma sort_elements (ans : T * T → option bool → Prop) l junk tr p' m :
    schedule_log ans tr (MApi.sort c (length l), l ++ junk) (p', m) →
    compares_only l tr ∧ holds_only l m.
  Proof. apply owns_log_less, stable_sort_owns. Qed.
  Lemma sort_by_elements (ans : T * T → option comparison → Prop) l junk tr p' m :
    schedule_log ans tr (sort_by c (length l), l ++ junk) (p', m) →
    compares_only l tr ∧ holds_only l m.
  Proof. apply owns_log_compare, stable_sort_owns. Qed.
  Lemma sort_by_key_elements {K} (ans : key_question (T:=T) K → key_answer K → Prop) l junk tr p' m :
    schedule_log ans tr (sort_by_key c (length l), l ++ junk) (p', m) →
    key_compares_only l tr ∧ holds_only l m.
  Proof. apply owns_log_key, stable_sort_owns. Qed.
  Lemma sort_unstable_elements (ans : T * T → option bool → Prop) l junk tr p' m :
    schedule_log ans tr (sort_unstable c (length l), l ++ junk) (p', m) →
    compares_only l tr ∧ holds_only l m.
  Proof. apply owns_log_less, quick_sort_owns. Qed.
  Lemma sort_unstable_by_elements (ans : T * T → option comparison → Prop) l junk tr p' m :
    schedule_log ans tr (sort_unstable_by c (length l), l ++ junk) (p', m) →
    compares_only l tr ∧ holds_only l m.
  Proof. apply owns_log_compare, quick_sort_owns. Qed.
  Lemma sort_unstable_by_key_elements {K} (ans : key_question (T:=T) K → key_answer K → Prop) l junk tr p' m :
    schedule_log ans tr (sort_unstable_by_key c (length l), l ++ junk) (p', m) →
    key_compares_only l tr ∧ holds_only l m.
  Proof. apply owns_log_key, quick_sort_owns. Qed.
  Lemma select_nth_unstable_elements (ans : T * T → option bool → Prop) (index : nat) l junk tr p' m :
    schedule_log ans tr (select_nth_unstable c (length l) index, l ++ junk) (p', m) →
    compares_only l tr ∧ holds_only l m.
  Proof. apply owns_log_less, partition_at_index_owns. Qed.
  Lemma select_nth_unstable_by_elements (ans : T * T → option comparison → Prop) (index : nat) l junk tr p' m :
    schedule_log ans tr (select_nth_unstable_by c (length l) index, l ++ junk) (p', m) →
    compares_only l tr ∧ holds_only l m.
  Proof. apply owns_log_compare, partition_at_index_owns. Qed.
  Lemma select_nth_unstable_by_key_elements {K} (ans : key_question (T:=T) K → key_answer K → Prop) (index : nat) l junk tr p' m :
    schedule_log ans tr (select_nth_unstable_by_key c (length l) index, l ++ junk) (p', m) →
    key_compares_only l tr ∧ holds_only l m.
  Proof. apply owns_log_key, partition_at_index_owns. Qed.
  Lemma select_many_nth_unstable_elements (ans : T * T → option bool → Prop) (inds : list nat) l junk tr p' m :
    schedule_log ans tr (select_many_nth_unstable c (length l) inds, l ++ junk) (p', m) →
    compares_only l tr ∧ holds_only l m.
  Proof. apply owns_log_less, select_many_owns. Qed.
  Lemma select_many_nth_unstable_by_elements (ans : T * T → option comparison → Prop) (inds : list nat) l junk tr p' m :
    schedule_log ans tr (select_many_nth_unstable_by c (length l) inds, l ++ junk) (p', m) →
    compares_only l tr ∧ holds_only l m.
  Proof. apply owns_log_compare, select_many_owns. Qed.
  Lemma select_many_nth_unstable_by_key_elements {K} (ans : key_question (T:=T) K → key_answer K → Prop) (inds : list nat) l junk tr p' m :
    schedule_log ans tr (select_many_nth_unstable_by_key c (length l) inds, l ++ junk) (p', m) →
    key_compares_only l tr ∧ holds_only l m.
  Proof. apply owns_log_key, select_many_owns. Qed.
  Lemma par_sort_elements (ans : T * T → option bool → Prop) (take_item : nat → bool) l junk tr p' m :
    schedule_log ans tr (par_sort c take_item (length l), l ++ junk) (p', m) →
    compares_only l tr ∧ holds_only l m.
  Proof. apply owns_log_less, par_merge_sort_owns. Qed.
  Lemma par_sort_by_elements (ans : T * T → option comparison → Prop) (take_item : nat → bool) l junk tr p' m :
    schedule_log ans tr (par_sort_by c take_item (length l), l ++ junk) (p', m) →
    compares_only l tr ∧ holds_only l m.
  Proof. apply owns_log_compare, par_merge_sort_owns. Qed.
  Lemma par_sort_by_key_elements {K} (ans : key_question (T:=T) K → key_answer K → Prop) (take_item : nat → bool) l junk tr p' m :
    schedule_log ans tr (par_sort_by_key c take_item (length l), l ++ junk) (p', m) →
    key_compares_only l tr ∧ holds_only l m.
  Proof. apply owns_log_key, par_merge_sort_owns. Qed.
  Lemma par_sort_unstable_elements (ans : T * T → option bool → Prop) l junk tr p' m :
    schedule_log ans tr (par_sort_unstable c (length l), l ++ junk) (p', m) →
    compares_only l tr ∧ holds_only l m.
  Proof. apply owns_log_less, par_quick_sort_owns. Qed.
  Lemma par_sort_unstable_by_elements (ans : T * T → option comparison → Prop) l junk tr p' m :
    schedule_log ans tr (par_sort_unstable_by c (length l), l ++ junk) (p', m) →
    compares_only l tr ∧ holds_only l m.
  Proof. apply owns_log_compare, par_quick_sort_owns. Qed.
  Lemma par_sort_unstable_by_key_elements {K} (ans : key_question (T:=T) K → key_answer K → Prop) l junk tr p' m :
    schedule_log ans tr (par_sort_unstable_by_key c (length l), l ++ junk) (p', m) →
    key_compares_only l tr ∧ holds_only l m.
  Proof. apply owns_log_key, par_quick_sort_owns. Qed.
  Lemma par_select_many_nth_unstable_elements (ans : T * T → option bool → Prop) (vlen : nat) (inds : list nat) l junk tr p' m :
    schedule_log ans tr (par_select_many_nth_unstable c (length l) vlen inds, l ++ junk) (p', m) →
    compares_only l tr ∧ holds_only l m.
  Proof. apply owns_log_less, par_select_many_owns. Qed.
  Lemma par_select_many_nth_unstable_by_elements (ans : T * T → option comparison → Prop) (vlen : nat) (inds : list nat) l junk tr p' m :
    schedule_log ans tr (par_select_many_nth_unstable_by c (length l) vlen inds, l ++ junk) (p', m) →
    compares_only l tr ∧ holds_only l m.
  Proof. apply owns_log_compare, par_select_many_owns. Qed.
  Lemma par_select_many_nth_unstable_by_key_elements {K} (ans : key_question (T:=T) K → key_answer K → Prop) (vlen : nat) (inds : list nat) l junk tr p' m :
    schedule_log ans tr (par_select_many_nth_unstable_by_key c (length l) vlen inds, l ++ junk) (p', m) →
    key_compares_only l tr ∧ holds_only l m.
  Proof. apply owns_log_key, par_select_many_owns. Qed.

  (** A closure with a state answers like some relation. *)
  Lemma run_is_schedule {Q R S A} (o : S → Q → R * S) (p : prog T Q R A) s l r s' tr m :
    run (logged o) p (s, []) l = (r, (s', tr), m) →
    ∃ p', schedule_log (λ _ _, True) tr (p, l) (p', m).
  Proof.
    intros Hr. pose proof (run_schedule_log (λ _ _, True) o p (λ _ _, I) s [] l) as H.
    rewrite Hr in H. destruct H as (tr2 & p' & -> & Hs & _). eauto.
  Qed.
End theorems.
