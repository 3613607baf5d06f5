(** * Proofs of the theorems of PropParCompose.v. *)
From Verif Require Export TParMerge TPrep TCached.
From stdpp Require Import list.

Lemma every_schedule_mono {T Q R A} (ans : Q → R → Prop) (p : prog T Q R A) l
    (Φ Φ' : A → list T → Prop) (E E' : exn → list T → Prop) :
  (∀ a l', Φ a l' → Φ' a l') → (∀ e l', E e l' → E' e l') →
  every_schedule ans p l Φ E → every_schedule ans p l Φ' E'.
Proof. intros H1 H2 [? ? ? ? H5 H6]. split; auto. Qed.

Section agree.
  Context {T : Type} (c : cfg).
  Implicit Types (l junk : list T).

  Lemma stable_sorts_agree {S} (sz : sizes) (take_item : nat → bool) (lt : T → T → bool)
      (o : S → ck_question T T → ck_answer T * S) s l junk :
    strict_weak_order lt → (zst c = true → ∀ x y : T, x = y) →
    cached_env lt id o → fits c (length l) → length junk = length l →
    ∃ l', run (pure_less lt) (MApi.sort c (length l)) tt l = (Done tt, tt, l') ∧
      (∃ s', run o (sort_by_cached_key c sz (length l)) s l = (Done tt, s', l')) ∧
      (∃ s', run o (par_sort_by_cached_key c sz (length l)) s l = (Done tt, s', l')) ∧
      every_schedule (ans_lt lt) (par_sort c take_item (length l)) (l ++ junk)
        (λ _ m, take (length l) m = l') (λ _ _, False).
  Proof.
    intros Hs Hz Hc Hf HJ.
    destruct (cached_key_agrees_with_sort c sz lt o s l Hs Hz Hc Hf) as (l' & H1 & H2 & H3).
    exists l'. split; [done|]. split; [done|]. split; [done|].
    eapply every_schedule_mono; [| |by apply par_sort_schedules]; [|done].
    intros _ m (Hp & Hso & Ho). symmetry.
    destruct (stable_sort_sorts c lt l Hs Hz) as (l2 & Hr & Hp2 & Hs2 & Ho2).
    assert (l2 = l') as ->.
    { unfold MApi.sort in H1. rewrite Hr in H1. by injection H1. }
    apply (stable_unique lt); [done| |done|done|].
    - by rewrite <-Hp2.
    - intros x. etrans; [apply Ho|symmetry; apply Ho2].
  Qed.

  Lemma par_unstable_agrees (lt : T → T → bool) l :
    strict_weak_order lt → (zst c = true → ∀ x y : T, x = y) →
    (∀ x y, x ∈ l → y ∈ l → equivb lt x y = true → x = y) →
    ∃ l', run (pure_less lt) (MApi.sort c (length l)) tt l = (Done tt, tt, l') ∧
      run (pure_less lt) (sort_unstable c (length l)) tt l = (Done tt, tt, l') ∧
      every_schedule (ans_lt lt) (par_sort_unstable c (length l)) l
        (λ _ m, m = l') (λ _ _, False).
  Proof.
    intros Hs Hz Heq.
    destruct (stable_sort_sorts c lt l Hs Hz) as (l' & Hr & Hp & Hso & Ho).
    exists l'. split; [exact Hr|]. split.
    { rewrite (sort_agrees c lt l Hs Hz Heq). exact Hr. }
    eapply every_schedule_mono; [| |by apply par_sort_unstable_schedules]; [|done].
    intros _ m (Hp2 & Hso2). symmetry. apply (sorted_unique lt); [done| | |done|done].
    - intros x y Hx Hy. apply Heq; by rewrite Hp.
    - by rewrite <-Hp.
  Qed.

  (** C40 for the parallel sorts. *)
  Definition searchable (cmp : T → T → comparison) (eqf : T → T → bool) (x : T) (l l' : list T) : Prop :=
    run (pure_less (is_le cmp)) (is_sorted_by (length l')) tt l' = (Done true, tt, l') ∧
    ∃ r b, run (pure_compare cmp) (binary_search c (length l') x) tt l' = (Done r, tt, l') ∧
      run (pure_less eqf) (contains (length l) x) tt l = (Done b, tt, l) ∧
      match r with
      | Found i => b = true ∧ ∃ y, l' !! i = Some y ∧ eqf y x = true
      | Missing _ => b = false
      end.
  Lemma par_sort_then_search_lemma (take_item : nat → bool) cmp eqf (x : T) l junk :
    ord_compare cmp → (∀ a b, eqf a b = true ↔ cmp a b = Eq) →
    (zst c = true → ∀ x y : T, x = y) → length junk = length l →
    every_schedule (ans_lt (is_lt cmp)) (par_sort c take_item (length l)) (l ++ junk)
      (λ _ m, searchable cmp eqf x l (take (length l) m)) (λ _ _, False) ∧
    every_schedule (ans_lt (is_lt cmp)) (par_sort_unstable c (length l)) l
      (λ _ l', searchable cmp eqf x l l') (λ _ _, False).
  Proof.
    intros Ho He Hz HJ. split.
    - eapply every_schedule_mono; [| |apply par_sort_schedules]; [|done|by apply oc_swo|done|done].
      intros _ m (Hp & Hs & _). by apply sorted_then_search.
    - eapply every_schedule_mono; [| |apply par_sort_unstable_schedules]; [|done|by apply oc_swo|done].
      intros _ m (Hp & Hs). by apply sorted_then_search.
  Qed.
End agree.

(** C41 for the parallel selection. *)
Lemma par_prepared_indices_accepted {T} (ci c : cfg) (ans : T * T → option comparison → Prop)
    (vlen : nat) (inds : list nat) (l : list T) :
  zst ci = false → dbg c = false → fits c (length l) →
  Forall (λ i, i < length l) inds → length inds ≤ vlen →
  (∀ q, ∃ r, ans q r) → (∀ q, ¬ ans q None) →
  ∃ inds1 v1 v2 inds2,
    run (pure_less Nat.ltb) (sort_unstable ci (length inds)) tt inds = (Done tt, tt, inds1) ∧
    run (pure_less Nat.eqb) (partition_dedup (length inds1)) tt inds1 =
      (Done (v1, v2), tt, inds2) ∧
    NoDup (view_elems inds2 v1) ∧ (∀ i, i ∈ view_elems inds2 v1 ↔ i ∈ inds) ∧
    every_schedule ans (par_select_many_nth_unstable_by c (length l) vlen (view_elems inds2 v1)) l
      (λ r l', r = map Some (view_elems inds2 v1) ∧ Permutation l l') (λ _ _, False).
Proof.
  intros Hzi Hd Hf Hin Hv Ht Hn.
  destruct (prepare_indices ci inds Hzi) as (inds1 & v1 & v2 & inds2 & H1 & H2 & H3 & H4).
  exists inds1, v1, v2, inds2.
  pose proof (strictly_increasing_NoDup _ H3) as Hnd.
  split_and!; [exact H1|exact H2|exact Hnd|exact H4|].
  assert (Hval : valid_indices 0 (length l) (view_elems inds2 v1)).
  { split; [done|]. apply Forall_forall. intros i Hi. apply H4 in Hi.
    rewrite Forall_forall in Hin. apply Hin in Hi. lia. }
  assert (Hlen : length (view_elems inds2 v1) ≤ vlen).
  { trans (length inds); [|done]. apply submseteq_length, NoDup_submseteq; [done|].
    intros i. apply H4. }
  eapply every_schedule_mono; [| |by apply par_select_many_by_all_schedules].
  - intros r l' (_ & Hr & Hp). done.
  - intros e l' [_ [[_ [q Hq]]|[[_ Hd']|[Hnv _]]]]; [by eapply Hn|congruence|done].
Qed.
