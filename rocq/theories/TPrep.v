(** * Proofs of the theorems of PropPrep.v: sorting then searching, and preparing
    indices for the selection of many positions. *)
From Verif Require Export TCompose.
From stdpp Require Import list.

(** [a <= b] for the [PartialOrd] that agrees with [Ord::cmp]. *)
Definition is_le {T} (cmp : T → T → comparison) (a b : T) : bool :=
  match cmp a b with Gt => false | _ => true end.

Section search_after_sort.
  Context {T : Type} (c : cfg) (cmp : T → T → comparison) (eqf : T → T → bool).

  Lemma sorted_then_search (x : T) (l l' : list T) :
    ord_compare cmp → (∀ a b, eqf a b = true ↔ cmp a b = Eq) →
    Permutation l l' → sorted_wrt (is_lt cmp) l' →
    run (pure_less (is_le cmp)) (is_sorted_by (length l')) tt l' = (Done true, tt, l') ∧
    ∃ r b, run (pure_compare cmp) (binary_search c (length l') x) tt l' = (Done r, tt, l') ∧
      run (pure_less eqf) (contains (length l) x) tt l = (Done b, tt, l) ∧
      match r with
      | Found i => b = true ∧ ∃ y, l' !! i = Some y ∧ eqf y x = true
      | Missing _ => b = false
      end.
  Proof.
    intros Hord Heq Hp Hs. split.
    - destruct (is_sorted_pure (is_le cmp) l') as (b & Hr & Hb). rewrite Hr. repeat f_equal.
      apply Hb. intros i x1 y1 Hx Hy.
      assert (is_lt cmp y1 x1 = false) as Hlt.
      { rewrite <-(take_drop_middle l' i x1 Hx) in Hs. unfold sorted_wrt in Hs.
        apply StronglySorted_app_iff in Hs as (_ & Hs & _). apply StronglySorted_inv in Hs as [_ Hs].
        rewrite Forall_forall in Hs. apply Hs. apply elem_of_list_lookup. exists 0.
        by rewrite lookup_drop, Nat.add_0_r. }
      unfold is_lt, is_le in *. rewrite (oc_opp cmp Hord x1 y1) in Hlt.
      by destruct (cmp x1 y1).
    - destruct (binary_search_sorted c cmp x l' Hord Hs) as (r & Hr & Hres).
      destruct (contains_pure eqf x l) as (b & Hc & Hb). exists r, b.
      split_and!; [done..|]. destruct r as [i|i].
      + destruct Hres as (y & Hy & Hyx). apply Heq in Hyx. split; [|eauto].
        apply Hb. exists y. split; [|done]. rewrite Hp. by eapply elem_of_list_lookup_2.
      + destruct Hres as (_ & Hlo & Hhi). destruct b; [|done]. exfalso.
        destruct (proj1 Hb eq_refl) as (a & Ha & Hax). apply Heq in Hax.
        rewrite Hp, <-(take_drop i l') in Ha. apply elem_of_app in Ha as [Ha|Ha].
        * rewrite Forall_forall in Hlo. apply Hlo in Ha. congruence.
        * rewrite Forall_forall in Hhi. apply Hhi in Ha. congruence.
  Qed.

  Lemma sort_then_search_lemma (x : T) (l : list T) :
    ord_compare cmp → (∀ a b, eqf a b = true ↔ cmp a b = Eq) →
    (zst c = true → ∀ x y : T, x = y) →
    ∀ p, p = MApi.sort c (length l) ∨ p = sort_unstable c (length l) →
    ∃ l', run (pure_less (is_lt cmp)) p tt l = (Done tt, tt, l') ∧
    run (pure_less (is_le cmp)) (is_sorted_by (length l')) tt l' = (Done true, tt, l') ∧
    ∃ r b, run (pure_compare cmp) (binary_search c (length l') x) tt l' = (Done r, tt, l') ∧
      run (pure_less eqf) (contains (length l) x) tt l = (Done b, tt, l) ∧
      match r with
      | Found i => b = true ∧ ∃ y, l' !! i = Some y ∧ eqf y x = true
      | Missing _ => b = false
      end.
  Proof.
    intros Hord Heq Hz p [-> | ->].
    - destruct (stable_sort_sorts c (is_lt cmp) l (oc_swo cmp Hord) Hz) as (l' & Hr & Hp & Hs & _).
      exists l'. split; [done|]. by apply sorted_then_search.
    - destruct (quick_sort_sorts c (is_lt cmp) l (oc_swo cmp Hord) Hz) as (l' & Hr & Hp & Hs).
      exists l'. split; [done|]. by apply sorted_then_search.
  Qed.
End search_after_sort.

(** Removing repetitions from a sorted list of numbers. *)
Lemma keep_firsts_sorted k l :
  StronglySorted Nat.le (k :: l) →
  StronglySorted Nat.lt (k :: keep_firsts Nat.eqb k l) ∧
  (∀ i, i ∈ k :: keep_firsts Nat.eqb k l ↔ i ∈ k :: l).
Proof.
  revert k. induction l as [|y l IH]; intros k Hs; simpl.
  - split; [constructor; constructor|done].
  - apply StronglySorted_inv in Hs as [Hs Hk]. apply Forall_cons in Hk as [Hky Hk].
    destruct (Nat.eqb_spec y k) as [->|Hne].
    + destruct (IH k Hs) as [H1 H2]. split; [done|]. intros i. rewrite H2, !elem_of_cons. tauto.
    + destruct (IH y Hs) as [H1 H2]. split.
      * constructor; [done|]. apply Forall_forall. intros i Hi. apply H2 in Hi.
        assert (y ≤ i). { apply StronglySorted_inv in Hs as [_ Hs]. rewrite Forall_forall in Hs.
          apply elem_of_cons in Hi as [->|Hi]; [done|]. by apply Hs. }
        unfold Nat.le, Nat.lt in *. lia.
      * intros i. rewrite (elem_of_cons _ i k), H2, (elem_of_cons (y :: l) i k). tauto.
Qed.
Lemma firsts_sorted l :
  StronglySorted Nat.le l →
  StronglySorted Nat.lt (firsts Nat.eqb l) ∧ (∀ i, i ∈ firsts Nat.eqb l ↔ i ∈ l).
Proof.
  destruct l as [|k l]; intros Hs; [split; [constructor|done]|]. by apply keep_firsts_sorted.
Qed.

(** The documented preparation gives strictly increasing indices, each original
    index exactly once. *)
Lemma prepare_indices (ci : cfg) (inds : list nat) :
  zst ci = false →
  ∃ inds1 v1 v2 inds2,
    run (pure_less Nat.ltb) (sort_unstable ci (length inds)) tt inds = (Done tt, tt, inds1) ∧
    run (pure_less Nat.eqb) (partition_dedup (length inds1)) tt inds1 =
      (Done (v1, v2), tt, inds2) ∧
    StronglySorted Nat.lt (view_elems inds2 v1) ∧
    (∀ i, i ∈ view_elems inds2 v1 ↔ i ∈ inds).
Proof.
  intros Hz.
  destruct (quick_sort_sorts ci Nat.ltb inds ltb_swo ltac:(congruence)) as (inds1 & Hr & Hp & Hs).
  destruct (partition_dedup_pure Nat.eqb inds1) as (v1 & v2 & inds2 & Hd & Hv1 & _ & _).
  exists inds1, v1, v2, inds2. split; [exact Hr|]. split; [exact Hd|]. rewrite Hv1.
  destruct (firsts_sorted inds1) as [H1 H2].
  - unfold sorted_wrt in Hs. clear -Hs. induction Hs as [|x l ? IH Hf]; constructor; [done|].
    eapply Forall_impl; [exact Hf|]. intros y Hy. cbv beta in Hy. apply Nat.ltb_ge in Hy.
    unfold Nat.le. lia.
  - split; [done|]. intros i. by rewrite H2, Hp.
Qed.

Lemma strictly_increasing_NoDup l : StronglySorted Nat.lt l → NoDup l.
Proof.
  induction 1 as [|x l ? IH Hf]; constructor; [|done].
  intros Hx. rewrite Forall_forall in Hf. apply Hf in Hx. unfold Nat.lt in Hx. lia.
Qed.

Lemma prepared_indices_accepted {T S} (ci c : cfg) (o : S → T * T → option comparison * S) s
    (inds : list nat) (l : list T) :
  zst ci = false → dbg c = false → fits c (length l) →
  Forall (λ i, i < length l) inds → no_panic o →
  ∃ inds1 v1 v2 inds2 s' l',
    run (pure_less Nat.ltb) (sort_unstable ci (length inds)) tt inds = (Done tt, tt, inds1) ∧
    run (pure_less Nat.eqb) (partition_dedup (length inds1)) tt inds1 =
      (Done (v1, v2), tt, inds2) ∧
    NoDup (view_elems inds2 v1) ∧ (∀ i, i ∈ view_elems inds2 v1 ↔ i ∈ inds) ∧
    run o (select_many_nth_unstable_by c (length l) (view_elems inds2 v1)) s l =
      (Done (map (λ i, (i, i)) (view_elems inds2 v1)), s', l') ∧
    Permutation l l'.
Proof.
  intros Hzi Hd Hf Hin Ho.
  destruct (prepare_indices ci inds Hzi) as (inds1 & v1 & v2 & inds2 & H1 & H2 & H3 & H4).
  destruct (select_many_any c (less_of_compare o) s (view_elems inds2 v1) l) as (s' & l' & Hr & Hp);
    [done|done| |by apply no_panic_less_of_compare|].
  - split; [done|]. apply Forall_forall. intros i Hi. apply H4 in Hi.
    rewrite Forall_forall in Hin. apply Hin in Hi. lia.
  - exists inds1, v1, v2, inds2, s', l'.
    split_and!; [exact H1|exact H2|by apply strictly_increasing_NoDup|exact H4| |exact Hp].
    unfold select_many_nth_unstable_by. by rewrite run_by_compare.
Qed.
