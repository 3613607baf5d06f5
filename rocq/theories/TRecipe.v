(** * TRecipe: the uses of [partition_point] and [binary_search] that the documentation
    recommends (src/lib.rs:1374-1388 and 1464-1508). *)
From Verif Require Export TSearch PIndices.
From stdpp Require Import list.

(** [Vec::insert]. *)
Definition insert_at {T} (i : nat) (x : T) (l : list T) : list T := take i l ++ x :: drop i l.
(** [.unwrap_or_else(|x| x)]. *)
Definition position_of (r : search_result) : nat := match r with Found i => i | Missing i => i end.
(** [x <= v]. *)
Definition is_le {T} (cmp : T → T → comparison) (x v : T) : bool :=
  match cmp x v with Gt => false | _ => true end.

Section recipe.
  Context {T : Type} (c : cfg) (cmp : T → T → comparison) (v : T).
  Implicit Types (l : list T).

  Notation point p l := (run (pure_fun p) (partition_point c (length l)) tt l).
  Notation search l := (run (pure_compare cmp) (binary_search c (length l) v) tt l).

  Lemma three_points l1 l2 l3 :
    Forall (λ x, cmp x v = Lt) l1 → Forall (λ x, cmp x v = Eq) l2 → Forall (λ x, cmp x v = Gt) l3 →
    let l := l1 ++ l2 ++ l3 in
    point (λ x, is_lt cmp x v) l = (Done (length l1), tt, l) ∧
    point (λ x, is_le cmp x v) l = (Done (length l1 + length l2), tt, l) ∧
    ∃ r, search l = (Done r, tt, l) ∧
      match r with
      | Found i => length l1 ≤ i < length l1 + length l2
      | Missing i => l2 = [] ∧ i = length l1
      end.
  Proof.
    intros H1 H2 H3 l. split; [|split].
    - apply partition_point_prefix.
      + eapply Forall_impl; [exact H1|]. intros x Hx. unfold is_lt. cbv beta in Hx. by rewrite Hx.
      + apply Forall_app. split; (eapply Forall_impl; [eassumption|]); intros x Hx;
          unfold is_lt; cbv beta in Hx; by rewrite Hx.
    - unfold l. rewrite app_assoc, <-app_length. apply partition_point_prefix.
      + apply Forall_app. split; (eapply Forall_impl; [eassumption|]); intros x Hx;
          unfold is_le; cbv beta in Hx; by rewrite Hx.
      + eapply Forall_impl; [exact H3|]. intros x Hx. unfold is_le. cbv beta in Hx. by rewrite Hx.
    - rewrite run_binary_search. by apply binary_search_by_exact.
  Qed.

  Lemma equal_range l : ord_compare cmp → sorted_wrt (is_lt cmp) l →
    ∃ low high r,
      point (λ x, is_lt cmp x v) l = (Done low, tt, l) ∧
      point (λ x, is_le cmp x v) l = (Done high, tt, l) ∧
      search l = (Done r, tt, l) ∧
      low ≤ high ≤ length l ∧
      Forall (λ x, cmp x v = Lt) (take low l) ∧
      Forall (λ x, cmp x v = Eq) (take (high - low) (drop low l)) ∧
      Forall (λ x, cmp x v = Gt) (drop high l) ∧
      match r with
      | Found i => low ≤ i < high
      | Missing i => low = high ∧ i = low
      end.
  Proof.
    intros Ho Hs. destruct (sorted_monotone cmp l v Ho Hs) as (l1 & l2 & l3 & -> & H1 & H2 & H3).
    destruct (three_points l1 l2 l3 H1 H2 H3) as (Hlow & Hhigh & r & Hr & Hp).
    exists (length l1), (length l1 + length l2), r.
    do 3 (split; [done|]). split; [rewrite !app_length; lia|].
    rewrite take_app, drop_app. replace (length l1 + length l2 - length l1) with (length l2) by lia.
    rewrite take_app. split; [done|]. split; [done|]. split.
    - rewrite app_assoc, drop_app_alt; [done|]. by rewrite app_length.
    - destruct r; [done|]. destruct Hp as [-> ->]. simpl. lia.
  Qed.

  Lemma insert_sorted l low high i : ord_compare cmp → sorted_wrt (is_lt cmp) l →
    low ≤ i ≤ high → high ≤ length l →
    Forall (λ x, cmp x v = Lt) (take low l) →
    Forall (λ x, cmp x v = Eq) (take (high - low) (drop low l)) →
    Forall (λ x, cmp x v = Gt) (drop high l) →
    sorted_wrt (is_lt cmp) (insert_at i v l).
  Proof.
    intros Ho Hs Hi Hh H1 H2 H3. unfold insert_at.
    assert (Hbefore : Forall (λ x, cmp x v ≠ Gt) (take i l)).
    { replace (take i l) with (take low l ++ take (i - low) (drop low l)).
      - apply Forall_app. split.
        + eapply Forall_impl; [exact H1|]. intros x Hx. cbv beta in Hx. by rewrite Hx.
        + replace (i - low) with (Nat.min (i - low) (high - low)) by lia. rewrite <-take_take.
          apply Forall_take. eapply Forall_impl; [exact H2|]. intros x Hx. cbv beta in Hx. by rewrite Hx.
      - rewrite take_drop_commute. replace (low + (i - low)) with i by lia.
        rewrite <-(take_drop low (take i l)) at 2. by rewrite take_take, Nat.min_l by lia. }
    assert (Hafter : Forall (λ x, cmp x v ≠ Lt) (drop i l)).
    { replace (drop i l) with (take (high - i) (drop i l) ++ drop high l).
      - apply Forall_app. split.
        + replace i with (low + (i - low)) at 2 by lia. rewrite <-drop_drop, take_drop_commute.
          replace (i - low + (high - i)) with (high - low) by lia.
          apply Forall_drop. eapply Forall_impl; [exact H2|]. intros x Hx. cbv beta in Hx. by rewrite Hx.
        + eapply Forall_impl; [exact H3|]. intros x Hx. cbv beta in Hx. by rewrite Hx.
      - replace high with (i + (high - i)) at 2 by lia. rewrite <-drop_drop. apply take_drop. }
    rewrite <-(take_drop i l) in Hs. apply StronglySorted_app_iff in Hs as (Hl & Hr & Hcross).
    apply StronglySorted_app_iff. split; [done|]. split.
    2:{ intros x y Hx [->|Hy]%elem_of_cons; [|by apply Hcross].
      rewrite Forall_forall in Hbefore. specialize (Hbefore x Hx).
      unfold is_lt. rewrite (oc_opp _ Ho x v). by destruct (cmp x v). }
    - constructor; [done|]. eapply Forall_impl; [exact Hafter|]. intros x Hx. cbv beta in Hx.
      unfold is_lt. by destruct (cmp x v).
  Qed.

  (** Inserting at any place of the range keeps the order. *)
  Lemma insertion_keeps_sorted l : ord_compare cmp → sorted_wrt (is_lt cmp) l →
    ∃ low high r,
      point (λ x, is_lt cmp x v) l = (Done low, tt, l) ∧
      point (λ x, is_le cmp x v) l = (Done high, tt, l) ∧
      search l = (Done r, tt, l) ∧
      sorted_wrt (is_lt cmp) (insert_at low v l) ∧
      sorted_wrt (is_lt cmp) (insert_at high v l) ∧
      sorted_wrt (is_lt cmp) (insert_at (position_of r) v l) ∧
      (match r with Found _ => False | Missing _ => True end → position_of r = low).
  Proof.
    intros Ho Hs. destruct (equal_range l Ho Hs) as (low & high & r & Hl & Hh & Hr & Hb & H1 & H2 & H3 & Hp).
    exists low, high, r. do 3 (split; [done|]).
    assert (low ≤ position_of r ≤ high) by (destruct r; simpl; lia).
    split; [|split; [|split]]; [by apply (insert_sorted l low high); try done; lia..|].
    destruct r; simpl; [done|]. intros _. lia.
  Qed.

  (** If equal elements are indistinguishable, the arrays after the insertion are the same. *)
  Lemma insert_same l2 i j : Forall (λ x, x = v) l2 → i ≤ length l2 → j ≤ length l2 →
    insert_at i v l2 = insert_at j v l2.
  Proof.
    intros H Hi Hj. assert (∀ k, k ≤ length l2 → insert_at k v l2 = replicate (S (length l2)) v) as E.
    { intros k Hk. symmetry. apply replicate_as_Forall. unfold insert_at. split.
      - rewrite app_length. simpl. rewrite take_length, drop_length. lia.
      - assert (H' : Forall (eq v) l2) by (eapply Forall_impl; [exact H|]; done).
        apply Forall_app. split; [by apply Forall_take|]. constructor; [done|]. by apply Forall_drop. }
    by rewrite !E.
  Qed.
  Lemma insert_at_app l1 l2 l3 i : i ≤ length l2 →
    insert_at (length l1 + i) v (l1 ++ l2 ++ l3) = l1 ++ insert_at i v l2 ++ l3.
  Proof.
    intros Hi. unfold insert_at. rewrite take_app_ge, drop_app_ge by lia.
    replace (length l1 + i - length l1) with i by lia.
    rewrite take_app_le, drop_app_le by done. rewrite <-!app_assoc. done.
  Qed.
  Lemma insertions_agree l : ord_compare cmp → sorted_wrt (is_lt cmp) l →
    (∀ x, cmp x v = Eq → x = v) →
    ∃ low r,
      point (λ x, is_lt cmp x v) l = (Done low, tt, l) ∧
      search l = (Done r, tt, l) ∧
      insert_at low v l = insert_at (position_of r) v l.
  Proof.
    intros Ho Hs He. destruct (sorted_monotone cmp l v Ho Hs) as (l1 & l2 & l3 & -> & H1 & H2 & H3).
    destruct (three_points l1 l2 l3 H1 H2 H3) as (Hlow & _ & r & Hr & Hp).
    exists (length l1), r. do 2 (split; [done|]).
    assert (∃ j, position_of r = length l1 + j ∧ j ≤ length l2) as (j & -> & Hj).
    { destruct r as [i|i]; simpl.
      - exists (i - length l1). lia.
      - exists 0. destruct Hp as [-> ->]. simpl. lia. }
    rewrite <-(Nat.add_0_r (length l1)) at 1. rewrite !insert_at_app by lia. f_equal. f_equal.
    apply insert_same; [|lia|done]. eapply Forall_impl; [exact H2|]. auto.
  Qed.
End recipe.

Lemma indices_differ :
  ∃ (v : nat) (l : list nat) (low i : nat),
  sorted_wrt (is_lt Nat.compare) l ∧
  (∀ c, run (pure_fun (λ x, is_lt Nat.compare x v)) (partition_point c (length l)) tt l =
          (Done low, tt, l) ∧
        run (pure_compare Nat.compare) (binary_search c (length l) v) tt l = (Done (Found i), tt, l)) ∧
  low ≠ i.
Proof.
  exists 1, [1;1;1;1], 0, 2. split; [by repeat constructor|]. split; [|done].
  intros [[] [] [] []]; split; vm_compute; reflexivity.
Qed.

Lemma recipe_example :
  ord_compare Nat.compare ∧
  sorted_wrt (is_lt Nat.compare) [0;1;1;1;1;2;3;5;8;13;21;34;55] ∧
  (∀ x, Nat.compare x 1 = Eq → x = 1) ∧
  run (pure_fun (λ x, is_lt Nat.compare x 1)) (partition_point cfg_release64 13) tt
    [0;1;1;1;1;2;3;5;8;13;21;34;55] = (Done 1, tt, [0;1;1;1;1;2;3;5;8;13;21;34;55]) ∧
  run (pure_fun (λ x, is_le Nat.compare x 1)) (partition_point cfg_release64 13) tt
    [0;1;1;1;1;2;3;5;8;13;21;34;55] = (Done 5, tt, [0;1;1;1;1;2;3;5;8;13;21;34;55]).
Proof.
  split; [exact nat_ord_compare|]. split; [by repeat constructor|].
  split; [intros x; apply Nat.compare_eq|]. split; vm_compute; reflexivity.
Qed.
