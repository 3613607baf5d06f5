(** * TSpan: what the theorems on rounds need. *)
From Verif Require Export CSpan TParMerge.
From stdpp Require Import list relations.

(** A round consists of calls. *)
Lemma calls_made_quiet {T Q R A} (ans : Q → R → Prop) (c c' : prog T Q R A * list T) :
  stepm (λ _ _, False) c c' → stepm ans c c'.
Proof. intros (act & Hs & He). exists act. split; [by apply quiet_step|done]. Qed.
Lemma round_calls {T Q R A} (ans : Q → R → Prop) (p p' : prog T Q R A) l :
  round ans p p' → ∃ k, 1 ≤ k ∧ calls_made ans k (p, l) (p', l).
Proof.
  revert p'.
  induction p as [A a|A e|A i g IH|A i x g IH|A q g IH|A B' C p1 IH1 p2 IH2 g IH| |];
    intros p' Hs; cbn [round] in Hs; try done.
  - exists 1. split; [done|]. eapply made_call; [exact Hs|constructor].
  - destruct Hs as [(p1' & p2' & Hs1 & Hs2 & ->)|[(p1' & Hs & _ & ->)|(p2' & _ & Hs & ->)]].
    + destruct (IH1 _ Hs1) as (k1 & H1 & Hc1), (IH2 _ Hs2) as (k2 & H2 & Hc2).
      exists (k1 + k2). split; [lia|].
      eapply calls_made_app; [by apply calls_made_left|by apply calls_made_right].
    + destruct (IH1 _ Hs) as (k1 & H1 & Hc1). exists k1. split; [done|]. by apply calls_made_left.
    + destruct (IH2 _ Hs) as (k2 & H2 & Hc2). exists k2. split; [done|]. by apply calls_made_right.
Qed.
Lemma rounds_calls_made {T Q R A} (ans : Q → R → Prop) m (c c' : prog T Q R A * list T) :
  rounds ans m c c' → ∃ k, m ≤ k ∧ calls_made ans k c c'.
Proof.
  induction 1 as [c|m p p' l c Hs Hm (k & Hk & Hc)|m c c1 c2 Hs Hm (k & Hk & Hc)].
  - exists 0. split; [done|constructor].
  - destruct (round_calls ans p p' l Hs) as (j & Hj & Hcj). exists (j + k). split; [lia|].
    by eapply calls_made_app.
  - exists k. split; [done|]. eapply made_step; [by apply calls_made_quiet|done].
Qed.

Lemma par_sort_by_sorts_rounds {T} (c : cfg) take_item (cmp : T → T → comparison) (l junk : list T) :
  strict_weak_order (is_lt cmp) → (zst c = true → ∀ x y : T, x = y) → length junk = length l →
  ∃ m mem,
    rounds (ans_cmp cmp) m (par_sort_by c take_item (length l), l ++ junk) (Ret tt, mem) ∧
    (N.of_nat m ≤ N.of_nat (length l) / 2000 + 4 * N.of_nat (Nat.log2 (length l) + 1) ^ 3 +
      5000 * N.of_nat (Nat.log2 (length l) + 1) + 480000)%N ∧
    let l' := take (length l) mem in
    Permutation l l' ∧ sorted_wrt (is_lt cmp) l' ∧ same_order_of_equals (is_lt cmp) l l'.
Proof.
  intros Hs Hz HJ. pose proof (par_sort_by_schedules c take_item cmp l junk Hs Hz HJ) as He.
  assert (∀ q, ∃ r, ans_cmp cmp q r) as Hans by (intros [x y]; eexists; reflexivity).
  destruct (rounds_end _ _ _ _ _ Hans He)
    as (m & p' & mem & Hm & Hr & Hst).
  destruct He as [_ _ _ _ Hdone Hpanic].
  destruct p' as [[]|e| | | | | |]; try done; [|by apply Hpanic in Hst].
  exists m, mem. split; [done|]. split; [by eapply par_sort_by_rounds_bound|]. by apply (Hdone tt).
Qed.
