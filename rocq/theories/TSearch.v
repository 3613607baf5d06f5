(** * Proofs of the theorems of PropSearch.v. *)
From Verif Require Export PSearch PDedup PPivot MApi Examples.
From stdpp Require Import list.

Lemma reverse_reverses {T Q R S} (o : S → Q → R * S) s (l : list T) :
  ∃ s', run o (MPartition.reverse (length l)) s l = (Done tt, s', rev l).
Proof.
  pose proof (reverse_spec (R:=R) (λ (_ : Q) _, True) (length l) l (λ _ _, False) eq_refl) as H.
  apply (wp_run (λ _ _, True) o _ ltac:(done) _ _ s) in H.
  destruct (run o _ s l) as [[[[]|e| |] s'] l']; try done. subst l'. by exists s'.
Qed.

Lemma nat_ord_compare : ord_compare Nat.compare.
Proof.
  assert (H : ∀ a b, is_lt Nat.compare a b = Nat.ltb a b).
  { intros a b. unfold is_lt, Nat.ltb.
    destruct (Nat.compare_spec a b); symmetry; [apply Nat.leb_gt|apply Nat.leb_le|apply Nat.leb_gt]; lia. }
  split.
  - intros x y. apply Nat.compare_antisym.
  - change (strict_weak_order (is_lt Nat.compare)).
    split; intros *; rewrite !H; apply ltb_swo.
Qed.
Lemma digit_ord_compare : ord_compare digit_cmp.
Proof. split; [intros x y; apply Nat.compare_antisym|exact digit_swo]. Qed.

Lemma bit_length_log2 n : 0 < n → bit_length n = Nat.log2 n + 1.
Proof. unfold bit_length. destruct n; lia. Qed.

Lemma is_sorted_calls {T S} (o : S → T * T → option bool * S) (s : S) (l : list T) :
  ∃ r s' tr, run (logged o) (is_sorted_by (length l)) (s, []) l = (r, (s', tr), l) ∧
    match r with
    | Done true => tr = (λ q, (q, Some true)) <$> neighbours l
    | Done false =>
        ∃ qs1 q qs2, neighbours l = qs1 ++ q :: qs2 ∧
          tr = ((λ q, (q, Some true)) <$> qs1) ++ [(q, Some false)]
    | Panicked e =>
        e = UserPanic ∧ ∃ qs1 q qs2, neighbours l = qs1 ++ q :: qs2 ∧
          tr = ((λ q, (q, Some true)) <$> qs1) ++ [(q, None)]
    | _ => False
    end.
Proof.
  destruct (is_sorted_scan o s l) as (r & s' & tr & Hr & Hs). exists r, s', tr.
  split; [done|]. by destruct r as [[]| | |].
Qed.

Lemma contains_scan_calls {T S} (o : S → T * T → option bool * S) (s : S) (x : T) (l : list T) :
  ∃ r s' tr, run (logged o) (contains (length l) x) (s, []) l = (r, (s', tr), l) ∧
    match r with
    | Done false => tr = (λ a, ((a, x), Some false)) <$> l
    | Done true =>
        ∃ l1 a l2, l = l1 ++ a :: l2 ∧
          tr = ((λ a, ((a, x), Some false)) <$> l1) ++ [((a, x), Some true)]
    | Panicked e =>
        e = UserPanic ∧ ∃ l1 a l2, l = l1 ++ a :: l2 ∧
          tr = ((λ a, ((a, x), Some false)) <$> l1) ++ [((a, x), None)]
    | _ => False
    end.
Proof.
  destruct (contains_scan o s x l) as (r & s' & tr & Hr & Hs). exists r, s', tr.
  split; [done|].
  assert (Hsplit : ∀ qs1 q qs2, (λ a, (a, x)) <$> l = qs1 ++ q :: qs2 →
    ∃ l1 a l2, l = l1 ++ a :: l2 ∧ qs1 = (λ a, (a, x)) <$> l1 ∧ q = (a, x)).
  { intros qs1 q qs2 Hq. apply fmap_app_inv in Hq as (l1 & l' & -> & Hq & ->).
    symmetry in Hq. apply fmap_cons_inv in Hq as (a & l2 & -> & -> & ->). eauto 10. }
  destruct r as [[]|e| |]; simpl in Hs; try done.
  - destruct Hs as (qs1 & q & qs2 & Hq & ->). apply Hsplit in Hq as (l1 & a & l2 & -> & -> & ->).
    eexists _, _, _. split; [done|]. by rewrite <-list_fmap_compose.
  - by rewrite Hs, <-list_fmap_compose.
  - destruct Hs as (-> & qs1 & q & qs2 & Hq & ->). split; [done|].
    apply Hsplit in Hq as (l1 & a & l2 & -> & -> & ->).
    eexists _, _, _. split; [done|]. by rewrite <-list_fmap_compose.
Qed.
