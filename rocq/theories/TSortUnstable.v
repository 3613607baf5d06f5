(** * Proofs of the theorems of PropSortUnstable.v. *)
From Verif Require Export MApi Top PQuick.
From stdpp Require Import list.

Section sort_unstable.
  Context {T : Type} (c : cfg).
  Implicit Types (l : list T).

  Lemma quick_sort_wp ans l :
    wp ans (quick_sort c (length l)) (λ _ l', l' ≡ₚ l ∧ (zst c = false → ksorted ans l'))
      (upanic ans l) l.
  Proof.
    destruct (zst c) eqn:Hz.
    - unfold quick_sort. rewrite Hz. by apply wp_ret.
    - eapply wp_mono; [by apply quick_sort_spec| |auto]. intros [] l' _ [??]. auto.
  Qed.

  Lemma quick_sort_sorts lt l :
    strict_weak_order lt → (zst c = true → ∀ x y : T, x = y) →
    ∃ l', run (pure_less lt) (quick_sort c (length l)) tt l = (Done tt, tt, l') ∧
      Permutation l l' ∧ sorted_wrt lt l'.
  Proof.
    intros Hs Hz. destruct (run_pure _ lt _ l (quick_sort_wp _ l)) as ([] & l' & Hr & Hp & Hso).
    exists l'. split; [done|]. split; [by symmetry|].
    destruct (zst c); [by apply one_element_sorted; auto|]. apply ksorted_sorted; auto.
  Qed.

  Lemma quick_sort_any {S} (o : S → T * T → option bool * S) s l :
    no_panic o →
    ∃ s' l', run o (quick_sort c (length l)) s l = (Done tt, s', l') ∧ Permutation l l'.
  Proof.
    intros Ho. destruct (run_any _ o _ s l Ho (quick_sort_wp _ l)) as ([] & s' & l' & Hr & Hp & _).
    exists s', l'. split; [done|by symmetry].
  Qed.

  Lemma quick_sort_all {S} (o : S → T * T → option bool * S) s l :
    ∃ r s' l', run o (quick_sort c (length l)) s l = (r, s', l') ∧
      (r = Done tt ∨ r = Panicked UserPanic) ∧ Permutation l l'.
  Proof.
    destruct (run_all _ o _ s l (quick_sort_wp _ l))
      as [([] & s' & l' & Hr & Hp & _)|(s' & l' & Hr & Hp)];
      eexists _, s', l'; (split; [exact Hr|]); (split; [by auto|by symmetry]).
  Qed.

  Lemma quick_sort_depth {S} (o : S → T * T → option bool * S) s l depth fuel :
    Nat.log2 (length l) + 2 ≤ depth → length l < fuel →
    (run o (qs_recurse c depth fuel (length l) None (bit_length (length l)) true true) s l).1.1
      ≠ Diverged.
  Proof.
    intros Hd Hf.
    assert (Hwp : wp ans_all (qs_recurse c depth fuel (length l) None (bit_length (length l)) true true)
      (λ _ l', l' ≡ₚ l ∧ ksorted ans_all l') (upanic ans_all l) l).
    { apply qs_recurse_spec; [done|done| |lia|done].
      destruct (decide (length l = 0)) as [->|]; [apply Nat.neq_0_lt_0, Nat.pow_nonzero; lia|].
      eapply Nat.lt_le_trans; [apply Nat.log2_spec; lia|]. apply Nat.pow_le_mono_r; lia. }
    destruct (run_all _ o _ s l Hwp) as [(a & s' & l' & Hr & _)|(s' & l' & Hr & _)]; by rewrite Hr.
  Qed.
End sort_unstable.
