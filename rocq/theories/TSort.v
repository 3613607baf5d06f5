(** * Proofs of the theorems of PropSort.v. *)
From Verif Require Export MApi Top PMerge.
From stdpp Require Import list.

Section sort.
  Context {T : Type} (c : cfg).
  Implicit Types (l : list T).

  Lemma stable_sort_sorts lt l :
    strict_weak_order lt → (zst c = true → ∀ x y : T, x = y) →
    ∃ l', run (pure_less lt) (stable_sort c (length l)) tt l = (Done tt, tt, l') ∧
      Permutation l l' ∧ sorted_wrt lt l' ∧ same_order_of_equals lt l l'.
  Proof.
    intros Hs Hz.
    destruct (run_pure _ lt _ l (stable_sort_spec c _ _ l eq_refl))
      as ([] & l' & Hr & Hp & Hso & _).
    exists l'. split; [done|].
    split; [symmetry; by apply (sperm_perm (ans_lt lt))|].
    split; [|by apply sperm_same_order].
    destruct (zst c); [by apply one_element_sorted; auto|]. apply ksorted_sorted; auto.
  Qed.

  Lemma stable_sort_any {S} (o : S → T * T → option bool * S) s l :
    no_panic o →
    ∃ s' l', run o (stable_sort c (length l)) s l = (Done tt, s', l') ∧ Permutation l l'.
  Proof.
    intros Ho. destruct (run_any _ o _ s l Ho (stable_sort_spec c _ _ l eq_refl))
      as ([] & s' & l' & Hr & Hp & _).
    exists s', l'. split; [done|]. symmetry. by apply (sperm_perm ans_any).
  Qed.

  Lemma stable_sort_all {S} (o : S → T * T → option bool * S) s l :
    ∃ r s' l', run o (stable_sort c (length l)) s l = (r, s', l') ∧
      (r = Done tt ∨ r = Panicked UserPanic) ∧ Permutation l l'.
  Proof.
    destruct (run_all _ o _ s l (stable_sort_spec c _ _ l eq_refl))
      as [([] & s' & l' & Hr & Hp & _)|(s' & l' & Hr & Hp)];
      eexists _, s', l'; (split; [exact Hr|]); (split; [by auto|symmetry]); [|done].
    by apply (sperm_perm ans_all).
  Qed.
End sort.
