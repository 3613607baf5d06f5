(** * Proofs of the theorems of PropWordAlloc.v. *)
From Verif Require Export TWordAlloc TMemSafe TSort RAlloc.
From Coq Require Import NArith.
From stdpp Require Import list.

Section any.
  Context {T S : Type} (c : cfg).
  Implicit Types (l : list T).

  Lemma stable_sort_mem_all (o : S → mem_question T → mem_answer * S) s l :
    ∃ r s' l', run o (stable_sort_mem c (length l)) s l = (r, s', l') ∧
      (r = Done tt ∨ r = Panicked UserPanic ∨ r = Panicked AssertPanic) ∧ Permutation l l'.
  Proof.
    pose proof (stable_sort_mem_spec c ans_all (length l) l eq_refl) as Hwp.
    apply (wp_run _ o _) with (s := s) in Hwp.
    2: { intros s0 []; done. }
    destruct (run o _ s l) as [[[[]|e| |] s'] l']; [|..|done|done]; eexists _, _, _; (split; [done|]).
    - split; [by left|]. symmetry. apply (sperm_perm ans_all), Hwp.
    - destruct Hwp as [(-> & _ & Hp)|[-> Hp]]; (split; [by auto|by symmetry]).
  Qed.

  Lemma stable_sort_mem_word size align (o : S → mem_question T → mem_answer * S) s l :
    (0 < align)%N → (align ≤ size)%N → (2 * (N.of_nat (length l) * size) < words c)%N →
    run o (stable_sort_mem_w c size align (length l)) s l = run o (stable_sort_mem c (length l)) s l.
  Proof.
    intros H1 H2 H3. eapply tracks_run; [by apply tracks_stable_sort_mem|].
    destruct (stable_sort_mem_all o s l) as (r & s' & l' & -> & Hr & _).
    destruct Hr as [->|[->| ->]]; simpl; unfold bad; naive_solver.
  Qed.

End any.

Section env.
  Context {T S A : Type} (c : cfg).
  Implicit Types (l : list T).

  Lemma stable_sort_mem_word_frees size align (less : S → T * T → option bool * S)
      (al : A → block_kind → nat → option nat * A) fr s a l :
    (0 < align)%N → (align ≤ size)%N → (2 * (N.of_nat (length l) * size) < words c)%N →
    (∀ a k len, (al a k len).1 ≠ None) →
    ∃ r s' l' a', run less (stable_sort c (length l)) s l = (r, s', l') ∧
      run (environment less al fr) (stable_sort_mem_w c size align (length l)) (Env s a (Some [])) l =
        (r, Env s' a' (Some []), l') ∧
      (r = Done tt ∨ r = Panicked UserPanic) ∧ Permutation l l'.
  Proof.
    intros H1 H2 H3 Hal. rewrite stable_sort_mem_word by done. by apply stable_sort_frees.
  Qed.
End env.

Section sorts.
  Context {T A : Type} (c : cfg).
  Implicit Types (l : list T).


  Lemma stable_sort_mem_sorts lt (al : A → block_kind → nat → option nat * A) fr a h l :
    strict_weak_order lt → (zst c = true → ∀ x y : T, x = y) →
    ∃ r e' l', run (environment (pure_less lt) al fr) (stable_sort_mem c (length l)) (Env tt a h) l =
        (r, e', l') ∧ Permutation l l' ∧
      ((r = Done tt ∧ sorted_wrt lt l' ∧ same_order_of_equals lt l l') ∨ r = Panicked AssertPanic).
  Proof.
    intros Hs Hz.
    pose proof (stable_sort_mem_spec c (ans_lt lt) (length l) l eq_refl) as Hwp.
    apply (wp_run _ (environment (pure_less lt) al fr) _) with (s := Env tt a h) in Hwp.
    2: { intros s0 []; [|done..]. by destruct s0 as [[] ? ?]. }
    destruct (run _ _ _ l) as [[[[]|e| |] s'] l']; [|..|done|done]; eexists _, _, _; (split; [done|]).
    - destruct Hwp as [Hp Hso]. split; [symmetry; by apply (sperm_perm (ans_lt lt))|].
      left. split; [done|]. split; [|by apply sperm_same_order].
      destruct (zst c); [by apply one_element_sorted; auto|]. apply ksorted_sorted; auto.
    - destruct Hwp as [(_ & (q & Hq) & _)|[-> Hp]]; [done|]. split; [by symmetry|by right].
  Qed.
End sorts.
