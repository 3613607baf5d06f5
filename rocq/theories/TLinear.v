(** * Proofs about sorted and strictly descending input (PropLinear.v). *)
From Verif Require Export Cost TSort.
From stdpp Require Import list.

Section counting.
  Context {T : Type}.

  (** Counting the calls of a compare closure. *)
  Lemma wpg_run_compare {S A} (ok : T * T → option bool → Prop)
      (o : S → T * T → option comparison * S) (p : cmp_prog T A) Φ E s l :
    (∀ s q, ok q (less_of_compare o s q).1) →
    wpg (cnt_ans ok) p Φ E 0 l →
    match run (logged o) (by_compare p) (s, []) l with
    | (Done a, (_, tr), l') => Φ a (length tr) l'
    | (Panicked e, (_, tr), l') => E e (length tr) l'
    | (Undefined, _, _) | (Diverged, _, _) => False
    end.
  Proof.
    intros Ho Hwp. rewrite run_by_compare.
    pose proof (wpg_run (λ (st : S * list (T * T * option comparison)) g, length st.2 = g)
      (cnt_ans ok) (less_of_compare (logged o)) p) as Hrun.
    specialize (Hrun ltac:(intros [s' tr] g q <-; specialize (Ho s' q);
      unfold less_of_compare in *; simpl in *;
      destruct (o s' q) as [r s'']; simpl in *; eexists; split;
        [split; [exact Ho|reflexivity]|rewrite app_length; simpl; lia])).
    specialize (Hrun Φ E (s, []) 0 l eq_refl Hwp).
    destruct (run (less_of_compare (logged o)) p (s, []) l) as [[[a|e| |] [s' tr]] l'];
      try done; by destruct Hrun as (g' & <- & ?).
  Qed.
End counting.

Section linear.
  Context {T : Type} (c : cfg) (lt : T → T → bool).
  Notation ok := (cnt_ans (ans_lt lt)).

  (** Every element compares to its left neighbour as [want] says. *)
  Definition streak (want : bool) (l : list T) : Prop :=
    ∀ i a b, 0 < i → l !! i = Some a → l !! (i - 1) = Some b → lt a b = want.
  Lemma sorted_streak want l : StronglySorted (λ a b, lt b a = want) l → streak want l.
  Proof.
    induction 1 as [|x l Hl IH Hx]; intros i a b Hi Ha Hb; [done|].
    destruct i as [|[|i]]; [lia| |].
    - simpl in *. injection Hb as ->. by eapply Forall_lookup_1 in Hx.
    - apply (IH (S i) a b); [lia|exact Ha|].
      simpl in *. by rewrite Nat.sub_0_r.
  Qed.

  Lemma streak_loop_linear want fuel n e k E l :
    n = length l → 0 < e → e ≤ n → n < fuel + e → streak want l →
    wpg ok (streak_loop want fuel n e) (λ j g l', j = n ∧ g = k + (n - e) ∧ l' = l) E k l.
  Proof.
    intros Hn. revert e k. induction fuel as [|f IH]; intros e k He Hen Hf Hs; [lia|]. simpl.
    destruct (Nat.ltb_spec e n).
    - apply wpg_bind, wpg_uget; [lia|lia|]. intros x Hx.
      apply wpg_bind, wpg_uget; [lia|lia|]. intros y Hy.
      apply wpg_bind, wpg_is_less.
      + intros b g' [[= ->] ->]. simpl. rewrite (Hs e x y He Hx Hy), eqb_reflx.
        wpg_apply (IH (S e) (S k)); [lia|lia|lia|done| |auto].
        intros j g' l' _ (-> & -> & ->). repeat split; lia.
      + intros g' [[=] _].
    - apply wpg_ret. repeat split; lia.
  Qed.
  Lemma find_streak_linear want n E l :
    n = length l → 2 ≤ n → streak want l →
    wpg ok (find_streak n) (λ p g l', p = (n, want) ∧ g = n - 1 ∧ l' = l) E 0 l.
  Proof.
    intros Hn H2 Hs. unfold find_streak. destruct (Nat.ltb_spec n 2); [lia|].
    apply wpg_bind, wpg_uget; [lia|lia|]. intros x Hx.
    apply wpg_bind, wpg_uget; [lia|lia|]. intros y Hy.
    apply wpg_bind, wpg_is_less.
    - intros b g' [[= ->] ->]. simpl. rewrite (Hs 1 x y ltac:(lia) Hx Hy).
      apply wpg_bind. wpg_apply (streak_loop_linear want (S n) n 2 1 E l); try done; try lia.
      intros j g' l' _ (-> & -> & ->). apply wpg_ret. repeat split; lia.
    - intros g' [[=] _].
  Qed.

  Lemma merge_sort_linear want n E l :
    zst c = false → n = length l → 20 < n → streak want l →
    wpg ok (merge_sort c n)
      (λ _ g l', g = n - 1 ∧ l' = if want then rev l else l) E 0 l.
  Proof.
    intros Hz Hn Hgt Hs. unfold merge_sort, MS_MAX_INSERTION.
    apply wpg_bind, wpg_dassert; [by rewrite Hz|].
    destruct (Nat.leb_spec n 20); [lia|].
    apply wpg_bind.
    assert (Hfind : ∀ (Φ : nat * bool → nat → list T → Prop), Φ (n, want) (n - 1) l →
      wpg ok (slice n 0 n (find_streak (T:=T))) Φ E 0 l).
    { intros Φ HΦ. replace l with ([] ++ l ++ []) at 1 by (by rewrite app_nil_r).
      apply wpg_slice_app; [done|simpl; lia|lia|].
      wpg_apply (find_streak_linear want (length l) E l); [done|lia|done| |].
      - intros p g l' _ (-> & -> & ->) _. simpl. rewrite app_nil_r. by rewrite <-Hn.
      - intros e g l' _ He _. simpl. rewrite app_nil_r. exact He. }
    assert (Hrev : ∀ (Φ : unit → nat → list T → Prop), Φ tt (n - 1) (if want then rev l else l) →
      wpg ok (if want then slice n 0 n (MPartition.reverse (T:=T)) else Ret tt) Φ E (n - 1) l).
    { intros Φ HΦ. destruct want; [|by apply wpg_ret].
      replace l with ([] ++ l ++ []) at 1 by (by rewrite app_nil_r).
      apply wpg_slice_app; [done|simpl; lia|lia|].
      eapply wpg_mono.
      - apply (costs_wp (ans_lt lt) _ (λ _ g, g = n - 1) (λ _ l', l' = rev l) (λ _ _, False)
                 (n - 1) (n - 1)); [lia|by apply reverse_spec|].
        apply costs_silent, reverse_silent.
      - intros [] g l' _ [-> ->] _. simpl. by rewrite app_nil_r.
      - by intros e g l' _ [_ []]. }
    cbn [merge_sort_loop]. destruct (Nat.ltb_spec 0 n); [|lia].
    apply wpg_bind, Hfind. cbv beta iota zeta. apply wpg_bind, Hrev.
    apply wpg_bind. unfold provide_sorted_batch, MIN_INSERTION_RUN. simpl.
    apply wpg_bind, wpg_assert; [by rewrite Nat.leb_refl|].
    rewrite Nat.ltb_irrefl, andb_false_r. apply wpg_ret.
    apply wpg_bind, wpg_usub; [lia|]. rewrite Nat.sub_0_r.
    apply wpg_bind. apply wpg_ret.
    destruct n as [|n']; [lia|]. simpl. rewrite Nat.ltb_irrefl. apply wpg_ret.
    apply wpg_dassert; [apply (Nat.eqb_refl n')|]. done.
  Qed.

  Lemma stable_sort_linear want l :
    zst c = false → 20 < length l → StronglySorted (λ a b, lt b a = want) l →
    wpg ok (stable_sort c (length l))
      (λ _ g l', g = length l - 1 ∧ l' = if want then rev l else l) (λ _ _ _, False) 0 l.
  Proof.
    intros Hz Hn Hs. unfold stable_sort. rewrite Hz.
    apply merge_sort_linear; auto using sorted_streak.
  Qed.
End linear.

Lemma sort_by_sorted {T} (c : cfg) (cmp : T → T → comparison) (l : list T) :
  zst c = false → 20 < length l → sorted_wrt (is_lt cmp) l →
  ∃ tr, run (logged (pure_compare cmp)) (sort_by c (length l)) (tt, []) l = (Done tt, (tt, tr), l) ∧
    length tr = length l - 1.
Proof.
  intros Hz Hn Hs.
  pose proof (wpg_run_compare (ans_lt (is_lt cmp)) (pure_compare cmp) _ _ _ tt l
    ltac:(intros ? [a b]; by rewrite less_of_pure_compare)
    (stable_sort_linear c (is_lt cmp) false l Hz Hn Hs)) as H.
  unfold sort_by.
  destruct (run _ _ _ _) as [[[[]|e| |] [[] tr]] l']; try done. destruct H as [? ->]. eauto.
Qed.
Lemma sort_by_descending {T} (c : cfg) (cmp : T → T → comparison) (l : list T) :
  zst c = false → 20 < length l → StronglySorted (λ a b, is_lt cmp b a = true) l →
  ∃ tr, run (logged (pure_compare cmp)) (sort_by c (length l)) (tt, []) l = (Done tt, (tt, tr), rev l) ∧
    length tr = length l - 1.
Proof.
  intros Hz Hn Hs.
  pose proof (wpg_run_compare (ans_lt (is_lt cmp)) (pure_compare cmp) _ _ _ tt l
    ltac:(intros ? [a b]; by rewrite less_of_pure_compare)
    (stable_sort_linear c (is_lt cmp) true l Hz Hn Hs)) as H.
  unfold sort_by.
  destruct (run _ _ _ _) as [[[[]|e| |] [[] tr]] l']; try done. destruct H as [? ->]. eauto.
Qed.
