(** * Proofs of the theorems of PropParMerge.v. *)
From Verif Require Export TPar PParSort FootMerge.
From stdpp Require Import list.

Section sort.
  Context {T : Type} (c : cfg) (take_item : nat → bool).
  Implicit Types (l junk m : list T).

  Lemma onp_take n (Φ : list T → Prop) m : length m = n + n → onp n Φ m → Φ (take n m).
  Proof.
    intros Hm (V & J & -> & HJ & H). rewrite app_length in Hm.
    by rewrite take_app_alt by lia.
  Qed.
  Lemma par_merge_sort_wp ans l junk :
    length junk = length l →
    wp ans (par_merge_sort c take_item (length l))
      (λ _ m, sperm ans l (take (length l) m) ∧ (zst c = false → ksorted ans (take (length l) m)))
      (λ e m, mpanic ans l e (take (length l) m)) (l ++ junk).
  Proof.
    intros HJ. eapply wp_mono; [by apply par_merge_sort_spec| |].
    - intros [] m Hm Ho. rewrite app_length, HJ in Hm.
      apply onp_take in Ho as [H1 H2]; [|done]. split; [done|]. intros Hz. by rewrite Hz in H2.
    - intros e m Hm Ho. rewrite app_length, HJ in Hm. by apply onp_take in Ho.
  Qed.
  Lemma mpanic_lt lt l e l' : ¬ mpanic (ans_lt lt) l e l'.
  Proof. intros H%mpanic_upanic. by eapply upanic_lt. Qed.
  Lemma par_merge_sort_lt lt l junk :
    length junk = length l → strict_weak_order lt → (zst c = true → ∀ x y : T, x = y) →
    wp (ans_lt lt) (par_merge_sort c take_item (length l))
      (λ _ m, Permutation l (take (length l) m) ∧ sorted_wrt lt (take (length l) m) ∧
         same_order_of_equals lt l (take (length l) m)) (λ _ _, False) (l ++ junk).
  Proof.
    intros HJ Hs Hz. eapply wp_mono; [by apply par_merge_sort_wp| |].
    - intros [] m _ [Hp Hso]. split; [symmetry; by apply (sperm_perm (ans_lt lt))|].
      split; [|by apply sperm_same_order].
      destruct (zst c); [by apply one_element_sorted; auto|]. apply ksorted_sorted; auto.
    - intros e m _ H. exact (mpanic_lt _ _ _ _ H).
  Qed.
  Lemma par_merge_sort_any ans l junk :
    length junk = length l →
    wp ans (par_merge_sort c take_item (length l))
      (λ _ m, Permutation l (take (length l) m))
      (λ e m, e = UserPanic ∧ (∃ a b, a ∈ l ∧ b ∈ l ∧ ans (a, b) None) ∧
         Permutation l (take (length l) m)) (l ++ junk).
  Proof.
    intros HJ. eapply wp_mono; [by apply par_merge_sort_wp| |].
    - intros [] m _ [Hp _]. symmetry. by apply (sperm_perm ans).
    - intros e m _ (-> & Hq & Hp). by symmetry in Hp.
  Qed.

  Lemma par_sort_schedules lt l junk :
    strict_weak_order lt → (zst c = true → ∀ x y : T, x = y) → length junk = length l →
    every_schedule (ans_lt lt) (par_sort c take_item (length l)) (l ++ junk)
      (λ _ m, let l' := take (length l) m in
         Permutation l l' ∧ sorted_wrt lt l' ∧ same_order_of_equals lt l l') (λ _ _, False).
  Proof.
    intros. eapply es_less; [apply ans_lt_total|apply within_par_merge_sort|].
    by apply par_merge_sort_lt.
  Qed.
  Lemma par_sort_by_schedules cmp l junk :
    strict_weak_order (is_lt cmp) → (zst c = true → ∀ x y : T, x = y) → length junk = length l →
    every_schedule (ans_cmp cmp) (par_sort_by c take_item (length l)) (l ++ junk)
      (λ _ m, let l' := take (length l) m in
         Permutation l l' ∧ sorted_wrt (is_lt cmp) l' ∧ same_order_of_equals (is_lt cmp) l l')
      (λ _ _, False).
  Proof.
    intros. eapply es_cmp; [apply within_par_merge_sort|]. by apply par_merge_sort_lt.
  Qed.
  Lemma par_sort_by_key_schedules {K} (f : T → K) ltk l junk :
    let lt := λ a b, ltk (f a) (f b) in
    strict_weak_order lt → (zst c = true → ∀ x y : T, x = y) → length junk = length l →
    every_schedule (ans_key f ltk) (par_sort_by_key c take_item (length l)) (l ++ junk)
      (λ _ m, let l' := take (length l) m in
         Permutation l l' ∧ sorted_wrt lt l' ∧ same_order_of_equals lt l l') (λ _ _, False).
  Proof.
    intros. eapply es_key; [apply within_par_merge_sort|]. by apply par_merge_sort_lt.
  Qed.

  Lemma par_sort_by_any_schedules ans l junk :
    (∀ q, ∃ r, ans q r) → length junk = length l →
    every_schedule ans (par_sort_by c take_item (length l)) (l ++ junk)
      (λ _ m, Permutation l (take (length l) m))
      (λ e m, e = UserPanic ∧ (∃ a b, a ∈ l ∧ b ∈ l ∧ ans (a, b) None) ∧
         Permutation l (take (length l) m)).
  Proof.
    intros Ht HJ. eapply es_by_compare; [done|apply within_par_merge_sort|].
    eapply wp_mono; [by apply par_merge_sort_any|auto|].
    intros e m _ (-> & (a & b & Ha & Hb & (r0 & Hr & Hn)) & Hp). split; [done|]. split; [|done].
    exists a, b. split; [done|]. split; [done|]. by destruct r0 as [[]|].
  Qed.
  Lemma par_sort_by_key_any_schedules {K} (ans : key_question K → key_answer K → Prop) l junk :
    (∀ q, ∃ r, ans q r) → length junk = length l →
    every_schedule ans (par_sort_by_key c take_item (length l)) (l ++ junk)
      (λ _ m, Permutation l (take (length l) m))
      (λ e m, e = UserPanic ∧ Permutation l (take (length l) m)).
  Proof.
    intros Ht HJ. eapply es_by_key; [done|apply within_par_merge_sort|].
    eapply wp_mono; [by apply par_merge_sort_any|auto|].
    intros e m _ (-> & Hq & Hp). done.
  Qed.

  Lemma par_sort_by_disjoint n : fp (λ i, i < n + n) (par_sort_by (T:=T) c take_item n).
  Proof. apply within_by_compare, within_par_merge_sort. Qed.
  Lemma par_sort_by_sequential ans l junk :
    (∀ q, ∃ r, ans q r) → length junk = length l →
    let p := par_sort_by c take_item (length l) in
    every_schedule ans p (l ++ junk)
      (λ a m, seq_result ans p (l ++ junk) (inl a) m) (λ e m, seq_result ans p (l ++ junk) (inr e) m).
  Proof.
    intros Ht HJ p. eapply schedules_are_sequential; [done|apply par_sort_by_disjoint|].
    by apply wp_by_compare, par_merge_sort_any.
  Qed.
End sort.

(** Uninitialised cells of the buffer. *)
Lemma par_sort_by_uninit {X} (c : cfg) take_item (ans : option X * option X → option comparison → Prop)
    (xs : list X) :
  (∀ q, ∃ r, ans q r) → (∀ x y, ¬ ans (Some x, Some y) None) →
  every_schedule ans (par_sort_by c take_item (length xs)) (map Some xs ++ map (λ _, None) xs)
    (λ _ m, ∃ xs', take (length xs) m = map Some xs' ∧ Permutation xs xs') (λ _ _, False).
Proof.
  intros Ht Hn.
  pose proof (par_sort_by_any_schedules c take_item ans (map Some xs) (map (λ _, None) xs) Ht) as H.
  rewrite !map_length in H. specialize (H eq_refl). destruct H as [H1 H2 H3 H4 H5 H6].
  split; [done..| |].
  - intros a m Hm. specialize (H5 a m Hm). symmetry in H5. apply Permutation_map_inv in H5 as (xs' & Heq & Hp).
    by exists xs'.
  - intros e m Hm. destruct (H6 e m Hm) as (_ & (a & b & Ha & Hb & Hab) & _).
    apply elem_of_list_fmap in Ha as (x & -> & _), Hb as (y & -> & _). by eapply Hn.
Qed.
