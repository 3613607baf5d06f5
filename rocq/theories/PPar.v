(** * Proofs about the parallel quicksort and selection of MPar.v, for the
    schedule that runs the arms of [rayon::join] one after the other (the other
    schedules follow by Interleave.v). *)
From Verif Require Export MPar PQuick PIndices.
From Coq Require Import NArith.
From stdpp Require Import list.

Lemma wp_join {T Q R B C} (ans : Q → R → Prop) (p1 : prog T Q R B) (p2 : prog T Q R C)
    (Φ : B * C → list T → Prop) (E : exn → list T → Prop) l :
  wp ans p1 (λ b l1, wp ans p2 (λ d l2, Φ (b, d) l2) E l1)
            (λ e1 l1, wp ans p2 (λ _ l2, E e1 l2) (λ _ l2, E e1 l2) l1) l →
  wp ans (rayon_join p1 p2) Φ E l.
Proof.
  intros H. apply wp_Par. eapply wp_mono; [exact H| |]; intros ? l1 _ H1;
    (eapply wp_mono; [exact H1| |]); auto using wp_ret, wp_throw.
Qed.

Section quick.
  Context {T : Type} (c : cfg) (ans : T * T → option bool → Prop).
  Notation kle := (kle ans).
  Notation klt := (klt ans).
  Notation ksorted := (ksorted ans).
  Implicit Types (l : list T).

  Lemma par_qs_recurse_spec fuel n pred limit wb wp l :
    n = length l → n < fuel →
    (∀ p, pred = Some p → Forall (kle p) l) →
    Prog.wp ans (par_qs_recurse c fuel n pred limit wb wp)
      (λ _ l', l' ≡ₚ l ∧ ksorted l') (upanic ans l) l.
  Proof.
    revert n pred limit wb wp l.
    induction fuel as [|f IHf]; intros n pred limit wb wp l Hn Hf Hpred; [lia|].
    cbn [par_qs_recurse].
    unfold QS_MAX_INSERTION. destruct (Nat.leb_spec n 20) as [Hs|Hs].
    { destruct (Nat.leb_spec 2 n).
      - wp_apply (insertion_sort_shift_left_spec c ans n 1 l); [done|lia| |by auto].
        intros [] l' _ [Hsp Hso]. split; [by apply (sperm_perm ans)|]. apply Hso.
        destruct l; [constructor|]. simpl. apply ksorted_singleton.
      - apply wp_ret. split; [done|].
        destruct l as [|? [|]]; [constructor|apply ksorted_singleton|simpl in *; lia]. }
    destruct (Nat.eqb_spec limit 0) as [Hl|Hl].
    { wp_apply (heap_sort_spec ans n l); [done| |by auto]. auto. }
    (* break_patterns *)
    apply wp_bind.
    eapply (wp_mono _ _ (λ _ l', l' ≡ₚ l) _ (upanic ans l)); [| |by auto].
    { destruct wb; [by apply wp_ret|]. apply wp_bind.
      wp_apply (break_patterns_spec ans c n l (upanic ans l)); [done| |by auto].
      intros [] l' _ Hp. apply wp_usub; [lia|done]. }
    intros limit' l1 Hl1 Hp1.
    (* choose_pivot *)
    apply wp_bind. wp_apply (choose_pivot_spec ans n l1); [lia|lia| |].
    2: { intros e l' _ Hu. by eapply upanic_perm. }
    intros [pivot likely] l2 Hl2 [Hp2 Hpiv]. rewrite Hp1 in Hp2.
    (* partial insertion sort *)
    apply wp_bind.
    eapply (wp_mono _ _ (λ b l', l' ≡ₚ l ∧ (b = true → ksorted l')) _ (upanic ans l)); [| |by auto].
    { destruct (wb && wp && likely).
      - wp_apply (partial_insertion_sort_spec c ans n l2); [lia| |].
        + intros b l' _ [Hp Hb]. split; [by rewrite Hp|done].
        + intros e l' _ Hu. by eapply upanic_perm.
      - by apply wp_ret. }
    intros b l3 Hl3 [Hp3 Hb]. destruct b.
    { apply wp_ret. auto. }
    clear Hb.
    destruct (lookup_lt_is_Some_2 l3 pivot) as [p Hp]; [lia|].
    assert (Hpred3 : ∀ q, pred = Some q → Forall (kle q) l3).
    { intros q Hq. rewrite Hp3. auto. }
    (* compare with the predecessor *)
    apply wp_bind.
    eapply (wp_mono _ _ (λ b l', l' = l3 ∧ (b = true → ∃ q, pred = Some q ∧ kle p q))
       _ (upanic ans l)); [| |by auto].
    { destruct pred as [q|]; [|by apply wp_ret].
      apply wp_bind, wp_get; [lia|lia|]. intros x Hx. rewrite Hp in Hx. injection Hx as <-.
      apply wp_bind, wp_is_less; [|intros Hr; by eapply upanic_intro].
      intros r Hr. apply wp_ret. split; [done|]. intros Hb. exists q. split; [done|].
      apply ans_false. by destruct r. }
    intros eq l' _ [-> Heq]. destruct eq.
    { (* equal to the predecessor *)
      destruct (Heq eq_refl) as (q & Hq & Hpq).
      apply wp_bind. wp_apply (partition_equal_spec ans n pivot l3 p); [lia|done| |].
      2: { intros e l' _ Hu. by eapply upanic_perm. }
      intros mid l4 Hl4 (Hp4 & Hmid & Hmid0 & Hlo & Hhi).
      specialize (Hmid0 ltac:(lia)). specialize (Hhi ltac:(lia)).
      apply rng_take in Hlo. apply rng_drop in Hhi; [|lia].
      assert (Hl4' : l4 = take mid l4 ++ drop mid l4 ++ []).
      { by rewrite app_nil_r, take_drop. }
      assert (Hpred4 : Forall (kle q) l4) by (rewrite Hp4; auto).
      assert (Hlt : length (take mid l4) = mid) by (rewrite take_length; lia).
      assert (Hld : length (drop mid l4) = n - mid) by (rewrite drop_length; lia).
      rewrite Hl4' at 1.
      apply wp_slice_app; [done|rewrite Hld; lia|lia|].
      wp_apply (IHf (length (drop mid l4)) pred limit' wb wp (drop mid l4)); [done|lia| | |].
      - intros q' Hq'. apply Forall_drop. rewrite Hq in Hq'. by injection Hq' as <-.
      - intros [] m _ [Hpm Hsm] Hlm. rewrite app_nil_r.
        split; [rewrite Hpm, take_drop; by rewrite Hp4|].
        apply ksorted_app. split; [|split; [done|]].
        + apply ksorted_lookup. intros i x y Hx Hy.
          apply (kle_trans ans _ p); [exact (Forall_lookup_1 _ _ _ _ Hlo Hx)|].
          apply (kle_trans ans _ q); [done|].
          eapply Forall_forall; [apply Forall_take, Hpred4|]. by eapply elem_of_list_lookup_2.
        + intros x y Hx Hy. rewrite Hpm in Hy.
          rewrite Forall_forall in Hlo, Hhi.
          apply (kle_trans ans _ p); [by apply Hlo|]. by apply klt_kle, Hhi.
      - intros e m _ (He & Hex & Hpm) Hlm. rewrite app_nil_r. split; [done|]. split; [done|].
        rewrite Hpm, take_drop. by rewrite Hp4. }
    (* partition *)
    apply wp_bind. wp_apply (partition_spec c ans n pivot l3 p); [lia|done| |].
    2: { intros e l' _ Hu. by eapply upanic_perm. }
    intros [mid was_p] l4 Hl4 (Hp4 & Hmp & Hlo & Hhi).
    pose proof (lookup_lt_Some _ _ _ Hmp) as Hmid.
    apply rng_take in Hlo. apply rng_drop in Hhi; [|lia].
    apply wp_bind, wp_usub; [lia|].
    apply wp_bind, wp_slice; [lia|lia|lia|].
    apply wp_slice_check; [lia|lia|rewrite sub_length; lia|]. intros Hls.
    assert (Hwhole : take mid l4 ++ take (n - mid) (drop mid l4) ++ drop n l4 = l4).
    { rewrite (drop_ge l4 n) by lia. rewrite app_nil_r.
      rewrite (take_ge (drop mid l4)) by (rewrite drop_length; lia). by rewrite take_drop. }
    rewrite Hwhole. clear Hls Hwhole.
    apply wp_bind, wp_get; [lia|lia|]. intros p' Hp'. rewrite Hmp in Hp'. injection Hp' as <-.
    assert (Hp04 : l4 ≡ₚ l) by (by rewrite Hp4).
    assert (Hpred4 : ∀ q, pred = Some q → Forall (kle q) l4).
    { intros q Hq. rewrite Hp4. auto. }
    clear Hp4 Heq Hpred3 Hp3 Hp.
    set (A := take mid l4) in *. set (B := drop (S mid) l4) in *.
    assert (Hl4e : l4 = A ++ p :: B) by (by apply bound_split).
    assert (HlA : length A = mid) by (unfold A; rewrite take_length; lia).
    assert (HlB : length B = n - (mid + 1)) by (unfold B; rewrite drop_length; lia).
    clearbody A B. subst l4.
    assert (HpredA : ∀ q, pred = Some q → Forall (kle q) A).
    { intros q Hq. specialize (Hpred4 q Hq). by apply Forall_app in Hpred4 as [? _]. }
    assert (HfinS : ∀ A' B', A' ≡ₚ A → B' ≡ₚ B → ksorted A' → ksorted B' →
              A' ++ p :: B' ≡ₚ l ∧ ksorted (A' ++ p :: B')).
    { intros A' B' HA HB HsA HsB. split; [by rewrite HA, HB|].
      apply ksorted_three; [done|done| |by rewrite HB].
      rewrite HA. eapply Forall_impl; [exact Hlo|]. intros. by apply klt_kle. }
    assert (HfinE : ∀ A' B' e, A' ≡ₚ A → B' ≡ₚ B → e = UserPanic → (∃ q, ans q None) →
              upanic ans l e (A' ++ p :: B')).
    { intros A' B' e HA HB He Hex. split; [done|]. split; [done|]. by rewrite HA, HB. }
    destruct (sequential (Nat.max mid (n - (mid + 1)))) eqn:Hseq.
    2: { (* in parallel *)
      apply wp_bind, wp_join.
      change (A ++ p :: B) with ([] ++ A ++ p :: B).
      apply wp_slice_app; [done|simpl; lia|lia|].
      wp_apply (IHf (length A) pred limit' true true A); [done|lia|done| |].
      - intros [] A' HlA' [HpA HsA] _. simpl.
        replace (A' ++ p :: B) with ((A' ++ [p]) ++ B ++ []) by (by rewrite app_nil_r, <-app_assoc).
        assert (HlAp : length (A' ++ [p]) = mid + 1) by (rewrite app_length; simpl; lia).
        apply wp_slice_app; [done|lia|lia|].
        wp_apply (IHf (length B) (Some p) limit' true true B); [done|lia| | |].
        + intros q Hq. by injection Hq as <-.
        + intros [] B' _ [HpB HsB] _. apply wp_ret.
          rewrite app_nil_r, <-app_assoc. simpl. by apply HfinS.
        + intros e B' _ (He & Hex & HpB) _. rewrite app_nil_r, <-app_assoc. simpl. by apply HfinE.
      - intros e A' HlA' (He & Hex & HpA) _. simpl.
        replace (A' ++ p :: B) with ((A' ++ [p]) ++ B ++ []) by (by rewrite app_nil_r, <-app_assoc).
        assert (HlAp : length (A' ++ [p]) = mid + 1) by (rewrite app_length; simpl; lia).
        apply wp_slice_app; [done|lia|lia|].
        wp_apply (IHf (length B) (Some p) limit' true true B); [done|lia| | |].
        + intros q Hq. by injection Hq as <-.
        + intros [] B' _ [HpB HsB] _. rewrite app_nil_r, <-app_assoc. simpl. by apply HfinE.
        + intros e' B' _ (_ & _ & HpB) _. rewrite app_nil_r, <-app_assoc. simpl. by apply HfinE. }
    destruct (Nat.ltb_spec mid (n - (mid + 1))).
    - (* recurse left, continue right *)
      apply wp_bind. change (A ++ p :: B) with ([] ++ A ++ p :: B).
      apply wp_slice_app; [done|simpl; lia|lia|].
      wp_apply (IHf (length A) pred limit' true true A); [done|lia|done| |].
      2: { intros e A' _ (He & Hex & HpA) _. simpl. by apply HfinE. }
      intros [] A' HlA' [HpA HsA] _. simpl.
      replace (A' ++ p :: B) with ((A' ++ [p]) ++ B ++ []) by (by rewrite app_nil_r, <-app_assoc).
      assert (HlAp : length (A' ++ [p]) = mid + 1) by (rewrite app_length; simpl; lia).
      apply wp_slice_app; [done|lia|lia|].
      wp_apply (IHf (length B) (Some p) limit' (n / 8 <=? Nat.min mid (n - mid)) was_p B); [done|lia| | |].
      + intros q Hq. by injection Hq as <-.
      + intros [] B' _ [HpB HsB] _. rewrite app_nil_r, <-app_assoc. simpl. by apply HfinS.
      + intros e B' _ (He & Hex & HpB) _. rewrite app_nil_r, <-app_assoc. simpl. by apply HfinE.
    - (* recurse right, continue left *)
      apply wp_bind.
      replace (A ++ p :: B) with ((A ++ [p]) ++ B ++ []) by (by rewrite app_nil_r, <-app_assoc).
      assert (HlAp : length (A ++ [p]) = mid + 1) by (rewrite app_length; simpl; lia).
      apply wp_slice_app; [done|lia|lia|].
      wp_apply (IHf (length B) (Some p) limit' true true B); [done|lia| | |].
      { intros q Hq. by injection Hq as <-. }
      2: { intros e B' _ (He & Hex & HpB) _. rewrite app_nil_r, <-app_assoc. simpl. by apply HfinE. }
      intros [] B' HlB' [HpB HsB] _. rewrite app_nil_r, <-app_assoc. simpl.
      change (A ++ p :: B') with ([] ++ A ++ p :: B').
      apply wp_slice_app; [done|simpl; lia|lia|].
      wp_apply (IHf (length A) pred limit' (n / 8 <=? Nat.min mid (n - mid)) was_p A); [done|lia|done| |].
      + intros [] A' _ [HpA HsA] _. simpl. by apply HfinS.
      + intros e A' _ (He & Hex & HpA) _. simpl. by apply HfinE.
  Qed.

  Lemma par_quick_sort_spec n l :
    n = length l → zst c = false →
    Prog.wp ans (par_quick_sort c n) (λ _ l', l' ≡ₚ l ∧ ksorted l') (upanic ans l) l.
  Proof.
    intros Hn Hz. unfold par_quick_sort. rewrite Hz. apply par_qs_recurse_spec; [done|lia|done].
  Qed.
End quick.

Section indices.
  Context {T : Type} (c : cfg) (ans : T * T → option bool → Prop).
  Notation kle := (kle ans).
  Notation selected := (selected ans).
  Implicit Types (l A B : list T).

  Lemma par_partition_at_indices_spec fuel n base offset vlen inds l :
    n = length l → length inds < fuel → length inds ≤ vlen → fits c (offset + n) →
    wp ans (par_partition_at_indices c fuel n base offset vlen inds)
      (λ r l', l' ≡ₚ l ∧ valid_indices offset n inds ∧
         length r = vlen ∧ take (length inds) r = map (λ i, Some (base + (i - offset))) inds ∧
         (zst c = false → Forall (λ i, selected l' (i - offset)) inds))
      (ipanic c ans offset n inds l) l.
  Proof.
    revert n base offset vlen inds l.
    induction fuel as [|f IHf]; intros n base offset vlen inds l Hn Hf Hd Hfit; [lia|].
    destruct inds as [|i0 inds0].
    { cbn. apply wp_ret. split; [done|]. split; [by split; constructor|].
      split; [apply replicate_length|]. split; [done|]. intros _. constructor. }
    cbn [par_partition_at_indices].
    remember (i0 :: inds0) as inds eqn:Hinds.
    assert (Hlen : 0 < length inds) by (subst; simpl; lia). clear Hinds i0 inds0.
    cbv zeta. set (at_ := length inds / 2).
    assert (Hat : at_ < length inds) by (apply Nat.div_lt; lia).
    assert (Hat2 : 2 * at_ ≤ length inds) by (apply Nat.mul_div_le; lia).
    assert (Hat3 : length inds ≤ 2 * at_ + 1).
    { unfold at_. pose proof (Nat.div_mod (length inds) 2).
      pose proof (Nat.mod_upper_bound (length inds) 2). lia. }
    clearbody at_.
    assert (Hsplit : inds = take at_ inds ++ drop at_ inds) by (by rewrite take_drop).
    assert (Hll : length (take at_ inds) = at_) by (rewrite take_length; lia).
    destruct (drop at_ inds) as [|pivot rinds] eqn:Hdrop.
    { apply (f_equal length) in Hdrop. rewrite drop_length in Hdrop. simpl in Hdrop. lia. }
    set (linds := take at_ inds) in *. clearbody linds. clear Hdrop. subst inds.
    rewrite app_length in *. simpl in *.
    (* the relative index *)
    apply wp_bind.
    eapply (wp_mono _ _ (λ i l', l' = l ∧ (i = pivot - offset ∧ offset ≤ pivot ∨
        n ≤ i ∧ pivot < offset)) _ (ipanic c ans offset n (linds ++ pivot :: rinds) l)); [| |by auto].
    { unfold rel_index. destruct (Nat.leb_spec offset pivot); [by apply wp_ret; auto|].
      destruct (ovf c) eqn:Hovf.
      - apply wp_throw. split; [done|]. right. split; [by right|].
        rewrite valid_split. lia.
      - apply wp_ret. split; [done|]. right. split; [|done].
        destruct (N.ltb_spec (N.of_nat pivot + (if wide c then 2 ^ 64 else 2 ^ 32) - N.of_nat offset)
          (N.of_nat n)); [|done].
        exfalso. unfold fits in Hfit. destruct (wide c); lia. }
    intros i l' _ [-> Hi].
    (* the selection *)
    apply wp_bind. wp_apply (partition_at_index_spec c ans n i l); [done| |].
    2: { intros e l' _ [[Hs Hin]|(-> & Hni & ->)].
         - split; [by destruct Hs|auto].
         - split; [done|]. right. split; [auto|]. rewrite valid_split. lia. }
    intros [[lv value] rv] l1 Hl1 (Hp1 & Hin & Hparts & Hsel).
    unfold parts in Hparts. injection Hparts as -> -> ->. simpl.
    destruct Hi as [[-> Hop]|[? ?]]; [|lia].
    set (i := pivot - offset) in *.
    (* split the array *)
    assert (∃ A p B, l1 = A ++ p :: B ∧ length A = i ∧
       (zst c = false → Forall (λ x, kle x p) A ∧ Forall (kle p) B))
      as (A & p & B & -> & HlA & HAB).
    { destruct (zst c) eqn:Hz.
      - destruct (lookup_lt_is_Some_2 l1 i) as [p Hp]; [lia|].
        exists (take i l1), p, (drop (S i) l1). split; [by rewrite take_drop_middle|].
        split; [rewrite take_length; lia|done].
      - destruct (selected_inv _ _ _ (Hsel eq_refl)) as (A & p & B & ? & ? & ? & ?).
        exists A, p, B. auto. }
    rewrite app_length in Hl1. simpl in Hl1.
    rewrite (proj2 (Nat.leb_gt vlen at_)) by lia.
    (* both orders of execution end the same way *)
    assert (HEl : ∀ e A' B', B' ≡ₚ B → length A' = length A → ipanic c ans offset (length A) linds A e A' →
      ipanic c ans offset n (linds ++ pivot :: rinds) l e (A' ++ p :: B')).
    { intros e A' B' HpB _ [HpA He].
      assert (HpAll : A' ++ p :: B' ≡ₚ l) by (rewrite HpA, HpB; done). split; [done|].
      destruct He as [[_ He]|[He Hv]].
      - left. by split.
      - right. split; [done|]. rewrite valid_split. intros (_ & Hvl & _).
        apply Hv. by replace (length A) with (pivot - offset) by lia. }
    assert (HEr : ∀ e A' B', A' ≡ₚ A → ipanic c ans (pivot + 1) (length B) rinds B e B' →
      ipanic c ans offset n (linds ++ pivot :: rinds) l e (A' ++ p :: B')).
    { intros e A' B' HpA [HpB He].
      assert (HpAll : A' ++ p :: B' ≡ₚ l) by (rewrite HpA, HpB; done). split; [done|].
      destruct He as [[_ He]|[He Hv]].
      - left. by split.
      - right. split; [done|]. rewrite valid_split. intros (_ & _ & Hvr).
        apply Hv. by replace (length B) with (n - (pivot - offset + 1)) by lia. }
    pose (Φ := λ (r : list (option nat) * list (option nat)) (l' : list T), ∃ A' B', l' = A' ++ p :: B' ∧
      A' ≡ₚ A ∧ B' ≡ₚ B ∧ valid_indices offset (length A) linds ∧
      valid_indices (pivot + 1) (length B) rinds ∧ length r.1 = at_ ∧
      take (length linds) r.1 = map (λ j, Some (base + (j - offset))) linds ∧
      length r.2 = vlen - at_ - 1 ∧
      take (length rinds) r.2 = map (λ j, Some (base + (i + 1) + (j - (pivot + 1)))) rinds ∧
      (zst c = false → Forall (λ j, selected A' (j - offset)) linds) ∧
      (zst c = false → Forall (λ j, selected B' (j - (pivot + 1))) rinds)).
    assert (Hright : ∀ A' (Φr : list (option nat) → list T → Prop) (Er : exn → list T → Prop), length A' = length A →
      (∀ rs B', length B' = length B → B' ≡ₚ B → valid_indices (pivot + 1) (length B) rinds →
         length rs = vlen - at_ - 1 →
         take (length rinds) rs = map (λ j, Some (base + (i + 1) + (j - (pivot + 1)))) rinds →
         (zst c = false → Forall (λ j, selected B' (j - (pivot + 1))) rinds) →
         Φr rs (A' ++ p :: B')) →
      (∀ e B', length B' = length B → ipanic c ans (pivot + 1) (length B) rinds B e B' →
         Er e (A' ++ p :: B')) →
      wp ans (slice n (i + 1) (i + 1 + (n - (i + 1))) (λ m,
        par_partition_at_indices c f m (base + (i + 1)) (pivot + 1) (vlen - at_ - 1) rinds))
        Φr Er (A' ++ p :: B)).
    { intros A' Φr Er HlA' HΦr HEr'.
      replace (A' ++ p :: B) with ((A' ++ [p]) ++ B ++ []) by (by rewrite app_nil_r, <-app_assoc).
      apply wp_slice_app; [rewrite app_length; simpl; lia|lia|lia|].
      wp_apply (IHf (length B) (base + (i + 1)) (pivot + 1) (vlen - at_ - 1) rinds B);
        [done|lia|lia|unfold fits in *; destruct (wide c); lia| |].
      - intros rs B' HlB' (HpB & HvB & Hlr & Hrs & HsB) _. rewrite app_nil_r, <-app_assoc. by apply HΦr.
      - intros e B' HlB' He _. rewrite app_nil_r, <-app_assoc. by apply HEr'. }
    assert (Hleft : ∀ (Φl : list (option nat) → list T → Prop) (El : exn → list T → Prop),
      (∀ ls A', length A' = length A → A' ≡ₚ A → valid_indices offset (length A) linds →
         length ls = at_ →
         take (length linds) ls = map (λ j, Some (base + (j - offset))) linds →
         (zst c = false → Forall (λ j, selected A' (j - offset)) linds) →
         Φl ls (A' ++ p :: B)) →
      (∀ e A', length A' = length A → ipanic c ans offset (length A) linds A e A' →
         El e (A' ++ p :: B)) →
      wp ans (slice n 0 (0 + i) (λ m,
        par_partition_at_indices c f m (base + 0) offset at_ linds)) Φl El (A ++ p :: B)).
    { intros Φl El HΦl HEl'. change (A ++ p :: B) with ([] ++ A ++ p :: B).
      apply wp_slice_app; [done|simpl; lia|lia|].
      wp_apply (IHf (length A) (base + 0) offset at_ linds A);
        [done|lia|lia|unfold fits in *; destruct (wide c); lia| |].
      - intros ls A' HlA' (HpA & HvA & Hlr & Hls & HsA) _. simpl. apply HΦl; try done.
        rewrite Hls. apply map_ext. intros j. do 2 f_equal. lia.
      - intros e A' HlA' He _. simpl. by apply HEl'. }
    apply wp_bind.
    eapply (wp_mono _ _ Φ _ (ipanic c ans offset n (linds ++ pivot :: rinds) l)); [| |by auto].
    { destruct ((at_ =? 0) || sequential i).
      - apply wp_bind. apply Hleft.
        2: { intros e A' HlA' He. by apply HEl. }
        intros ls A' HlA' HpA HvA Hlls Hls HsA. apply wp_bind, Hright; [done| |].
        + intros rs B' HlB' HpB HvB Hlrs Hrs HsB. apply wp_ret.
          exists A', B'. simpl. auto 20.
        + intros e B' HlB' He. by apply HEr.
      - apply wp_join, Hleft.
        + intros ls A' HlA' HpA HvA Hlls Hls HsA. apply Hright; [done| |].
          * intros rs B' HlB' HpB HvB Hlrs Hrs HsB. exists A', B'. simpl. auto 20.
          * intros e B' HlB' He. by apply HEr.
        + intros e A' HlA' He. apply Hright; [done| |].
          * intros rs B' HlB' HpB HvB Hlrs Hrs HsB. by apply HEl.
          * intros e' B' HlB' [HpB He']. by apply HEl. }
    intros [ls rs] l' Hl' (A' & B' & -> & HpA & HpB & HvA & HvB & Hlls & Hls & Hlrs & Hrs & HsA & HsB).
    simpl in *. clear Hleft Hright Φ HEl HEr.
    assert (HlA' : length A' = length A) by (by rewrite HpA).
    assert (HlB' : length B' = length B) by (by rewrite HpB).
    apply wp_ret. split; [rewrite HpA, HpB; done|].
    assert (Hv : valid_indices offset n (linds ++ pivot :: rinds)).
    { apply valid_split. split; [lia|].
      replace (pivot - offset) with (length A) by lia. split; [done|].
      by replace (n - (length A + 1)) with (length B) by lia. }
    split; [done|]. split; [rewrite app_length; simpl; lia|]. split.
    { rewrite map_app. simpl. rewrite take_app_ge by lia.
      replace (length linds + S (length rinds) - length ls) with (S (length rinds)) by lia.
      cbn [take]. rewrite (take_ge ls) in Hls by lia. rewrite Hls, Hrs. f_equal. f_equal.
      apply map_ext_in. intros j Hj. f_equal.
      destruct HvB as [_ HvB]. rewrite Forall_forall in HvB.
      specialize (HvB j (proj2 (elem_of_list_In _ _) Hj)). lia. }
    intros Hz. specialize (HsA Hz). specialize (HsB Hz). destruct (HAB Hz) as [HA HB].
    assert (HA' : Forall (λ x, kle x p) A') by (by rewrite HpA).
    assert (HB' : Forall (kle p) B') by (by rewrite HpB).
    apply Forall_app. split; [|constructor].
    - eapply Forall_impl; [exact HsA|]. intros j. by apply selected_left.
    - replace (pivot - offset) with (length A') by lia. by apply selected_app.
    - destruct HvB as [_ HvB]. rewrite Forall_forall in HvB. rewrite Forall_forall in HsB.
      apply Forall_forall. intros j Hj. specialize (HvB j Hj). specialize (HsB j Hj).
      replace (j - offset) with (length A' + 1 + (j - (pivot + 1))) by lia.
      by apply selected_right.
  Qed.

  Lemma par_select_many_spec n vlen inds l :
    n = length l → length inds ≤ vlen → fits c n →
    wp ans (par_select_many c n vlen inds)
      (λ r l', l' ≡ₚ l ∧ valid_indices 0 n inds ∧ r = map Some inds ∧
         (zst c = false → Forall (λ i, selected l' i) inds))
      (ipanic c ans 0 n inds l) l.
  Proof.
    intros Hn Hv Hfit. apply wp_bind.
    wp_apply (par_partition_at_indices_spec (S (length inds)) n 0 0 vlen inds l);
      [done|lia|done|done| |auto].
    intros r l' _ (Hp & Hval & Hlen & Hr & Hs). apply wp_ret. split; [done|]. split; [done|]. split.
    - rewrite Hr. apply map_ext. intros j. f_equal. lia.
    - intros Hz. eapply Forall_impl; [exact (Hs Hz)|]. intros j. simpl. by rewrite Nat.sub_0_r.
  Qed.
End indices.
