(** * Proofs about the quicksort of MQuick.v. *)
From Verif Require Export MQuick PInsertion PHeap PPivot.
From stdpp Require Import list.

Section rngs.
  Context {T : Type} (P : T → Prop).
  Implicit Types (l : list T).
  Lemma rng_take l b : rng P l 0 b → Forall P (take b l).
  Proof.
    intros H. apply Forall_lookup. intros i x Hx.
    pose proof (lookup_lt_Some _ _ _ Hx) as Hi. rewrite take_length in Hi.
    rewrite lookup_take in Hx by lia. apply (H i); [lia|done].
  Qed.
  Lemma rng_drop l a n : n = length l → rng P l a n → Forall P (drop a l).
  Proof.
    intros Hn H. apply Forall_lookup. intros i x Hx.
    pose proof (lookup_lt_Some _ _ _ Hx) as Hi. rewrite drop_length in Hi.
    rewrite lookup_drop in Hx. apply (H (a + i)); [lia|done].
  Qed.
End rngs.

Global Arguments qs_recurse : simpl never.

Section quick.
  Context {T : Type} (c : cfg) (ans : T * T → option bool → Prop).
  Notation kle := (kle ans).
  Notation klt := (klt ans).
  Notation ksorted := (ksorted ans).
  Implicit Types (l : list T).

  Lemma qs_recurse_unfold d f n pred limit wb wp :
    qs_recurse (T:=T) c (S d) (S f) n pred limit wb wp =
      (if n <=? QS_MAX_INSERTION then
         if 2 <=? n then insertion_sort_shift_left c n 1 else Ret tt
       else if limit =? 0 then heap_sort n
       else
         bind (if wb then Ret limit
               else bind (break_patterns c n) (λ _, usub limit 1)) (λ limit,
         bind (choose_pivot n) (λ '(pivot, likely_sorted),
         bind (if wb && wp && likely_sorted
               then partial_insertion_sort c n else Ret false) (λ done : bool,
         if done then Ret tt
         else
           bind (match pred with
                 | Some p => bind (get n pivot) (λ x, bind (is_less p x) (λ r, Ret (negb r)))
                 | None => Ret false
                 end) (λ eq : bool,
           if eq then
             bind (partition_equal n pivot) (λ mid,
             slice n mid n (λ m, qs_recurse c (S d) f m pred limit wb wp))
           else
             bind (MPartition.partition c n pivot) (λ '(mid, was_p),
             bind (usub n mid) (λ nmid,
             bind (slice n mid n (λ m, slice m 0 1 (λ _, Ret tt))) (λ _,
             bind (get n mid) (λ p,
             if mid <? n - (mid + 1) then
               bind (slice n 0 mid (λ m, qs_recurse c d (S m) m pred limit true true)) (λ _,
               slice n (mid + 1) n (λ m, qs_recurse c (S d) f m (Some p) limit
                 (n / 8 <=? Nat.min mid nmid) was_p))
             else
               bind (slice n (mid + 1) n (λ m, qs_recurse c d (S m) m (Some p) limit true true)) (λ _,
               slice n 0 mid (λ m, qs_recurse c (S d) f m pred limit
                 (n / 8 <=? Nat.min mid nmid) was_p))))))))))).
  Proof. reflexivity. Qed.

  Lemma ksorted_three A p B :
    ksorted A → ksorted B → Forall (λ x, kle x p) A → Forall (kle p) B → ksorted (A ++ p :: B).
  Proof.
    intros HA HB HAp HpB. apply ksorted_app. split; [done|]. split; [by constructor|].
    intros x y Hx Hy. rewrite Forall_forall in HAp, HpB.
    apply elem_of_cons in Hy as [->|Hy]; [auto|].
    apply (kle_trans ans _ p); auto.
  Qed.

  Lemma bound_split l mid p :
    l !! mid = Some p → l = take mid l ++ p :: drop (S mid) l.
  Proof. intros. by rewrite take_drop_middle. Qed.

  Lemma qs_recurse_spec depth fuel n pred limit wb wp l :
    n = length l → n < fuel → n < 2 ^ (depth - 1) → 0 < depth →
    (∀ p, pred = Some p → Forall (kle p) l) →
    Prog.wp ans (qs_recurse c depth fuel n pred limit wb wp)
      (λ _ l', l' ≡ₚ l ∧ ksorted l') (upanic ans l) l.
  Proof.
    revert fuel n pred limit wb wp l.
    induction depth as [|d IHd]; intros fuel; [lia|].
    induction fuel as [|f IHf]; intros n pred limit wb wp l Hn Hf Hd _ Hpred; [lia|].
    rewrite qs_recurse_unfold. replace (S d - 1) with d in Hd by lia.
    unfold QS_MAX_INSERTION. destruct (Nat.leb_spec n 20) as [Hs|Hs].
    { destruct (Nat.leb_spec 2 n).
      - wp_apply (insertion_sort_shift_left_spec c ans n 1 l); [done|lia| |by auto].
        intros [] l' _ [Hsp Hso]. split; [by apply (sperm_perm ans)|]. apply Hso.
        destruct l; [constructor|]. simpl. apply ksorted_singleton.
      - apply wp_ret. split; [done|].
        destruct l as [|? [|]]; [constructor|apply ksorted_singleton|simpl in *; lia]. }
    destruct (Nat.eqb_spec limit 0) as [Hl|Hl].
    { wp_apply (heap_sort_spec ans n l); [done| |by auto]. auto. }
    (* break_patterns *)
    apply wp_bind.
    eapply (wp_mono _ _ (λ _ l', l' ≡ₚ l) _ (upanic ans l)); [| |by auto].
    { destruct wb; [by apply wp_ret|]. apply wp_bind.
      wp_apply (break_patterns_spec ans c n l (upanic ans l)); [done| |by auto].
      intros [] l' _ Hp. apply wp_usub; [lia|done]. }
    intros limit' l1 Hl1 Hp1.
    (* choose_pivot *)
    apply wp_bind. wp_apply (choose_pivot_spec ans n l1); [lia|lia| |].
    2: { intros e l' _ Hu. by eapply upanic_perm. }
    intros [pivot likely] l2 Hl2 [Hp2 Hpiv]. rewrite Hp1 in Hp2.
    (* partial insertion sort *)
    apply wp_bind.
    eapply (wp_mono _ _ (λ b l', l' ≡ₚ l ∧ (b = true → ksorted l')) _ (upanic ans l)); [| |by auto].
    { destruct (wb && wp && likely).
      - wp_apply (partial_insertion_sort_spec c ans n l2); [lia| |].
        + intros b l' _ [Hp Hb]. split; [by rewrite Hp|done].
        + intros e l' _ Hu. by eapply upanic_perm.
      - by apply wp_ret. }
    intros b l3 Hl3 [Hp3 Hb]. destruct b.
    { apply wp_ret. auto. }
    clear Hb.
    destruct (lookup_lt_is_Some_2 l3 pivot) as [p Hp]; [lia|].
    assert (Hpred3 : ∀ q, pred = Some q → Forall (kle q) l3).
    { intros q Hq. rewrite Hp3. auto. }
    (* compare with the predecessor *)
    apply wp_bind.
    eapply (wp_mono _ _ (λ b l', l' = l3 ∧ (b = true → ∃ q, pred = Some q ∧ kle p q))
       _ (upanic ans l)); [| |by auto].
    { destruct pred as [q|]; [|by apply wp_ret].
      apply wp_bind, wp_get; [lia|lia|]. intros x Hx. rewrite Hp in Hx. injection Hx as <-.
      apply wp_bind, wp_is_less; [|intros Hr; by eapply upanic_intro].
      intros r Hr. apply wp_ret. split; [done|]. intros Hb. exists q. split; [done|].
      apply ans_false. by destruct r. }
    intros eq l' _ [-> Heq]. destruct eq.
    { (* equal to the predecessor *)
      destruct (Heq eq_refl) as (q & Hq & Hpq).
      apply wp_bind. wp_apply (partition_equal_spec ans n pivot l3 p); [lia|done| |].
      2: { intros e l' _ Hu. by eapply upanic_perm. }
      intros mid l4 Hl4 (Hp4 & Hmid & Hmid0 & Hlo & Hhi).
      specialize (Hmid0 ltac:(lia)). specialize (Hhi ltac:(lia)).
      apply rng_take in Hlo. apply rng_drop in Hhi; [|lia].
      assert (Hl4' : l4 = take mid l4 ++ drop mid l4 ++ []).
      { by rewrite app_nil_r, take_drop. }
      assert (Hpred4 : Forall (kle q) l4) by (rewrite Hp4; auto).
      assert (Hlt : length (take mid l4) = mid) by (rewrite take_length; lia).
      assert (Hld : length (drop mid l4) = n - mid) by (rewrite drop_length; lia).
      rewrite Hl4' at 1.
      apply wp_slice_app; [done|rewrite Hld; lia|lia|].
      wp_apply (IHf (length (drop mid l4)) pred limit' wb wp (drop mid l4)); [done|lia|rewrite Nat.sub_succ, Nat.sub_0_r; lia|lia| | |].
      - intros q' Hq'. apply Forall_drop. rewrite Hq in Hq'. by injection Hq' as <-.
      - intros [] m _ [Hpm Hsm] Hlm. rewrite app_nil_r.
        split; [rewrite Hpm, take_drop; by rewrite Hp4|].
        apply ksorted_app. split; [|split; [done|]].
        + apply ksorted_lookup. intros i x y Hx Hy.
          apply (kle_trans ans _ p); [exact (Forall_lookup_1 _ _ _ _ Hlo Hx)|].
          apply (kle_trans ans _ q); [done|].
          eapply Forall_forall; [apply Forall_take, Hpred4|]. by eapply elem_of_list_lookup_2.
        + intros x y Hx Hy. rewrite Hpm in Hy.
          rewrite Forall_forall in Hlo, Hhi.
          apply (kle_trans ans _ p); [by apply Hlo|]. by apply klt_kle, Hhi.
      - intros e m _ (He & Hex & Hpm) Hlm. rewrite app_nil_r. split; [done|]. split; [done|].
        rewrite Hpm, take_drop. by rewrite Hp4. }
    (* partition *)
    apply wp_bind. wp_apply (partition_spec c ans n pivot l3 p); [lia|done| |].
    2: { intros e l' _ Hu. by eapply upanic_perm. }
    intros [mid was_p] l4 Hl4 (Hp4 & Hmp & Hlo & Hhi).
    pose proof (lookup_lt_Some _ _ _ Hmp) as Hmid.
    apply rng_take in Hlo. apply rng_drop in Hhi; [|lia].
    apply wp_bind, wp_usub; [lia|].
    apply wp_bind, wp_slice; [lia|lia|lia|].
    apply wp_slice_check; [lia|lia|rewrite sub_length; lia|]. intros Hls.
    assert (Hwhole : take mid l4 ++ take (n - mid) (drop mid l4) ++ drop n l4 = l4).
    { rewrite (drop_ge l4 n) by lia. rewrite app_nil_r.
      rewrite (take_ge (drop mid l4)) by (rewrite drop_length; lia). by rewrite take_drop. }
    rewrite Hwhole. clear Hls Hwhole.
    apply wp_bind, wp_get; [lia|lia|]. intros p' Hp'. rewrite Hmp in Hp'. injection Hp' as <-.
    assert (Hp04 : l4 ≡ₚ l) by (by rewrite Hp4).
    assert (Hpred4 : ∀ q, pred = Some q → Forall (kle q) l4).
    { intros q Hq. rewrite Hp4. auto. }
    clear Hp4 Heq Hpred3 Hp3 Hp.
    set (A := take mid l4) in *. set (B := drop (S mid) l4) in *.
    assert (Hl4e : l4 = A ++ p :: B) by (by apply bound_split).
    assert (HlA : length A = mid) by (unfold A; rewrite take_length; lia).
    assert (HlB : length B = n - (mid + 1)) by (unfold B; rewrite drop_length; lia).
    clearbody A B. subst l4.
    assert (HpredA : ∀ q, pred = Some q → Forall (kle q) A).
    { intros q Hq. specialize (Hpred4 q Hq). by apply Forall_app in Hpred4 as [? _]. }
    assert (HfinS : ∀ A' B', A' ≡ₚ A → B' ≡ₚ B → ksorted A' → ksorted B' →
              A' ++ p :: B' ≡ₚ l ∧ ksorted (A' ++ p :: B')).
    { intros A' B' HA HB HsA HsB. split; [by rewrite HA, HB|].
      apply ksorted_three; [done|done| |by rewrite HB].
      rewrite HA. eapply Forall_impl; [exact Hlo|]. intros. by apply klt_kle. }
    assert (HfinE : ∀ A' B' e, A' ≡ₚ A → B' ≡ₚ B → e = UserPanic → (∃ q, ans q None) →
              upanic ans l e (A' ++ p :: B')).
    { intros A' B' e HA HB He Hex. split; [done|]. split; [done|]. by rewrite HA, HB. }
    assert (Hd' : d ≠ 0) by (intros ->; simpl in Hd; lia).
    assert (Hpow : 2 ^ d = 2 * 2 ^ (d - 1)).
    { replace d with (S (d - 1)) at 1 by lia. by rewrite Nat.pow_succ_r'. }
    destruct (Nat.ltb_spec mid (n - (mid + 1))).
    - (* recurse left, continue right *)
      apply wp_bind. change (A ++ p :: B) with ([] ++ A ++ p :: B).
      apply wp_slice_app; [done|simpl; lia|lia|].
      wp_apply (IHd (S (length A)) (length A) pred limit' true true A);
        [done|lia|lia|lia|done| |].
      2: { intros e A' _ (He & Hex & HpA) _. simpl. by apply HfinE. }
      intros [] A' HlA' [HpA HsA] _. simpl.
      replace (A' ++ p :: B) with ((A' ++ [p]) ++ B ++ []) by (by rewrite app_nil_r, <-app_assoc).
      assert (HlAp : length (A' ++ [p]) = mid + 1) by (rewrite app_length; simpl; lia).
      apply wp_slice_app; [done|lia|lia|].
      wp_apply (IHf (length B) (Some p) limit' (n / 8 <=? Nat.min mid (n - mid)) was_p B); [done|lia|rewrite Nat.sub_succ, Nat.sub_0_r; lia|lia| | |].
      + intros q Hq. by injection Hq as <-.
      + intros [] B' _ [HpB HsB] _. rewrite app_nil_r, <-app_assoc. simpl. by apply HfinS.
      + intros e B' _ (He & Hex & HpB) _. rewrite app_nil_r, <-app_assoc. simpl. by apply HfinE.
    - (* recurse right, continue left *)
      apply wp_bind.
      replace (A ++ p :: B) with ((A ++ [p]) ++ B ++ []) by (by rewrite app_nil_r, <-app_assoc).
      assert (HlAp : length (A ++ [p]) = mid + 1) by (rewrite app_length; simpl; lia).
      apply wp_slice_app; [done|lia|lia|].
      wp_apply (IHd (S (length B)) (length B) (Some p) limit' true true B);
        [done|lia|lia|lia| | |].
      { intros q Hq. by injection Hq as <-. }
      2: { intros e B' _ (He & Hex & HpB) _. rewrite app_nil_r, <-app_assoc. simpl. by apply HfinE. }
      intros [] B' HlB' [HpB HsB] _. rewrite app_nil_r, <-app_assoc. simpl.
      change (A ++ p :: B') with ([] ++ A ++ p :: B').
      apply wp_slice_app; [done|simpl; lia|lia|].
      wp_apply (IHf (length A) pred limit' (n / 8 <=? Nat.min mid (n - mid)) was_p A); [done|lia|rewrite Nat.sub_succ, Nat.sub_0_r; lia|lia|done| |].
      + intros [] A' _ [HpA HsA] _. simpl. by apply HfinS.
      + intros e A' _ (He & Hex & HpA) _. simpl. by apply HfinE.
  Qed.

  Lemma bit_length_spec n : n < 2 ^ bit_length n.
  Proof.
    destruct n as [|n]; [simpl; lia|]. unfold bit_length.
    apply Nat.log2_spec. lia.
  Qed.

  Lemma quick_sort_spec n l :
    n = length l → zst c = false →
    Prog.wp ans (quick_sort c n) (λ _ l', l' ≡ₚ l ∧ ksorted l') (upanic ans l) l.
  Proof.
    intros Hn Hz. unfold quick_sort. rewrite Hz.
    apply qs_recurse_spec; [done|lia| |lia|done].
    replace (S (bit_length n) - 1) with (bit_length n) by lia. apply bit_length_spec.
  Qed.
End quick.
