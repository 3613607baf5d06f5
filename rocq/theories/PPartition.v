(** * Proofs about the partitioning functions of MPartition.v. *)
From Verif Require Export WpOps MPartition.
From stdpp Require Import list.

(** All elements at positions [a .. b-1] satisfy [P]. *)
Definition rng {T} (P : T → Prop) (l : list T) (a b : nat) : Prop :=
  ∀ i x, a ≤ i < b → l !! i = Some x → P x.

Section rng.
  Context {T : Type}.
  Implicit Types (P : T → Prop) (l : list T).

  Lemma rng_nil P l a b : b ≤ a → rng P l a b.
  Proof. intros ? i x ?. lia. Qed.
  Lemma rng_app P l a b d : rng P l a b → rng P l b d → rng P l a d.
  Proof.
    intros H1 H2 i x Hi Hx. destruct (decide (i < b)); [eapply H1|eapply H2]; eauto; lia.
  Qed.
  Lemma rng_sub P l a b a' b' : rng P l a b → a ≤ a' → b' ≤ b → rng P l a' b'.
  Proof. intros H ? ? i x Hi. apply H. lia. Qed.
  Lemma rng_snoc P l a b x : rng P l a b → l !! b = Some x → P x → rng P l a (S b).
  Proof.
    intros H Hx HP i y Hi Hy. destruct (decide (i = b)) as [->|]; [congruence|].
    eapply H; eauto. lia.
  Qed.
  Lemma rng_cons P l a b x : rng P l (S a) b → l !! a = Some x → P x → rng P l a b.
  Proof.
    intros H Hx HP i y Hi Hy. destruct (decide (i = a)) as [->|]; [congruence|].
    eapply H; eauto. lia.
  Qed.
  Lemma rng_swap_out P l a b i j :
    i < length l → j < length l → (i < a ∨ b ≤ i) → (j < a ∨ b ≤ j) →
    rng P l a b → rng P (swapl i j l) a b.
  Proof.
    intros Hi Hj ?? H k x Hk Hx. rewrite lookup_swapl in Hx by done.
    rewrite !decide_False in Hx by lia. by eapply H.
  Qed.
  Lemma rng_impl P P' l a b : (∀ x, P x → P' x) → rng P l a b → rng P' l a b.
  Proof. intros HP H i x Hi Hx. eauto. Qed.
End rng.

Section partition_equal.
  Context {T : Type} (ans : T * T → option bool → Prop).
  Notation kle := (kle ans).
  Notation klt := (klt ans).
  Implicit Types (l : list T).

  Lemma pe_scan_l_spec fuel n pivot a r l :
    n = length l → a ≤ r → r ≤ n → r < fuel + a →
    wp ans (pe_scan_l fuel n pivot a r)
      (λ a' l', l' = l ∧ a ≤ a' ≤ r ∧ rng (λ x, kle x pivot) l a a' ∧
                (a' < r → rng (klt pivot) l a' (S a')))
      (upanic ans l) l.
  Proof.
    intros Hn. revert a. induction fuel as [|f IH]; intros a Ha Hr Hf; [lia|]. simpl.
    destruct (Nat.ltb_spec a r).
    - apply wp_bind, wp_uget; [lia|lia|]. intros x Hx.
      apply wp_bind, wp_is_less; [|intros Hr'; by eapply upanic_intro].
      intros [] Hb.
      + apply wp_ret. repeat split; [lia|lia|apply rng_nil; lia|].
        intros _. eapply rng_cons; [apply rng_nil; lia|done|by apply ans_true].
      + wp_apply (IH (S a)); [lia|lia|lia| |by auto].
        intros a' l' _ (-> & Ha' & Hrn & Hend). repeat split; [lia|lia| |done].
        eapply rng_cons; [done|done|by apply ans_false].
    - apply wp_ret. repeat split; [lia|lia|apply rng_nil; lia|lia].
  Qed.

  Lemma pe_scan_r_spec fuel n pivot a r l :
    n = length l → 0 < r → a ≤ r → r ≤ n → r ≤ fuel + a → 0 < fuel →
    wp ans (pe_scan_r fuel n pivot a r)
      (λ r' l', l' = l ∧ r' < r ∧ a ≤ S r' ∧ rng (klt pivot) l (S r') r ∧
                (a < r' → rng (λ x, kle x pivot) l r' (S r')))
      (upanic ans l) l.
  Proof.
    intros Hn. revert r. induction fuel as [|f IH]; intros r Hr0 Har Hrn Hf Hf0; [lia|]. simpl.
    apply wp_bind, wp_usub; [lia|].
    destruct (Nat.leb_spec (r - 1) a).
    - apply wp_ret. repeat split; [lia|lia|apply rng_nil; lia|lia].
    - apply wp_bind, wp_uget; [lia|lia|]. intros x Hx.
      apply wp_bind, wp_is_less; [|intros Hr'; by eapply upanic_intro].
      intros [] Hb.
      + wp_apply (IH (r - 1)); [lia|lia|lia|lia|lia| |by auto].
        intros r' l' _ (-> & Hr' & Ha' & Hrg & Hend). repeat split; [lia|lia| |done].
        eapply rng_app; [exact Hrg|].
        eapply rng_cons; [apply rng_nil; lia|done|by apply ans_true].
      + apply wp_ret. repeat split; [lia|lia|apply rng_nil; lia|].
        intros _. eapply rng_cons; [apply rng_nil; lia|done|by apply ans_false].
  Qed.

  Lemma pe_loop_spec fuel n pivot a r l :
    n = length l → 0 < r → a ≤ r → r ≤ n → r < fuel + a →
    rng (λ x, kle x pivot) l 0 a → rng (klt pivot) l r n →
    wp ans (pe_loop fuel n pivot a r)
      (λ k l', l' ≡ₚ l ∧ k ≤ n ∧ rng (λ x, kle x pivot) l' 0 k ∧ rng (klt pivot) l' k n)
      (upanic ans l) l.
  Proof.
    revert a r l. induction fuel as [|f IH]; intros a r l Hn Hr0 Har Hrn Hf Hlo Hhi; [lia|]. simpl.
    apply wp_bind. wp_apply (pe_scan_l_spec (S n) n pivot a r l); [done|lia|lia|lia| |by auto].
    intros a' l' _ (-> & Ha' & Hrl & Hel).
    apply wp_bind. wp_apply (pe_scan_r_spec (S n) n pivot a' r l); [done|lia|lia|lia|lia|lia| |by auto].
    intros r' l' _ (-> & Hr' & Har' & Hrr & Her).
    assert (Hlo' : rng (λ x, kle x pivot) l 0 a') by (by eapply rng_app).
    destruct (Nat.leb_spec r' a').
    - apply wp_ret. split; [done|]. split; [lia|]. split; [done|].
      eapply rng_app; [|exact Hhi].
      destruct (decide (a' < r)); [|apply rng_nil; lia].
      apply rng_app with (S a'); [auto|]. eapply rng_sub; [exact Hrr|lia|lia].
    - apply wp_bind, wp_uswap; [lia|lia|lia|].
      wp_apply (IH (S a') r' (swapl a' r' l)).
      + by rewrite swapl_length.
      + lia.
      + lia.
      + lia.
      + lia.
      + destruct (lookup_lt_is_Some_2 l r') as [y Hy]; [lia|].
        apply rng_snoc with y.
        * apply rng_swap_out; [lia|lia|lia|lia|done].
        * rewrite lookup_swapl by lia. by rewrite decide_True.
        * apply (Her ltac:(lia) r' y); [lia|done].
      + destruct (lookup_lt_is_Some_2 l a') as [y Hy]; [lia|].
        apply rng_cons with y.
        * apply rng_swap_out; [lia|lia|lia|lia|]. by eapply rng_app.
        * rewrite lookup_swapl by lia. by rewrite decide_False, decide_True by lia.
        * apply (Hel ltac:(lia) a' y); [lia|done].
      + intros k l' _ (Hp & Hk & H1 & H2). split; [|done]. rewrite Hp. apply swapl_perm; lia.
      + intros e l' _ Hu. eapply upanic_perm; [exact Hu|]. apply swapl_perm; lia.
  Qed.

  Lemma partition_equal_spec n pivot l p :
    n = length l → l !! pivot = Some p →
    wp ans (partition_equal n pivot)
      (λ mid l', l' ≡ₚ l ∧ mid ≤ n ∧ (1 < n → 0 < mid) ∧
                 rng (λ x, kle x p) l' 0 mid ∧ (1 < n → rng (klt p) l' mid n))
      (upanic ans l) l.
  Proof.
    intros Hn Hp. pose proof (lookup_lt_Some _ _ _ Hp) as Hpl.
    unfold partition_equal.
    apply wp_bind, wp_swap; [lia|lia|lia|].
    pose proof (swapl_perm 0 pivot l) as Hsp. specialize (Hsp ltac:(lia) ltac:(lia)).
    assert (Hl1 : swapl 0 pivot l !! 0 = Some p).
    { rewrite lookup_swapl by lia. by rewrite decide_True. }
    assert (Hln : length (swapl 0 pivot l) = n) by (by rewrite swapl_length).
    destruct (swapl 0 pivot l) as [|p' m]; [done|]. injection Hl1 as ->.
    simpl in Hln.
    apply wp_bind, wp_slice_check; [lia|lia|simpl; lia|].
    apply wp_bind, wp_get; [lia|simpl; lia|]. intros tmp Ht. injection Ht as <-.
    apply wp_bind, wp_on_unwind.
    destruct (Nat.eqb_spec (n - 1) 0) as [H0|H0].
    { apply wp_ret. apply wp_bind, wp_uput; [lia|simpl; lia|]. apply wp_ret. simpl.
      repeat split; [done|lia|lia|apply rng_nil; lia|lia]. }
    apply wp_bind.
    assert (Hm : p :: m = [p] ++ m ++ []) by (by rewrite app_nil_r).
    rewrite Hm at 1.
    apply wp_slice_app; [done|simpl; lia|lia|].
    wp_apply (pe_loop_spec (S (length m)) (length m) p 0 (length m) m);
      [done|lia|lia|lia|lia|apply rng_nil; lia|apply rng_nil; lia| |].
    - intros k m' _ (Hpm & Hk & Hlo & Hhi) Hlm. simpl. rewrite app_nil_r. apply wp_ret.
      apply wp_bind, wp_uput; [lia|simpl; lia|]. simpl. apply wp_ret.
      split; [by rewrite Hpm|]. split; [lia|]. split; [lia|]. split.
      + intros i x Hi Hx. destruct i as [|i].
        * injection Hx as <-. apply kle_refl.
        * apply (Hlo i x); [lia|done].
      + intros _ i x Hi Hx. destruct i as [|i]; [lia|]. apply (Hhi i x); [lia|done].
    - intros e m' _ (He & Hex & Hpm) Hlm. simpl. rewrite app_nil_r.
      apply wp_uput; [lia|simpl; lia|]. simpl. split; [done|]. split; [done|].
      by rewrite Hpm.
  Qed.
End partition_equal.
