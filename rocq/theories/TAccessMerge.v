(** * TAccessMerge: the accesses of the parallel stable sort. *)
From Verif Require Export TAccessPar CParSort.
From stdpp Require Import list.
Local Open Scope prog_scope.

Section merge.
  Context {T : Type} (c : cfg).

  Lemma vget_pays v i (Ψ : T → nat → Prop) (E : nat → Prop) b :
    0 < b → (∀ x, Ψ x (b - 1)) → E b → pay (vget v i) Ψ E b.
  Proof. intros. unfold vget. destruct (_ <? _); [by apply pays_read|by apply pays_throw]. Qed.
  Lemma vget_in_pays v i (Ψ : T → nat → Prop) (E : nat → Prop) b :
    i < v.2 → 0 < b → (∀ x, Ψ x (b - 1)) → pay (vget v i) Ψ E b.
  Proof. intros H. intros. unfold vget. rewrite (proj2 (Nat.ltb_lt _ _) H). by apply pays_read. Qed.
  Lemma vput_pays v i (x : T) (Ψ : unit → nat → Prop) (E : nat → Prop) b :
    0 < b → Ψ tt (b - 1) → E b → pay (vput v i x) Ψ E b.
  Proof. intros. unfold vput. destruct (_ <? _); [by apply pays_write|by apply pays_throw]. Qed.
  Lemma vcopy_pays u j v i (x : T) (Ψ : unit → nat → Prop) (E : nat → Prop) b :
    0 < b → Ψ tt (b - 1) → E b → pay (vcopy u j v i x) Ψ E b.
  Proof. intros. unfold vcopy. destruct (_ =? _); [by apply pays_undef|by apply vput_pays]. Qed.
  Lemma vsplit_pays v at_ (Ψ : view * view → nat → Prop) (E : nat → Prop) b :
    (∀ v1 v2, v1.2 = at_ → v1.2 + v2.2 = v.2 → Ψ (v1, v2) b) → E b → pay (vsplit (T:=T) v at_) Ψ E b.
  Proof.
    intros. unfold vsplit. destruct (Nat.leb_spec at_ v.2); [apply pays_ret|by apply pays_throw].
    apply H; simpl; lia.
  Qed.
  Lemma vslice_pays v i j (Ψ : view → nat → Prop) (E : nat → Prop) b :
    (∀ v', i ≤ j → v'.2 = j - i → Ψ v' b) → E b → pay (vslice (T:=T) v i j) Ψ E b.
  Proof.
    intros. unfold vslice. destruct (Nat.leb_spec i j), (Nat.leb_spec j v.2); simpl;
      try by apply pays_throw. apply pays_ret. auto.
  Qed.
  Lemma split_search_right_pays fuel left right lm x y (Ψ : nat → nat → Prop) (E : nat → Prop) b :
    lm < left.2 → y ≤ right.2 → 2 ≤ b →
    (∀ a b', b ≤ b' → Ψ a b') → (∀ b', b ≤ b' → E b') →
    pay (split_search_right (T:=T) fuel left right lm x y) Ψ E b.
  Proof.
    revert x y b. induction fuel as [|f IH]; intros x y b Hlm Hy Hb HΨ HE; cbn [split_search_right]; [pays_go|].
    destruct (Nat.ltb_spec x y); [|pays_go].
    pose proof (Nat.div_lt (y - x) 2 ltac:(lia) ltac:(lia)).
    apply pays_bind, vget_in_pays; [lia..|]. intros ?. apply pays_bind, vget_in_pays; [lia..|]. intros ?.
    apply pays_bind, pays_is_less; [|pays_end].
    intros []; (apply IH; [lia..|intros; pays_end|intros; pays_end]).
  Qed.
  Lemma split_search_left_pays fuel left right rm x y (Ψ : nat → nat → Prop) (E : nat → Prop) b :
    rm < right.2 → y ≤ left.2 → 2 ≤ b →
    (∀ a b', b ≤ b' → Ψ a b') → (∀ b', b ≤ b' → E b') →
    pay (split_search_left (T:=T) fuel left right rm x y) Ψ E b.
  Proof.
    revert x y b. induction fuel as [|f IH]; intros x y b Hlm Hy Hb HΨ HE; cbn [split_search_left]; [pays_go|].
    destruct (Nat.ltb_spec x y); [|pays_go].
    pose proof (Nat.div_lt (y - x) 2 ltac:(lia) ltac:(lia)).
    apply pays_bind, vget_in_pays; [lia..|]. intros ?. apply pays_bind, vget_in_pays; [lia..|]. intros ?.
    apply pays_bind, pays_is_less; [|pays_end].
    intros []; (apply IH; [lia..|intros; pays_end|intros; pays_end]).
  Qed.
  Lemma split_for_merge_pays left right (Ψ : nat * nat → nat → Prop) (E : nat → Prop) b :
    0 < left.2 → 0 < right.2 → 2 ≤ b → (∀ a b', b ≤ b' → Ψ a b') → (∀ b', b ≤ b' → E b') →
    pay (split_for_merge (T:=T) left right) Ψ E b.
  Proof.
    intros Hl Hr Hb HΨ HE. unfold split_for_merge. destruct (_ <=? _).
    - apply pays_bind, split_search_right_pays; [apply Nat.div_lt; lia|lia..| |done]. intros. pays_go.
    - apply pays_bind, split_search_left_pays; [apply Nat.div_lt; lia|lia..| |done]. intros. pays_go.
  Qed.
  Lemma state_drop_pays left right dest ls rs ds (Ψ : unit → nat → Prop) (E : nat → Prop) b :
    2 * (left.2 - ls) + 2 * (right.2 - rs) ≤ b →
    (∀ a b', b ≤ b' + 2 * (left.2 - ls) + 2 * (right.2 - rs) → Ψ a b') →
    (∀ b', b ≤ b' + 2 * (left.2 - ls) + 2 * (right.2 - rs) → E b') →
    pay (state_drop (T:=T) left right dest ls rs ds) Ψ E b.
  Proof.
    intros Hb HΨ HE. unfold state_drop. apply pays_bind, pays_usub; [intros _|pays_end].
    apply pays_bind. eapply pays_mono; [apply (pays_for_up _ _ _ _ (λ i b', b ≤ b' + 2 * i) E)| |auto].
    { lia. }
    { intros i b0 Hi Hb0. apply pays_bind, vget_pays; [lia| |pays_end]. intros x.
      apply vcopy_pays; [lia|lia|pays_end]. }
    intros [] b1 Hb1. simpl in Hb1. apply pays_bind, pays_usub; [intros _|pays_end].
    eapply pays_mono; [apply (pays_for_up _ _ _ _ (λ i b', b1 ≤ b' + 2 * i) E)| |auto].
    { lia. }
    { intros i b0 Hi Hb0. apply pays_bind, vget_pays; [lia| |pays_end]. intros x.
      apply vcopy_pays; [lia|lia|pays_end]. }
    intros [] b2 Hb2. simpl in Hb2. apply HΨ. lia.
  Qed.
  Lemma seq_merge_pays fuel left right dest ls rs ds (Ψ : unit → nat → Prop) (E : nat → Prop) b :
    2 * (left.2 - ls) + 2 * (right.2 - rs) ≤ b →
    (∀ a b', b ≤ b' + 2 * (left.2 - ls) + 2 * (right.2 - rs) → Ψ a b') →
    (∀ b', b ≤ b' + 2 * (left.2 - ls) + 2 * (right.2 - rs) → E b') →
    pay (seq_merge (T:=T) fuel left right dest ls rs ds) Ψ E b.
  Proof.
    revert ls rs ds b. induction fuel as [|f IH]; intros ls rs ds b Hb HΨ HE; cbn [seq_merge]; [pays_go|].
    destruct (Nat.ltb_spec ls left.2), (Nat.ltb_spec rs right.2); cbn [andb];
      try by apply state_drop_pays.
    apply pays_bind, pays_on_unwind, vget_in_pays; [lia..|]. intros x.
    apply pays_bind, pays_on_unwind, vget_in_pays; [lia..|]. intros y.
    apply pays_bind, pays_on_unwind, pays_is_less.
    2: { apply state_drop_pays; [lia|intros; pays_end..]. }
    intros r.
    destruct r; (apply pays_bind, pays_on_unwind, vcopy_pays;
      [lia| |apply state_drop_pays; [lia|intros; pays_end..]]);
      (apply IH; [lia|intros; pays_end..]).
  Qed.
  Lemma par_merge_pays fuel left right dest (Ψ : unit → nat → Prop) (E : nat → Prop) b :
    2 * (left.2 + right.2) ≤ b →
    (∀ a b', b ≤ b' + 2 * (left.2 + right.2) → Ψ a b') →
    (∀ b', b ≤ b' + 2 * (left.2 + right.2) → E b') →
    pay (par_merge (T:=T) fuel left right dest) Ψ E b.
  Proof.
    revert left right dest Ψ E b.
    induction fuel as [|f IH]; intros left right dest Ψ E b Hb HΨ HE; cbn [par_merge]; [pays_go|].
    destruct (merge_sequential left.2 right.2) eqn:Hseq.
    { apply seq_merge_pays; [lia|intros; pays_end..]. }
    unfold merge_sequential in Hseq. apply orb_false_elim in Hseq as [[Hl Hr]%orb_false_elim _].
    apply Nat.eqb_neq in Hl, Hr.
    apply pays_bind, pays_on_unwind, split_for_merge_pays; [lia..| |].
    2: { intros. apply state_drop_pays; [lia|intros; pays_end..]. }
    intros [lm rm] b1 Hb1.
    apply pays_bind, pays_on_unwind, vsplit_pays.
    2: { apply state_drop_pays; [lia|intros; pays_end..]. }
    intros ll lr Hll Hlr.
    apply pays_bind, pays_on_unwind, vsplit_pays.
    2: { apply state_drop_pays; [lia|intros; pays_end..]. }
    intros rl rr Hrl Hrr.
    apply pays_bind, vsplit_pays; [|pays_end]. intros dl dr _ _. apply pays_bind.
    eapply (pays_join _ _ _ _ _ (2 * (ll.2 + rl.2)) (2 * (lr.2 + rr.2))
      (λ _ _, True) (λ _, True) (λ _ _, True) (λ _, True)).
    - lia.
    - by apply IH.
    - by apply IH.
    - intros _ _ c1 c2 _ _. apply pays_ret, HΨ. lia.
    - intros; pays_end.
  Qed.
  Lemma copy_on_drop_pays src dest start len (Ψ : unit → nat → Prop) (E : nat → Prop) b :
    2 * len ≤ b → (∀ a b', b ≤ b' + 2 * len → Ψ a b') → (∀ b', b ≤ b' + 2 * len → E b') →
    pay (copy_on_drop (T:=T) src dest start len) Ψ E b.
  Proof.
    intros Hb HΨ HE. unfold copy_on_drop.
    eapply pays_mono; [apply (pays_for_up _ _ _ _ (λ i b', b ≤ b' + 2 * i) E)| |auto].
    - lia.
    - intros i b0 Hi Hb0. apply pays_bind, vget_pays; [lia| |pays_end]. intros x.
      apply vcopy_pays; [lia|lia|pays_end].
    - simpl. auto.
  Qed.
  Lemma chunk_get_pays chunks i (Ψ : nat * nat → nat → Prop) (E : nat → Prop) b :
    (∀ x, chunks !! i = Some x → Ψ x b) → E b → pay (chunk_get (T:=T) chunks i) Ψ E b.
  Proof. intros. unfold chunk_get. destruct (chunks !! i); [apply pays_ret; auto|by apply pays_throw]. Qed.
  Lemma pm_recurse_pays fuel v buf ch into_buf s e d (Ψ : unit → nat → Prop) (E : nat → Prop) b :
    chain s ch e → length ch ≤ 2 ^ d → 2 * (e - s) * (d + 1) ≤ b →
    (∀ a b', Ψ a b') → (∀ b', E b') →
    pay (pm_recurse (T:=T) c fuel v buf ch into_buf) Ψ E b.
  Proof.
    revert ch into_buf s e d Ψ E b.
    induction fuel as [|f IH]; intros ch into_buf s e d Ψ E b Hch Hd Hb HΨ HE; cbn [pm_recurse]; [pays_go|].
    apply pays_bind, pays_dassert; [|done].
    destruct (Nat.eqb_spec (length ch) 1) as [H1|H1].
    { destruct into_buf; [|by apply pays_ret].
      apply pays_bind, chunk_get_pays; [|done]. intros [x y] Hx.
      destruct ch as [|z [|]]; try done. injection Hx as ->. simpl in Hch. destruct Hch as (-> & _ & ->).
      assert (2 * (e - s) ≤ b). { etrans; [|exact Hb]. rewrite <-(Nat.mul_1_r (2 * (e - s))) at 1. apply Nat.mul_le_mono_l. lia. }
      eapply pays_mono; [apply (pays_for_up _ _ _ _ (λ i b', b ≤ b' + 2 * i) E)| |auto].
      - lia.
      - intros i b0 Hi Hb0. apply pays_bind, vget_pays; [lia| |done]. intros x.
        apply vcopy_pays; [lia|lia|done].
      - simpl. auto. }
    apply pays_bind, chunk_get_pays; [|done]. intros [start x1] Hst.
    apply pays_bind, chunk_get_pays; [|done]. intros [mid x2] Hmid.
    apply pays_bind, pays_usub; [intros _|done].
    apply pays_bind, chunk_get_pays; [|done]. intros [x3 end_] Hend.
    apply (chain_first _ _ _ _ Hch) in Hst. apply (chain_last _ _ _ _ Hch) in Hend.
    simpl in Hst, Hend. subst start end_.
    destruct (if into_buf then (v, buf) else (buf, v)) as [src dest].
    apply pays_bind, pays_usub; [intros _|done].
    set (h := length ch / 2) in *.
    assert (0 < length ch) as Hpos by (apply lookup_lt_Some in Hmid; lia).
    pose proof (Nat.div_mod (length ch) 2 ltac:(lia)) as Hdm.
    pose proof (Nat.mod_upper_bound (length ch) 2 ltac:(lia)) as Hmo. fold h in Hdm.
    destruct d as [|d]; [simpl in Hd; lia|]. rewrite Nat.pow_succ_r' in Hd.
    rewrite <-(take_drop h ch) in Hch. apply chain_app in Hch as (m & Hc1 & Hc2).
    pose proof (chain_le _ _ _ Hc1). pose proof (chain_le _ _ _ Hc2).
    set (w := e - s) in *.
    assert (2 * (m - s) * (d + 1) + 2 * (e - m) * (d + 1) + 2 * w ≤ b) as Hsum.
    { rewrite <-Nat.mul_add_distr_r. replace (2 * (m - s) + 2 * (e - m)) with (2 * w) by lia. lia. }
    clear Hb. set (b1 := 2 * (m - s) * (d + 1)) in *. set (b2 := 2 * (e - m) * (d + 1)) in *.
    apply pays_bind, pays_on_unwind.
    eapply (pays_join _ _ _ _ _ b1 b2 (λ _ _, True) (λ _, True) (λ _ _, True) (λ _, True)).
    - lia.
    - eapply (IH _ _ s m d); [exact Hc1| |apply le_n|done|done]. rewrite take_length. lia.
    - eapply (IH _ _ m e d); [exact Hc2| |apply le_n|done|done]. rewrite drop_length. lia.
    - intros _ _ c1 c2 _ _.
      apply pays_bind, vslice_pays; [|done]. intros sl ? Hsl.
      apply pays_bind, vslice_pays; [|done]. intros sr ? Hsr.
      apply pays_bind, vslice_pays; [|done]. intros dst _ _.
      apply par_merge_pays; [|auto..]. lia.
    - intros b' Hb'. apply copy_on_drop_pays; [lia|auto..].
  Qed.
End merge.

Section bridge.
  Context {T Q R : Type} (K : nat).
  Notation P A := (prog T Q R A).
  Notation keeps t m := (pays K t (λ _ b', m ≤ b') (λ _, True) m).

  Lemma par_each_pays {B} (ts : list (P B)) bs (Ψ : list (B + exn) → nat → Prop) (E : nat → Prop) b :
    Forall2 (λ t m, keeps t m) ts bs → sum_list bs ≤ b →
    (∀ rs b', b ≤ b' + sum_list bs → (Forall (λ r, ∃ x, r = inl x) rs → b ≤ b') → Ψ rs b') →
    pays K (par_each ts) Ψ E b.
  Proof.
    intros H. revert Ψ E b. induction H as [|t m ts bs Ht Hts IH]; intros Ψ E b Hb HΨ; cbn [par_each].
    { apply pays_ret, HΨ; lia. }
    simpl in Hb, HΨ.
    eapply (pays_par _ _ _ _ _ _ m (sum_list bs) _ _
      (λ rs b', Forall (λ r, ∃ x, r = inl x) rs → sum_list bs ≤ b') (λ _, False)); [lia|exact Ht| |].
    - eapply IH; [lia|]. auto.
    - intros x [rs|e] c1 c2 Hx Hrs; simpl in Hrs; [|done]. apply pays_ret, HΨ; [lia|].
      intros Hall. apply Forall_cons_1 in Hall as [[y ->] Hall]. simpl in Hx. specialize (Hrs Hall). lia.
  Qed.
  Lemma all_done_pays {B} (rs : list (B + exn)) (Ψ : list B → nat → Prop) (E : nat → Prop) b :
    (∀ x, Forall (λ r, ∃ x, r = inl x) rs → Ψ x b) → E b → pays K (all_done rs : P _) Ψ E b.
  Proof.
    revert Ψ. induction rs as [|[x|e] rs IH]; intros Ψ HΨ HE; cbn [all_done].
    - apply pays_ret. auto.
    - apply pays_bind, IH; [|done]. intros xs Hall. apply pays_ret, HΨ. constructor; eauto.
    - by apply pays_throw.
  Qed.
  Lemma bridge_first_pays {B} f i (ts : list (P B)) bs :
    Forall2 (λ t m, keeps t m) ts bs → Forall2 (λ t m, keeps t m) (bridge_first f i ts) bs.
  Proof.
    intros H. revert i. induction H as [|t m ts bs Ht Hts IH]; intros i; cbn [bridge_first]; constructor; auto.
    destruct (f i); [|by apply pays_ret]. apply pays_bind. eapply pays_mono; [exact Ht| |done].
    intros x b' Hb'. by apply pays_ret.
  Qed.
  Lemma bridge_rest_pays {B} rs (ts : list (P B)) bs :
    Forall2 (λ t m, keeps t m) ts bs →
    ∃ bs', sum_list bs' ≤ sum_list bs ∧ Forall2 (λ t m, keeps t m) (bridge_rest rs ts) bs'.
  Proof.
    intros H. revert rs. induction H as [|t m ts bs Ht Hts IH]; intros [|r rs]; cbn [bridge_rest];
      try (exists []; split; [simpl; lia|]; try destruct r; by constructor).
    destruct (IH rs) as (bs' & Hs & Hbs'). exists (m :: bs'). split; [simpl; lia|].
    destruct r; cbn [bridge_rest]; constructor; auto. by apply pays_ret.
  Qed.
  Lemma par_bridge_pays {B} f (ts : list (P B)) bs (Ψ : list B → nat → Prop) (E : nat → Prop) b :
    Forall2 (λ t m, keeps t m) ts bs → sum_list bs ≤ b →
    (∀ rs b', b ≤ b' → Ψ rs b') → (∀ b', b ≤ b' + sum_list bs → E b') →
    pays K (par_bridge f ts) Ψ E b.
  Proof.
    intros H Hb HΨ HE. unfold par_bridge.
    apply pays_bind. eapply par_each_pays; [by apply bridge_first_pays|done|]. intros rs b1 Hb1 Hb1'.
    apply pays_bind, all_done_pays; [|auto]. intros xs Hall. specialize (Hb1' Hall).
    destruct (bridge_rest_pays xs ts bs H) as (bs' & Hs & Hbs').
    apply pays_bind. eapply par_each_pays; [exact Hbs'|lia|]. intros rs' b2 Hb2 Hb2'.
    apply all_done_pays; [|apply HE; lia]. intros ys Hall'. specialize (Hb2' Hall'). apply HΨ. lia.
  Qed.
End bridge.

Section sort.
  Context {T : Type} (c : cfg).
  Notation bounds_of := (zip_with (λ '(l, m) (res : ms_result), (l, l + m, res))).

  Lemma pm_concat_pays n x y res rest e (Ψ : list (nat * nat) → nat → Prop) (E : nat → Prop) b :
    x ≤ y → chain y rest.*1 e → 2 * (e - x) + 2 ≤ b →
    (∀ ch b', chain x ch e → length ch ≤ S (length rest) → b ≤ b' + 2 * (e - x) → Ψ ch b') →
    (∀ b', E b') →
    pay (pm_concat (T:=T) n x y res rest) Ψ E b.
  Proof.
    revert x y res Ψ b. induction rest as [|[[x' y'] r] rest IH]; intros x y res Ψ b Hxy Hch Hb HΨ HE.
    - cbn [pm_concat]. simpl in Hch. subst e. apply pays_bind.
      eapply (pays_mono _ _ (λ _ b', b ≤ b' + 2 * (y - x)) _ E); [| |done].
      { destruct (ms_eqb _ _); [|apply pays_ret; lia]. apply pays_slice; [intros _ _|done].
        apply reverse_pays; [lia|auto..]. }
      intros _ b1 Hb1. apply pays_ret, HΨ; [by simpl|simpl; lia|lia].
    - cbn [pm_concat]. rewrite fmap_cons in Hch. cbn [chain fst snd] in Hch.
      destruct Hch as (-> & Hby & Hch). pose proof (chain_le _ _ _ Hch). simpl length in *.
      apply pays_bind. eapply (pays_mono _ _ (λ _ b', b ≤ b') _ E); [| |done].
      { destruct (_ && _); [|apply pays_ret; lia].
        apply pays_bind, pays_get; [lia| |done]. intros p. apply pays_bind, pays_usub; [intros _|done].
        apply pays_bind, pays_get; [lia| |done]. intros q. apply pays_bind, pays_is_less; [|done].
        intros l. apply pays_ret. lia. }
      intros ext b1 Hb1. destruct ext.
      + apply IH; [lia|done|lia| |done]. intros ch b' ? ? ?. apply HΨ; [done|lia|lia].
      + apply pays_bind. eapply (pays_mono _ _ (λ _ b', b1 ≤ b' + 2 * (y - x)) _ E); [| |done].
        { destruct (ms_eqb _ _); [|apply pays_ret; lia]. apply pays_slice; [intros _ _|done].
          apply reverse_pays; [lia|auto..]. }
        intros _ b2 Hb2. apply pays_bind, IH; [done|done|lia| |done].
        intros ch b3 Hc ? ?. apply pays_ret, HΨ; [|simpl; lia|lia]. cbn. auto.
  Qed.
  Lemma chunk_tasks_pays n bs :
    Forall2 (λ t m, pay t (λ _ b', m ≤ b') (λ _, True) m)
      (map (λ '(l, m), chunk_task (T:=T) c n l m) bs) (map (λ m, 2 * m + 2) bs.*2).
  Proof.
    induction bs as [|[l m] bs IH]; [constructor|].
    change ((((l, m) :: bs).*2)) with (m :: bs.*2). cbn [map]. constructor; [|done].
    apply pays_relocate. apply pm_merge_sort_pays; auto.
  Qed.
  Lemma par_merge_sort_pays take_item n (Ψ : unit → nat → Prop) (E : nat → Prop) b :
    2 * n * (Nat.log2 n + 3) + 2 ≤ b → (∀ a b', Ψ a b') → (∀ b', E b') →
    pay (par_merge_sort (T:=T) c take_item n) Ψ E b.
  Proof.
    intros Hb HΨ HE. unfold par_merge_sort. set (L := Nat.log2 n) in *.
    assert (2 * n * L + 6 * n + 2 ≤ b) as Hb'. { etrans; [|exact Hb]. lia. }
    destruct (zst c); [by apply pays_ret|].
    destruct (n <=? PM_MAX_INSERTION).
    { destruct (2 <=? n); [|by apply pays_ret].
      eapply pays_mono; [apply (pays_for_down _ _ _ _ (λ i b', b ≤ b') E)| |auto]; [lia| |auto].
      intros i b0 Hi Hb0. apply pays_slice; [intros _ _|done]. apply pm_insert_head_pays; [lia| |auto].
      intros. lia. }
    destruct (n <=? CHUNK_LENGTH).
    { apply pays_bind, pm_merge_sort_pays; [lia| |auto]. intros res b1 Hb1.
      destruct (ms_eqb _ _); [|by apply pays_ret]. apply reverse_pays; [lia|auto..]. }
    destruct (axis_chunks_bounds n n 0 ltac:(lia)) as (Hsum & Hlen & Hchain).
    set (bounds := axis_chunks n n 0) in *. simpl in Hsum.
    apply pays_bind. eapply par_bridge_pays; [apply chunk_tasks_pays| | |auto].
    { etrans; [|exact Hb']. assert (length bounds.*2 ≤ n) as Hl by by rewrite fmap_length.
      assert (sum_list (map (λ m, 2 * m + 2) bounds.*2) ≤ 2 * sum_list bounds.*2 + 2 * length bounds.*2).
      { generalize (bounds.*2). intros ms. clear. induction ms as [|m ms IH]; [simpl; lia|]. cbn [map length].
 change (sum_list (2 * m + 2 :: map (λ m, 2 * m + 2) ms)) with (2 * m + 2 + sum_list (map (λ m, 2 * m + 2) ms)). change (sum_list (m :: ms)) with (m + sum_list ms). lia. }
      lia. }
    intros results b1 Hb1. destruct (Hchain results) as (e & He & Hch).
    assert (length (bounds_of bounds results) ≤ n) as Hlz by (rewrite zip_with_length; lia).
    destruct (bounds_of bounds results) as [|[[x y] res] rest].
    { apply (pm_recurse_pays c _ _ _ [] _ 0 0 0); [done|simpl; lia|lia|auto..]. }
    rewrite fmap_cons in Hch. cbn [chain fst snd] in Hch. destruct Hch as (-> & Hb0 & Hch).
    simpl in Hlz.
    apply pays_bind, (pm_concat_pays _ _ _ _ _ e); [done|done|lia| |auto]. intros ch b2 Hch' Hl Hb2.
    eapply (pm_recurse_pays c _ _ _ ch _ 0 e (L + 1)); [exact Hch'| | |auto..].
    - etrans; [|apply Nat.lt_le_incl, lt_pow2_log2]. lia.
    - assert (2 * (e - 0) * (L + 1 + 1) ≤ 2 * n * (L + 1 + 1)) by (apply Nat.mul_le_mono_r; lia).
      assert (2 * n * (L + 1 + 1) = 2 * n * L + 4 * n) by lia. lia.
  Qed.
End sort.
