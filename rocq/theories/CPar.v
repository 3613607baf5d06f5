(** * CPar: an adversary for the parallel quicksort.

    As in [CAdv] the order is decided on while the sort runs.  [σ] lists groups
    of elements that have been given a rank, the earlier the greater; elements of
    the same group are equal, all other elements are less.  Answers that involve
    an element of a group do not change if [σ] is extended later.

    In each call of [recurse] with more than 2000 elements the adversary puts six
    of the nine elements that [choose_pivot] looks at into a new group.  One of
    them becomes the pivot, all other elements are less.  The tasks of
    [rayon::join] start with [was_balanced = true], so [limit] is never
    decreased and the heapsort never entered. *)
From Verif Require Export CAdv PPar ParSpec.
From stdpp Require Import list.

Fixpoint grk (σ : list (list nat)) (x : nat) : nat :=
  match σ with [] => 0 | g :: τ => if bool_decide (x ∈ g) then 0 else S (grk τ x) end.
Definition glt (σ : list (list nat)) (x y : nat) : bool := grk σ y <? grk σ x.
Definition fro (σ : list (list nat)) (x : nat) : Prop := grk σ x < length σ.

Global Instance fro_dec σ x : Decision (fro σ x).
Proof. unfold fro. apply _. Defined.

Lemma glt_swo σ : strict_weak_order (glt σ).
Proof.
  unfold glt. split.
  - intros x. apply Nat.ltb_irrefl.
  - intros x y z H1 H2. apply Nat.ltb_lt in H1, H2. apply Nat.ltb_lt. lia.
  - intros x y z H1 H2. apply Nat.ltb_ge in H1, H2. apply Nat.ltb_ge. lia.
Qed.
Lemma grk_le σ x : grk σ x ≤ length σ.
Proof. induction σ as [|g σ IH]; simpl; [lia|]. destruct (bool_decide _); lia. Qed.
Lemma grk_app_fro σ τ x : fro σ x → grk (σ ++ τ) x = grk σ x.
Proof.
  unfold fro. induction σ as [|g σ IH]; simpl; [lia|]. destruct (bool_decide _); [done|].
  intros. f_equal. apply IH. lia.
Qed.
Lemma grk_app_gas σ τ x : ¬ fro σ x → grk (σ ++ τ) x = length σ + grk τ x.
Proof.
  unfold fro. induction σ as [|g σ IH]; simpl; [done|]. destruct (bool_decide _); [lia|].
  intros. f_equal. apply IH. lia.
Qed.
Lemma glt_stable σ τ x y : fro σ x ∨ fro σ y → glt (σ ++ τ) x y = glt σ x y.
Proof.
  unfold glt. intros H. pose proof (grk_le σ x). pose proof (grk_le σ y).
  destruct (decide (grk σ x < length σ)) as [Hx|Hx], (decide (grk σ y < length σ)) as [Hy|Hy].
  - by rewrite !grk_app_fro.
  - rewrite (grk_app_fro _ _ x), (grk_app_gas _ _ y) by done.
    destruct (Nat.ltb_spec (length σ + grk τ y) (grk σ x)), (Nat.ltb_spec (grk σ y) (grk σ x)); auto; lia.
  - rewrite (grk_app_fro _ _ y), (grk_app_gas _ _ x) by done.
    destruct (Nat.ltb_spec (grk σ y) (length σ + grk τ x)), (Nat.ltb_spec (grk σ y) (grk σ x)); auto; lia.
  - unfold fro in H. lia.
Qed.
Lemma fro_new σ g x : x ∈ g → fro (σ ++ [g]) x.
Proof.
  intros Hx. unfold fro. rewrite app_length. simpl. destruct (decide (fro σ x)) as [H|H].
  - rewrite grk_app_fro by done. unfold fro in H. lia.
  - rewrite grk_app_gas by done. simpl. rewrite bool_decide_true by done. lia.
Qed.
Lemma fro_new_inv σ g x : ¬ fro σ x → fro (σ ++ [g]) x → x ∈ g.
Proof.
  intros H. unfold fro at 1. rewrite app_length, grk_app_gas by done. simpl.
  destruct (bool_decide_reflect (x ∈ g)); [done|]. lia.
Qed.
Lemma glt_new σ g x y : ¬ fro σ x → ¬ fro σ y → y ∈ g → glt (σ ++ [g]) x y = negb (bool_decide (x ∈ g)).
Proof.
  intros Hx Hy Hg. unfold glt. rewrite !grk_app_gas by done. simpl.
  rewrite (bool_decide_true (y ∈ g)) by done. destruct (bool_decide_reflect (x ∈ g)); simpl.
  - apply Nat.ltb_ge. lia.
  - apply Nat.ltb_lt. lia.
Qed.
Lemma glt_new_top σ g x y : ¬ fro σ x → ¬ fro σ y → x ∈ g → glt (σ ++ [g]) x y = false.
Proof.
  intros Hx Hy Hg. unfold glt. rewrite !grk_app_gas by done. simpl.
  rewrite (bool_decide_true (x ∈ g)) by done. apply Nat.ltb_ge. destruct (bool_decide _); lia.
Qed.

Section game.
  Notation P A := (cmp_prog nat A).
  Local Transparent bind wp wpg on_unwind relocate focus silent asks.
  Local Arguments bind {T Q R A B} !p f.
  Local Arguments wp {T Q R A} ans !p Φ E l.
  Local Arguments wpg {T Q R G A} ans !p Φ E g l.
  Local Arguments on_unwind {T Q R A} c !p.
  Local Arguments relocate {T Q R A} f !p.

  (** [p], which asks no open questions, returns after [g' - g] calls with
      [Φ a g' l']. *)
  Fixpoint path {A} (σ : list (list nat)) (p : P A) (Φ : A → nat → list nat → Prop)
      (g : nat) (l : list nat) : Prop :=
    match p with
    | Ret a => Φ a g l
    | Read i k => match l !! i with Some x => path σ (k x) Φ g l | None => False end
    | Write i x k => i < length l ∧ path σ k Φ g (<[i:=x]> l)
    | Ask q k => (fro σ q.1 ∨ fro σ q.2) ∧ path σ (k (Some (glt σ q.1 q.2))) Φ (S g) l
    | _ => False
    end.
  Lemma path_mono {A} σ (p : P A) (Φ Φ' : A → nat → list nat → Prop) g l :
    path σ p Φ g l → (∀ a g' l', length l' = length l → Φ a g' l' → Φ' a g' l') → path σ p Φ' g l.
  Proof.
    revert Φ Φ' g l.
    induction p as [A a|A e|A i k IH|A i x k IH|A q k IH|A B C p1 IH1 p2 IH2 k IH| |];
      intros Φ Φ' g l H HΦ; simpl in *; auto.
    - destruct (l !! i); [|done]. eauto.
    - destruct H as [? H]. split; [done|]. eapply IH; [exact H|]. intros ? ? ? Hl.
      rewrite insert_length in Hl. auto.
    - destruct H as (Hq & H). split; [done|]. eauto.
  Qed.
  Lemma path_bind {A B} σ (p : P A) (f : A → P B) Φ g l :
    path σ p (λ a g' l', path σ (f a) Φ g' l') g l → path σ (bind p f) Φ g l.
  Proof.
    revert B f Φ g l.
    induction p as [A a|A e|A i k IH|A i x k IH|A q k IH|A B' C p1 IH1 p2 IH2 k IH| |];
      intros B f Φ g l H; simpl in *; auto.
    - destruct (l !! i); [|done]. eauto.
    - destruct H. eauto.
    - destruct H. eauto.
  Qed.

  (** If [p] returns, then with [Φ a g' l']. *)
  Fixpoint atl {A} (lt : nat → nat → bool) (p : P A) (Φ : A → nat → list nat → Prop)
      (g : nat) (l : list nat) : Prop :=
    match p with
    | Ret a => Φ a g l
    | Read i k => match l !! i with Some x => atl lt (k x) Φ g l | None => True end
    | Write i x k => atl lt k Φ g (<[i:=x]> l)
    | Ask q k => atl lt (k (Some (lt q.1 q.2))) Φ (S g) l
    | _ => True
    end.
  Lemma atl_mono {A} lt (p : P A) (Φ Φ' : A → nat → list nat → Prop) g l :
    atl lt p Φ g l → (∀ a g' l', g ≤ g' → Φ a g' l' → Φ' a g' l') → atl lt p Φ' g l.
  Proof.
    revert Φ Φ' g l.
    induction p as [A a|A e|A i k IH|A i x k IH|A q k IH|A B C p1 IH1 p2 IH2 k IH| |];
      intros Φ Φ' g l H HΦ; simpl in *; auto.
    - destruct (l !! i); [|done]. eauto.
    - eauto.
    - eapply IH; [exact H|]. intros. apply HΦ; [lia|done].
  Qed.
  Lemma atl_true {A} lt (p : P A) g l : atl lt p (λ _ _ _, True) g l.
  Proof.
    revert g l.
    induction p as [A a|A e|A i k IH|A i x k IH|A q k IH|A B C p1 IH1 p2 IH2 k IH| |];
      intros g l; simpl in *; auto.
    by destruct (l !! i).
  Qed.
  Lemma atl_grow {A} lt (p : P A) b g l : b ≤ g → atl lt p (λ _ g' _, b ≤ g') g l.
  Proof. intros. eapply atl_mono; [apply atl_true|]. simpl. intros. lia. Qed.
  Lemma atl_bind {A B} lt (p : P A) (f : A → P B) Φ g l :
    atl lt p (λ a g' l', atl lt (f a) Φ g' l') g l → atl lt (bind p f) Φ g l.
  Proof.
    revert B f Φ g l.
    induction p as [A a|A e|A i k IH|A i x k IH|A q k IH|A B' C p1 IH1 p2 IH2 k IH| |];
      intros B f Φ g l H; simpl in *; auto.
    destruct (l !! i); [|done]. eauto.
  Qed.
  Lemma atl_guard {A} lt d (p : P A) Φ g l : atl lt p Φ g l → atl lt (on_unwind d p) Φ g l.
  Proof.
    revert Φ g l.
    induction p as [A a|A e|A i k IH|A i x k IH|A q k IH|A B' C p1 IH1 p2 IH2 k IH| |];
      intros Φ g l H; simpl in *; auto.
    - apply atl_bind. eapply atl_mono; [apply atl_true|]. done.
    - destruct (l !! i); [|done]. eauto.
  Qed.

  (** Programs that ask no open questions do what [wp] says. *)
  Lemma path_wp {A} σ (p : P A) Φ Ψ g l :
    asks (λ q, fro σ q.1 ∨ fro σ q.2) p →
    wp (ans_lt (glt σ)) p Φ (λ _ _, False) l → atl (glt σ) p Ψ g l →
    path σ p (λ a g' l', Φ a l' ∧ Ψ a g' l') g l.
  Proof.
    revert Φ Ψ g l.
    induction p as [A a|A e|A i k IH|A i x k IH|A q k IH|A B' C p1 IH1 p2 IH2 k IH| |];
      intros Φ Ψ g l Ha H Hl; simpl in *; auto.
    - destruct (l !! i); auto.
    - destruct H. auto.
    - destruct Ha as [Hq Ha]. split; [done|]. apply IH; auto. by apply H.
  Qed.
  Lemma path_silent {A} σ (p : P A) Φ g l :
    silent p → wp (ans_lt (glt σ)) p Φ (λ _ _, False) l → path σ p (λ a g' l', g' = g ∧ Φ a l') g l.
  Proof.
    revert Φ g l.
    induction p as [A a|A e|A i k IH|A i x k IH|A q k IH|A B' C p1 IH1 p2 IH2 k IH| |];
      intros Φ g l Ha H; simpl in *; auto; try done.
    - destruct (l !! i); auto.
    - destruct H. auto.
  Qed.

  (** At least [d] nested joins, always in the first arm. *)
  Fixpoint deep {A} (lt : nat → nat → bool) (p : P A) (d : nat) (l : list nat) : Prop :=
    match p with
    | Read i k => match l !! i with Some x => deep lt (k x) d l | None => d = 0 end
    | Write i x k => d = 0 ∨ i < length l ∧ deep lt k d (<[i:=x]> l)
    | Ask q k => deep lt (k (Some (lt q.1 q.2))) d l
    | Par p1 p2 k => match d with 0 => True | S d' => deep lt p1 d' l end
    | _ => d = 0
    end.
  Lemma deep_0 {A} lt (p : P A) l : deep lt p 0 l.
  Proof.
    revert l.
    induction p as [A a|A e|A i k IH|A i x k IH|A q k IH|A B' C p1 IH1 p2 IH2 k IH| |];
      intros l; simpl; auto.
    by destruct (l !! i).
  Qed.
  Lemma deep_focus {A} lt (p : P A) d pre l post :
    deep lt p d l → deep lt (focus (length pre) p) d (pre ++ l ++ post).
  Proof.
    unfold focus. revert d l.
    induction p as [A a|A e|A i k IH|A i x k IH|A q k IH|A B' C p1 IH1 p2 IH2 k IH| |];
      intros d l H; simpl in *; auto.
    - destruct (l !! i) as [x|] eqn:Hx.
      + rewrite lookup_app_r by lia. replace (length pre + i - length pre) with i by lia.
        rewrite lookup_app_l by (by eapply lookup_lt_Some). rewrite Hx. by apply IH.
      + subst d. destruct ((pre ++ l ++ post) !! _); [apply deep_0|done].
    - destruct H as [?|[Hi H]]; [by left|]. right. split; [rewrite !app_length; lia|].
      rewrite insert_app_r, insert_app_l by done. by apply IH.
    - destruct d as [|d]; [done|]. by apply IH1.
  Qed.
  Lemma deep_join_depth {A} lt (p : P A) d l :
    deep lt p d l → d ≤ join_depth (pure_less lt) p tt l.
  Proof.
    revert d l.
    induction p as [A a|A e|A i k IH|A i x k IH|A q k IH|A B' C p1 IH1 p2 IH2 k IH| |];
      intros d l H; simpl in *; auto; try lia.
    - destruct (l !! i); [auto|lia].
    - destruct (decide (i < length l)); [|lia]. destruct H as [->|[_ H]]; [lia|auto].
    - destruct q as [x y]. simpl in *. auto.
    - destruct (run _ p1 _ _) as [[r1 []] l1]. destruct (run _ p2 _ _) as [[r2 []] l2].
      destruct d as [|d]; [lia|]. apply IH1 in H. lia.
  Qed.

  (** The adversary can order the elements so that [p] makes at least [B] calls
      and nests at least [D] joins. *)
  Definition padv {A} (p : P A) (B D : nat) (σ : list (list nat)) (l : list nat) : Prop :=
    ∃ τ, (∀ g0, wpg (cnt_ans (ans_lt (glt (σ ++ τ)))) p (λ _ g _, g0 + B ≤ g) (λ _ _ _, False) g0 l) ∧
         deep (glt (σ ++ τ)) p D l.
  Lemma padv_freeze {A} (p : P A) B D σ g l : padv p B D (σ ++ [g]) l → padv p B D σ l.
  Proof. intros (τ & Hτ & Hd). exists ([g] ++ τ). by rewrite (assoc_L (++)). Qed.
  Lemma padv_bind_gen {A B} (p : P A) (f : A → P B) b D σ g l :
    path σ p (λ a g' l', ∃ b', padv (f a) b' D σ l' ∧ b ≤ g' + b') g l →
    ∃ τ, (∀ g0, wpg (cnt_ans (ans_lt (glt (σ ++ τ)))) (bind p f)
      (λ _ g' _, g0 + b ≤ g + g') (λ _ _ _, False) g0 l) ∧ deep (glt (σ ++ τ)) (bind p f) D l.
  Proof.
    revert B f b g l.
    induction p as [A a|A e|A i k IH|A i x k IH|A q k IH|A B' C p1 IH1 p2 IH2 k IH| |];
      intros B f b g l H; simpl in *; auto; try done.
    - destruct H as (b' & (τ & Hτ & Hd) & Hb). exists τ. split; [|done]. intros g0.
      eapply wpg_mono; [apply Hτ| |done]. simpl. lia.
    - destruct (l !! i) as [x|] eqn:Hx; [|done]. destruct (IH x B f b g l H) as (τ & Hτ & Hd).
      exists τ. split; [|done]. intros g0. simpl. rewrite ?Hx. apply Hτ.
    - destruct H as [Hi H]. destruct (IH B f b g _ H) as (τ & Hτ & Hd). exists τ.
      split; [|auto]. intros g0. split; [done|]. apply Hτ.
    - destruct H as [Hq H]. destruct (IH _ B f b _ _ H) as (τ & Hτ & Hd).
      exists τ. rewrite glt_stable by done. split; [|done]. intros g0. simpl. intros r g' [Hr ->].
      unfold ans_lt in Hr. rewrite glt_stable in Hr by done. subst r.
      eapply wpg_mono; [apply Hτ| |done]. simpl. lia.
  Qed.
  Lemma padv_bind {A B} (p : P A) (f : A → P B) b D σ l :
    path σ p (λ a g' l', ∃ b', padv (f a) b' D σ l' ∧ b ≤ g' + b') 0 l → padv (bind p f) b D σ l.
  Proof. intros H. by apply padv_bind_gen in H. Qed.
  Lemma padv_slice {A} n x y (p : nat → P A) b D σ l :
    x ≤ y → y ≤ n → n ≤ length l → padv (p (y - x)) b D σ (take (y - x) (drop x l)) →
    padv (slice n x y p) b D σ l.
  Proof.
    intros Hx Hy Hn (τ & Hτ & Hd). exists τ. split.
    - intros g0. apply wpg_slice; [done..|].
      eapply wpg_mono; [apply Hτ| |done]. auto.
    - unfold slice. rewrite (proj2 (Nat.leb_le x y)), (proj2 (Nat.leb_le y n)) by lia. cbn [andb].
      rewrite <-(take_drop x l), <-(take_drop (y - x) (drop x l)).
      pose proof (deep_focus (glt (σ ++ τ)) (p (y - x)) D (take x l) (take (y - x) (drop x l))
        (drop (y - x) (drop x l)) Hd) as H.
      by rewrite take_length_le in H by lia.
  Qed.
  Lemma padv_join {B C} (p1 : P B) (p2 : P C) b D σ l :
    padv p1 b D σ l →
    (∀ lt l', length l' = length l → wp (ans_lt lt) p2 (λ _ _, True) (λ _ _, False) l') →
    padv (bind (rayon_join p1 p2) (λ _, Ret tt)) b (S D) σ l.
  Proof.
    intros (τ & Hτ & Hd) H2. exists τ. split; [|done]. intros g0. simpl.
    eapply wpg_mono; [apply Hτ| |done]. cbv beta. intros a g l' Hl Hg.
    eapply wpg_mono; [eapply wpg_grow; [exact Hg|by apply H2]| |]; cbv beta.
    - by intros ? ? ? _ [? _].
    - by intros ? ? ? _ [_ ?].
  Qed.
End game.
Section path_rules.
  Local Transparent bind.
  Local Arguments bind {T Q R A B} !p f.
  Lemma path_ret {A} σ (a : A) (Φ : A → nat → list nat → Prop) g l : Φ a g l → path σ (Ret a) Φ g l.
  Proof. done. Qed.
  Lemma path_uget σ n i x (Φ : nat → nat → list nat → Prop) g l :
    l !! i = Some x → i < n → Φ x g l → path σ (uget n i) Φ g l.
  Proof.
    intros Hx Hi H. unfold uget. rewrite (proj2 (Nat.ltb_lt i n) Hi). simpl. by rewrite Hx.
  Qed.
  Lemma path_usub σ a b (Φ : nat → nat → list nat → Prop) g l :
    b ≤ a → Φ (a - b) g l → path σ (usub a b) Φ g l.
  Proof. intros Hb H. unfold usub. by rewrite (proj2 (Nat.leb_le b a) Hb). Qed.
  Lemma path_is_less σ x y (Φ : bool → nat → list nat → Prop) g l :
    fro σ x ∨ fro σ y → Φ (glt σ x y) (S g) l → path σ (is_less x y) Φ g l.
  Proof. intros H1 H2. split; done. Qed.
End path_rules.
Global Opaque path atl deep.

Lemma silent_slice_check2 {T Q R} n a b :
  silent (T:=T) (Q:=Q) (R:=R) (slice n a b (λ m, slice m 0 1 (λ _, Ret tt))).
Proof.
  Local Transparent silent focus.
  unfold slice at 1, focus. destruct (_ && _); [apply silent_relocate, silent_slice_check|done].
  Local Opaque silent focus.
Qed.

Section steps.
  Context (c : cfg).
  Implicit Types (l : list nat) (σ : list (list nat)).

  (** [sort2] for elements at least one of which is in a group. *)
  Lemma path_sort2 σ n a b s x y (Φ : nat * nat * nat → nat → list nat → Prop) g l :
    a < n → b < n → l !! b = Some x → l !! a = Some y → fro σ x ∨ fro σ y →
    Φ (if glt σ x y then (b, a, S s) else (a, b, s)) (S g) l → path σ (sort2 n a b s) Φ g l.
  Proof.
    intros Ha Hb Hx Hy Hf H. unfold sort2.
    apply path_bind. eapply path_uget; [done..|].
    apply path_bind. eapply path_uget; [done..|].
    apply path_bind, path_is_less; [done|]. by apply path_ret.
  Qed.

  (** The six elements put into a group when [choose_pivot] starts. *)
  Definition six l : list nat :=
    let q := length l / 4 in
    [l !!! (q - 1); l !!! (q + 1); l !!! (q * 2); l !!! (q * 2 + 1); l !!! (q * 3); l !!! (q * 3 + 1)].
  Lemma six_not l i : NoDup l → i < length l → 50 ≤ length l →
    i ≠ length l / 4 - 1 → i ≠ length l / 4 + 1 → i ≠ length l / 4 * 2 → i ≠ length l / 4 * 2 + 1 →
    i ≠ length l / 4 * 3 → i ≠ length l / 4 * 3 + 1 → l !!! i ∉ six l.
  Proof.
    intros Hnd Hi Hl. unfold six. cbv zeta.
    pose proof (Nat.div_mod (length l) 4). pose proof (Nat.mod_upper_bound (length l) 4).
    set (q := length l / 4) in *. clearbody q. intros H1 H2 H3 H4 H5 H6 Hin.
    assert (∀ j, j < length l → i ≠ j → l !!! i ≠ l !!! j) as Hne.
    { intros j Hj Hij Heq. apply Hij. eapply NoDup_lookup; [exact Hnd|..].
      - by apply list_lookup_lookup_total_lt.
      - rewrite Heq. by apply list_lookup_lookup_total_lt. }
    rewrite !elem_of_cons, elem_of_nil in Hin.
    destruct Hin as [H'|[H'|[H'|[H'|[H'|[H'|[]]]]]]]; revert H'; apply Hne; lia.
  Qed.

  Lemma path_choose_pivot σ n l g :
    n = length l → 50 ≤ n → NoDup l → Forall (λ x, ¬ fro σ x) l →
    path (σ ++ [six l]) (choose_pivot n) (λ r _ l', r = (n / 4 * 2, false) ∧ l' = l) g l.
  Proof.
    intros Hn H50 Hnd Hgas. unfold choose_pivot.
    assert (Hf : ∀ i, i < n → ¬ fro σ (l !!! i)).
    { intros i Hi. rewrite Forall_forall in Hgas. apply Hgas. rewrite Hn in Hi.
      eapply elem_of_list_lookup_2. by apply list_lookup_lookup_total_lt. }
    assert (Hlk : ∀ i, i < n → l !! i = Some (l !!! i)).
    { intros i Hi. apply list_lookup_lookup_total_lt. lia. }
    assert (Hsix : ∀ i, (i = n / 4 - 1 ∨ i = n / 4 + 1 ∨ i = n / 4 * 2 ∨ i = n / 4 * 2 + 1 ∨
      i = n / 4 * 3 ∨ i = n / 4 * 3 + 1) → l !!! i ∈ six l).
    { intros i Hi. unfold six. cbv zeta. rewrite <-Hn. rewrite !elem_of_cons.
      destruct Hi as [-> | [-> | [-> | [-> | [-> | ->]]]]]; auto 10. }
    assert (Hnot : ∀ i, i < n → i ≠ n / 4 - 1 → i ≠ n / 4 + 1 → i ≠ n / 4 * 2 → i ≠ n / 4 * 2 + 1 →
      i ≠ n / 4 * 3 → i ≠ n / 4 * 3 + 1 → l !!! i ∉ six l).
    { intros i Hi. subst n. by apply six_not. }
    set (G := six l) in *. clearbody G.
    pose proof (Nat.div_mod n 4). pose proof (Nat.mod_upper_bound n 4).
    set (q := n / 4) in *. clearbody q.
    assert (Hup : ∀ i j, i < n → j < n → l !!! i ∈ G →
      glt (σ ++ [G]) (l !!! i) (l !!! j) = false).
    { intros. apply glt_new_top; auto. }
    assert (Hlo : ∀ i j, i < n → j < n → l !!! i ∉ G → l !!! j ∈ G →
      glt (σ ++ [G]) (l !!! i) (l !!! j) = true).
    { intros. rewrite glt_new by auto. by rewrite bool_decide_false. }
    assert (Hfro : ∀ i, l !!! i ∈ G → fro (σ ++ [G]) (l !!! i)) by (intros; by apply fro_new).
    apply path_bind. rewrite (proj2 (Nat.leb_le 8 n)) by lia.
    apply path_bind. unfold SHORTEST_MEDIAN_OF_MEDIANS. rewrite (proj2 (Nat.leb_le 50 n)) by lia.
    unfold sort_adjacent, sort3.
    apply path_bind.
    apply path_bind, path_usub; [lia|]. apply path_bind.
      apply path_bind. eapply path_sort2; [lia|lia|apply Hlk; lia|apply Hlk; lia|right; apply Hfro, Hsix; lia|].
      rewrite Hlo; [|lia|lia|apply Hnot; lia|apply Hsix; lia]. cbv beta iota.
      apply path_bind. eapply path_sort2; [lia|lia|apply Hlk; lia|apply Hlk; lia|right; apply Hfro, Hsix; lia|].
      rewrite Hup; [|lia|lia|apply Hsix; lia]. cbv beta iota.
      apply path_bind. eapply path_sort2; [lia|lia|apply Hlk; lia|apply Hlk; lia|left; apply Hfro, Hsix; lia|].
      rewrite Hup; [|lia|lia|apply Hsix; lia]. cbv beta iota.
      apply path_ret. cbv beta iota. apply path_ret. cbv beta iota.
    apply path_bind, path_bind, path_usub; [lia|]. apply path_bind.
      apply path_bind. eapply path_sort2; [lia|lia|apply Hlk; lia|apply Hlk; lia|left; apply Hfro, Hsix; lia|].
      rewrite Hup; [|lia|lia|apply Hsix; lia]. cbv beta iota.
      apply path_bind. eapply path_sort2; [lia|lia|apply Hlk; lia|apply Hlk; lia|right; apply Hfro, Hsix; lia|].
      rewrite Hup; [|lia|lia|apply Hsix; lia]. cbv beta iota.
      apply path_bind. eapply path_sort2; [lia|lia|apply Hlk; lia|apply Hlk; lia|left; apply Hfro, Hsix; lia|].
      rewrite Hup; [|lia|lia|apply Hsix; lia]. cbv beta iota.
      apply path_ret. cbv beta iota. apply path_ret. cbv beta iota.
    apply path_bind, path_bind, path_usub; [lia|]. apply path_bind.
      apply path_bind. eapply path_sort2; [lia|lia|apply Hlk; lia|apply Hlk; lia|left; apply Hfro, Hsix; lia|].
      rewrite Hup; [|lia|lia|apply Hsix; lia]. cbv beta iota.
      apply path_bind. eapply path_sort2; [lia|lia|apply Hlk; lia|apply Hlk; lia|right; apply Hfro, Hsix; lia|].
      rewrite Hup; [|lia|lia|apply Hsix; lia]. cbv beta iota.
      apply path_bind. eapply path_sort2; [lia|lia|apply Hlk; lia|apply Hlk; lia|left; apply Hfro, Hsix; lia|].
      rewrite Hup; [|lia|lia|apply Hsix; lia]. cbv beta iota.
      apply path_ret. cbv beta iota. apply path_ret. cbv beta iota.
    apply path_ret. cbv beta iota. apply path_bind.
      apply path_bind. eapply path_sort2; [lia|lia|apply Hlk; lia|apply Hlk; lia|left; apply Hfro, Hsix; lia|].
      rewrite Hup; [|lia|lia|apply Hsix; lia]. cbv beta iota.
      apply path_bind. eapply path_sort2; [lia|lia|apply Hlk; lia|apply Hlk; lia|right; apply Hfro, Hsix; lia|].
      rewrite Hup; [|lia|lia|apply Hsix; lia]. cbv beta iota.
      apply path_bind. eapply path_sort2; [lia|lia|apply Hlk; lia|apply Hlk; lia|left; apply Hfro, Hsix; lia|].
      rewrite Hup; [|lia|lia|apply Hsix; lia]. cbv beta iota.
      apply path_ret. cbv beta iota. apply path_ret. cbv beta iota.
      change (1 <? MAX_SWAPS) with true. apply path_ret. done.
  Qed.

  Section scan.
    Local Transparent bind relocate focus atl.
    Local Arguments bind {T Q R A B} !p f.
    Local Arguments relocate {T Q R A} f !p.
    (** The left scan of [partition] calls the comparator for each of the first
        elements that are less than the pivot. *)
    Lemma atl_scan_l {A} lt (x : nat) r m n (f : nat → cmp_prog nat A) fuel i g l :
      r ≤ n → i ≤ m → m ≤ r → (∀ j y, i ≤ j → j < m → l !! (1 + j) = Some y → lt y x = true) →
      atl lt (focus 1 (bind (pt_scan_l fuel n x i r) f)) (λ _ g' _, g + (m - i) ≤ g') g l.
    Proof.
      intros Hr. revert i g. induction fuel as [|fu IH]; intros i g Hi Hm Hlt; [done|].
      cbn [pt_scan_l].
      destruct (decide (i = m)) as [->|Hne].
      { apply atl_grow. lia. }
      destruct (Nat.ltb_spec i r); [|lia].
      unfold uget, focus. rewrite (proj2 (Nat.ltb_lt i n)) by lia. simpl.
      destruct (l !! S i) as [y|] eqn:Hy; [|done].
      rewrite (Hlt i y) by (done || lia).
      eapply atl_mono; [apply (IH (S i) (S g)); [lia|lia|]|].
      - intros. eapply Hlt; [|done..]. lia.
      - simpl. lia.
    Qed.
  End scan.

  Lemma path_partition σ n pivot l x m g :
    n = length l → l !! pivot = Some x → fro σ x → m < n →
    (∀ j y, j < m → swapl 0 pivot l !! (1 + j) = Some y → glt σ y x = true) →
    path σ (MPartition.partition c n pivot)
      (λ '(mid, _) g' l', g + m ≤ g' ∧ l' ≡ₚ l ∧ mid < n ∧ l' !! mid = Some x ∧
         Forall (λ y, glt σ y x = true) (take mid l') ∧
         Forall (λ y, glt σ y x = false) (drop (S mid) l')) g l.
  Proof.
    intros Hn Hx Hin Hmn Hm.
    pose proof (lookup_lt_Some _ _ _ Hx) as Hpl.
    pose proof (partition_spec c (ans_lt (glt σ)) n pivot l x Hn Hx) as Hwp.
    unfold MPartition.partition in *.
    apply wp_bind_inv in Hwp. apply path_bind.
    eapply path_mono; [eapply path_silent; [apply silent_swap|eapply wp_both; [exact Hwp|]]|].
    { apply (wp_swap _ n 0 pivot (λ _ l', l' = swapl 0 pivot l)); [lia|lia|lia|done]. }
    cbv beta. clear Hwp. intros [] g' l1 Hl1 (-> & Hwp & ->).
    apply wp_bind_inv in Hwp. apply path_bind.
    eapply path_mono; [eapply path_silent; [apply silent_slice_check|eapply wp_both; [exact Hwp|]]|].
    { apply (wp_slice_check _ n 0 1 (λ _ l', l' = swapl 0 pivot l)); [lia|lia|lia|done]. }
    cbv beta. clear Hwp. intros [] g' l2 _ (-> & Hwp & ->).
    apply wp_bind_inv in Hwp. apply path_bind.
    eapply path_mono; [eapply path_silent; [apply silent_get|eapply wp_both; [exact Hwp|]]|].
    { apply (wp_get _ n 0 (λ y l', l' = swapl 0 pivot l ∧ y = x)); [lia|lia|].
      intros y Hy. split; [done|]. rewrite lookup_swapl in Hy by lia.
      rewrite decide_True in Hy by done. congruence. }
    cbv beta. clear Hwp. intros y g' l3 _ (-> & Hwp & -> & ->).
    change (bind (on_unwind _ _) _) with (partition_rest c x n) in *.
    eapply path_mono; [apply path_wp; [apply partition_rest_asks; simpl; auto| |]|].
    { eapply wp_mono; [exact Hwp| |].
      - intros a l' Hl' Ha. exact (conj Hl' Ha).
      - intros e l' _ (_ & (q & Hq) & _). done. }
    { apply (atl_mono _ _ (λ _ g' _, g + m ≤ g')); [|intros ? ? ? _ H; exact H].
      unfold partition_rest. apply atl_bind, atl_guard.
      eapply atl_mono.
      - unfold slice. rewrite (proj2 (Nat.leb_le 1 n)), (proj2 (Nat.leb_le n n)) by lia. cbn [andb].
        apply (atl_scan_l _ x (n - 1) m); [lia|lia|lia|]. intros j y _ Hj Hy. by apply (Hm j).
      - cbv beta. intros [mid was] g' l' _ Hg. apply atl_grow. lia. }
    cbv beta. intros [mid was] g' l' Hl' ((_ & Hp & Hmx & H1 & H2) & Hg).
    pose proof (lookup_lt_Some _ _ _ Hmx) as Hmid.
    rewrite swapl_length in Hl'.
    split; [done|]. split; [done|]. split; [lia|]. split; [done|].
    assert (Hc : consistent (ans_lt (glt σ)) (glt σ)) by (intros a b r [= ->]; done).
    split.
    - apply rng_take in H1. eapply Forall_impl; [exact H1|].
      intros z Hz. apply (Hz (glt σ)); [apply glt_swo|done].
    - apply rng_drop in H2; [|lia]. eapply Forall_impl; [exact H2|].
      intros z Hz. apply (Hz (glt σ)); [apply glt_swo|done].
  Qed.

  (** Any arm of the sort is safe, whatever order the closure answers by. *)
  Lemma par_qs_safe fuel n pred limit wb wp l lt :
    n = length l → n < fuel →
    Prog.wp (ans_lt lt) (par_qs_recurse c fuel n pred limit wb wp) (λ _ _, True) (λ _ _, False) l.
  Proof.
    intros Hn Hf.
    assert (Hincons : ∀ lt', ¬ consistent (λ (_ : nat * nat) (r : option bool), r ≠ None) lt').
    { intros lt' H. pose proof (H 0 0 true ltac:(done)). pose proof (H 0 0 false ltac:(done)). congruence. }
    eapply (wp_mono_ans (λ _ r, r ≠ None) (ans_lt lt)).
    - intros q r ->. done.
    - apply (par_qs_recurse_spec c (λ _ r, r ≠ None) fuel n pred limit wb wp l Hn Hf).
      intros p _. apply Forall_forall. intros y _ lt' _ H. by apply Hincons in H.
    - done.
    - intros e l' _ (_ & (q & Hq) & _). done.
  Qed.

  Fixpoint tri (k : nat) : nat := match k with 0 => 0 | S j => S j + tri j end.

  Lemma padv_par M :
    (∀ m, M ≤ m → sequential m = false) → 50 ≤ M →
    ∀ k fuel n limit σ l,
    limit ≠ 0 → n = length l → n < fuel → NoDup l → Forall (λ x, ¬ fro σ x) l → 6 * k + M ≤ n →
    padv (par_qs_recurse c fuel n None limit true true) (tri k) k σ l.
  Proof.
    intros HM H50. induction k as [|k IH]; intros fuel n limit σ l Hlim Hn Hf Hnd Hgas Hk.
    { exists []. split; [|apply deep_0]. intros g0. eapply wpg_mono; [eapply wpg_grow; [apply le_n|by apply par_qs_safe]| |]; cbv beta.
      - intros a g l' _ [? _]. simpl. lia.
      - by intros e g l' _ [_ ?]. }
    destruct fuel as [|f]; [lia|]. cbn [par_qs_recurse].
    unfold QS_MAX_INSERTION. destruct (Nat.leb_spec n 20); [lia|].
    destruct (Nat.eqb_spec limit 0); [lia|].
    apply (padv_freeze _ _ _ _ (six l)).
    set (σ' := σ ++ [six l]).
    apply padv_bind, path_ret. exists (tri (S k)). split; [|lia].
    apply padv_bind. eapply path_mono; [apply path_choose_pivot; [done|lia|done|done]|]. cbv beta.
    intros r g0 l0 _ [-> ->]. exists (tri (S k)). split; [|lia]. cbn [andb].
    apply padv_bind, path_ret. exists (tri (S k)). split; [|lia].
    apply padv_bind, path_ret. exists (tri (S k)). split; [|lia].
    pose proof (Nat.div_mod n 4). pose proof (Nat.mod_upper_bound n 4).
    assert (Hx : l !! (n / 4 * 2) = Some (l !!! (n / 4 * 2))).
    { apply list_lookup_lookup_total_lt. lia. }
    assert (Hin6 : l !!! (n / 4 * 2) ∈ six l).
    { unfold six. cbv zeta. rewrite <-Hn. rewrite !elem_of_cons. auto. }
    set (x := l !!! (n / 4 * 2)) in *. 
    assert (Hfro : fro σ' x) by (by apply fro_new).
    assert (Hgx : ∀ y, y ∈ l → ¬ fro σ y) by (by apply Forall_forall).
    assert (Hxl : x ∈ l) by (by eapply elem_of_list_lookup_2).
    apply padv_bind. eapply path_mono; [apply (path_partition σ' n (n / 4 * 2) l x (n / 4 - 2)); [done|done|done|lia|]|].
    { intros j y Hj Hy. rewrite lookup_swapl in Hy by lia.
      rewrite decide_False in Hy by lia. rewrite decide_False in Hy by lia.
      pose proof (lookup_lt_Some _ _ _ Hy).
      assert (y = l !!! (1 + j)) as -> by (symmetry; by apply list_lookup_total_correct).
      unfold σ'. rewrite glt_new; [|apply Hgx; by eapply elem_of_list_lookup_2|by apply Hgx|done].
      rewrite bool_decide_false; [done|]. apply six_not; rewrite <-?Hn; [done|lia..]. }
    cbv beta. intros [mid was] g1 l1 Hl1 (Hg1 & Hp1 & Hmid & Hmx & Hlt & Hge).
    exists (tri k). split; [|simpl; lia].
    assert (Hnd1 : NoDup l1) by (by rewrite Hp1).
    assert (H6 : n - mid ≤ 6).
    { change 6 with (length (six l)).
      replace (n - mid) with (length (drop mid l1)) by (rewrite drop_length; lia).
      apply submseteq_length, NoDup_submseteq.
      { rewrite <-(take_drop mid l1) in Hnd1. by apply NoDup_app in Hnd1 as (_ & _ & ?). }
      rewrite (drop_S _ _ _ Hmx). intros y [-> |Hy]%elem_of_cons; [done|].
      pose proof (proj1 (Forall_forall _ _) Hge y Hy) as Hyx. cbv beta in Hyx. unfold σ' in Hyx.
      assert (y ∈ l) by (rewrite <-Hp1, <-(take_drop (S mid) l1), elem_of_app; by right).
      rewrite glt_new in Hyx; [|by apply Hgx|by apply Hgx|done].
      destruct (bool_decide_reflect (y ∈ six l)); [done|]. done. }
    apply padv_bind, path_usub; [lia|]. exists (tri k). split; [|lia].
    apply padv_bind. eapply path_mono; [apply path_silent|]; cbv beta.
    { apply silent_slice_check2. }
    { apply (wp_slice _ n mid n _ (λ _ l', l' = l1)); [lia|lia|lia|].
      apply wp_slice_check; [lia|lia| |].
      - rewrite take_length, drop_length. lia.
      - intros _. rewrite (take_ge (drop mid l1)) by (rewrite drop_length; lia).
        rewrite (drop_ge _ n) by lia.
        rewrite app_nil_r. apply take_drop. }
    intros [] g2 l2 _ [-> ->]. exists (tri k). split; [|lia].
    apply padv_bind. eapply path_mono; [apply path_silent|]; cbv beta.
    { apply silent_get. }
    { apply (wp_get _ n mid (λ _ l', l' = l1)); [lia|lia|done]. }
    intros p g2 l2 _ [-> ->]. exists (tri k). split; [|lia].
    rewrite (HM (Nat.max mid (n - (mid + 1)))) by lia.
    apply padv_join.
    - apply padv_slice; [lia|lia|lia|]. rewrite Nat.sub_0_r, drop_0.
      apply IH; [done|rewrite take_length; lia|lia| | |lia].
      + rewrite <-(take_drop mid l1) in Hnd1. by apply NoDup_app in Hnd1 as (? & _ & _).
      + apply Forall_forall. intros y Hy Hfy.
        pose proof (proj1 (Forall_forall _ _) Hlt y Hy) as Hyx. cbv beta in Hyx. unfold σ' in *.
        assert (y ∈ l) by (rewrite <-Hp1, <-(take_drop mid l1), elem_of_app; by left).
        rewrite glt_new in Hyx; [|by apply Hgx|by apply Hgx|done].
        apply fro_new_inv in Hfy; [|by apply Hgx]. by rewrite bool_decide_true in Hyx.
    - intros lt l' Hl'. apply wp_slice; [lia|lia|lia|].
      eapply wp_mono; [apply par_qs_safe; [rewrite take_length, drop_length; lia|lia]|done|done].
  Qed.
End steps.

Lemma tri_bound k : k * k ≤ 2 * tri k.
Proof. induction k as [|k IH]; [done|]. cbn [tri]. lia. Qed.

Definition cmp_grk (σ : list (list nat)) (x y : nat) : comparison := Nat.compare (grk σ y) (grk σ x).
Lemma is_lt_cmp_grk σ x y : is_lt (cmp_grk σ) x y = glt σ x y.
Proof.
  unfold is_lt, cmp_grk, glt.
  destruct (Nat.compare_spec (grk σ y) (grk σ x)), (Nat.ltb_spec (grk σ y) (grk σ x)); auto; lia.
Qed.
Lemma cmp_grk_swo σ : strict_weak_order (is_lt (cmp_grk σ)).
Proof.
  destruct (glt_swo σ) as [H1 H2 H3]. split.
  - intros x. by rewrite is_lt_cmp_grk.
  - intros x y z. rewrite !is_lt_cmp_grk. apply H2.
  - intros x y z. rewrite !is_lt_cmp_grk. apply H3.
Qed.

(** One order for which the sort makes quadratically many calls and nests
    linearly many joins. *)
Lemma par_quick_sort_bad (c : cfg) k M n :
  zst c = false → (∀ m, M ≤ m → sequential m = false) → 50 ≤ M → n = 6 * k + M →
  ∃ σ, (∀ g0, wpg (cnt_ans (ans_lt (glt σ))) (par_quick_sort c n) (λ _ g _, g0 + tri k ≤ g)
              (λ _ _ _, False) g0 (seq 0 n)) ∧
       deep (glt σ) (par_quick_sort c n) k (seq 0 n).
Proof.
  intros Hz HM H50 Hn. unfold par_quick_sort. rewrite Hz.
  destruct (padv_par c M HM H50 k (S n) n (bit_length n) [] (seq 0 n)) as (σ & H1 & H2).
  - pose proof (bit_length_spec n). destruct (bit_length n); [simpl in *; lia|done].
  - by rewrite seq_length.
  - lia.
  - apply NoDup_seq.
  - apply Forall_forall. intros x _ H. unfold fro in H. simpl in H. lia.
  - lia.
  - exists σ. auto.
Qed.
Lemma sequential_over m : (2001 ≤ N.of_nat m)%N → sequential m = false.
Proof. intros H. unfold sequential. apply N.leb_gt. lia. Qed.

Lemma par_sort_unstable_by_superlinear (c : cfg) (C : nat) :
  zst c = false →
  ∃ (cmp : nat → nat → comparison) (l : list nat),
    strict_weak_order (is_lt cmp) ∧
    let '(r, (_, tr), _) :=
      run (logged (pure_compare cmp)) (par_sort_unstable_by c (length l)) (tt, []) l in
    r = Done tt ∧ C * length l * (Nat.log2 (length l) + 1) < length tr.
Proof.
  intros Hz.
  assert (∃ M, M = N.to_nat 2001) as [M HM] by eauto.
  assert (HMs : ∀ m, M ≤ m → sequential m = false).
  { intros m Hm. apply sequential_over. lia. }
  assert (∃ e, e = 18) as [e He] by eauto.
  assert (∃ Z, Z = 2 ^ e) as [Z HZ] by eauto.
  assert (HZN : N.of_nat Z = 262144%N).
  { rewrite HZ, Nat2N.inj_pow, He. reflexivity. }
  set (j := 2 * C + e). set (k := 2 ^ j).
  assert (HC : C < 2 ^ C) by (apply Nat.pow_gt_lin_r; lia).
  set (X := 2 ^ C) in *.
  assert (Hk : k = X * X * Z).
  { unfold k, j. rewrite HZ, !Nat.pow_add_r. f_equal. replace (2 * C) with (C + C) by lia.
    apply Nat.pow_add_r. }
  assert (HX : 1 * 1 ≤ X * X) by (apply Nat.mul_le_mono; lia).
  assert (HMZ : M ≤ Z) by lia.
  assert (H6 : 512 ≤ Z) by lia.
  assert (HMk : M ≤ k).
  { rewrite Hk. transitivity (1 * 1 * Z); [lia|]. by apply Nat.mul_le_mono_r. }
  assert (H50 : 50 ≤ M) by lia. clear HZN HM.
  assert (∃ n, n = 6 * k + M) as [n Hn] by eauto.
  destruct (par_quick_sort_bad c k M n) as (σ & Hσ & _); [done|done|done|done|].
  exists (cmp_grk σ), (seq 0 n). rewrite seq_length. split; [apply cmp_grk_swo|].
  pose proof (wpg_run_compare (ans_lt (glt σ)) (pure_compare (cmp_grk σ)) _ _ _ tt (seq 0 n)
    ltac:(intros ? [x y]; rewrite less_of_pure_compare; unfold pure_less, ans_lt; simpl;
          by rewrite is_lt_cmp_grk) (Hσ 0)) as H.
  unfold par_sort_unstable_by.
  destruct (run _ _ _ _) as [[[[]|ex| |] [s' tr]] l']; try done. split; [done|].
  cbv beta in H. rewrite Nat.add_0_l in H. pose proof (tri_bound k) as Ht.
  assert (Hlog : Nat.log2 n + 1 ≤ j + 4).
  { assert (Nat.log2 n ≤ j + 3); [|lia]. apply Nat.lt_succ_r, Nat.log2_lt_pow2; [lia|].
    replace (S (j + 3)) with (j + 4) by lia. rewrite Nat.pow_add_r. fold k. change (2 ^ 4) with 16. lia. }
  set (t := length tr) in *. clearbody t.
  assert (H1 : k * k ≤ 2 * t) by lia.
  assert (H2 : C * (j + 4) ≤ X * (24 * X)) by (apply Nat.mul_le_mono; unfold j; lia).
  assert (H3 : C * n * (Nat.log2 n + 1) ≤ 7 * k * (24 * (X * X))).
  { transitivity (n * (C * (j + 4))).
    - transitivity (C * n * (j + 4)); [by apply Nat.mul_le_mono_l|lia].
    - apply Nat.mul_le_mono; lia. }
  assert (H4 : k * k = Z * (k * (X * X))) by (rewrite Hk at 2; lia).
  assert (H5 : 1 * 1 ≤ k * (X * X)) by (apply Nat.mul_le_mono; lia).
  assert (H3' : C * n * (Nat.log2 n + 1) ≤ 168 * (k * (X * X))).
  { etransitivity; [exact H3|]. rewrite !Nat.mul_assoc. lia. }
  clear H3. set (Y := k * (X * X)) in *. clearbody Y.
  assert (H7 : 512 * Y ≤ Z * Y) by (by apply Nat.mul_le_mono_r).
  lia.
Qed.

Lemma par_sort_unstable_deep (c : cfg) (C : nat) :
  zst c = false →
  ∃ (lt : nat → nat → bool) (l : list nat),
    strict_weak_order lt ∧
    C * (Nat.log2 (length l) + 1) < join_depth (pure_less lt) (par_sort_unstable c (length l)) tt l.
Proof.
  intros Hz.
  assert (∃ M, M = N.to_nat 2001) as [M HM] by eauto.
  assert (HMs : ∀ m, M ≤ m → sequential m = false).
  { intros m Hm. apply sequential_over. lia. }
  assert (∃ e, e = 11) as [e He] by eauto.
  assert (∃ Z, Z = 2 ^ e) as [Z HZ] by eauto.
  assert (HZN : N.of_nat Z = 2048%N).
  { rewrite HZ, Nat2N.inj_pow, He. reflexivity. }
  assert (HMZ : M ≤ Z) by lia.
  assert (H16 : 16 ≤ Z) by lia.
  assert (H50 : 50 ≤ M) by lia. clear HZN HM.
  set (j := C + e). set (k := 2 ^ j).
  assert (HC : C < 2 ^ C) by (apply Nat.pow_gt_lin_r; lia).
  assert (Hk : k = 2 ^ C * Z) by (unfold k, j; by rewrite HZ, Nat.pow_add_r).
  assert (HMk : M ≤ k).
  { rewrite Hk. transitivity (1 * Z); [lia|]. apply Nat.mul_le_mono_r. lia. }
  assert (∃ n, n = 6 * k + M) as [n Hn] by eauto.
  destruct (par_quick_sort_bad c k M n) as (σ & _ & Hσ); [done|done|done|done|].
  exists (glt σ), (seq 0 n). rewrite seq_length. split; [apply glt_swo|].
  apply deep_join_depth in Hσ. unfold par_sort_unstable. eapply Nat.lt_le_trans; [|exact Hσ].
  assert (Hlog : Nat.log2 n ≤ j + 3).
  { apply Nat.lt_succ_r, Nat.log2_lt_pow2; [lia|].
    replace (S (j + 3)) with (j + 4) by lia. rewrite Nat.pow_add_r. fold k. change (2 ^ 4) with 16. lia. }
  assert (C * (Nat.log2 n + 1) ≤ C * (C + 15)) by (apply Nat.mul_le_mono_l; unfold j in *; lia).
  assert (C * (C + 15) < k); [|lia].
  assert (∀ m, m * (m + 15) < 2 ^ m * Z) as Hq.
  { intros m. induction m as [|m IH]; [rewrite Nat.pow_0_r; lia|].
    rewrite Nat.pow_succ_r'. assert (m < 2 ^ m) by (apply Nat.pow_gt_lin_r; lia).
    assert ((m + 1) * 16 ≤ 2 ^ m * Z) by (apply Nat.mul_le_mono; lia). lia. }
  rewrite Hk. apply Hq.
Qed.
