(** * THalf: the parallel stable sort of one chunk needs half of its buffer.

    [below p q]: [q] does what [p] does except where [p] is undefined. *)
From Verif Require Export TParMerge.
From Verif Require Import Examples.
From stdpp Require Import list.

Local Transparent wp bind on_unwind relocate focus.
Local Arguments bind {T Q R A B} !p f.
Local Arguments on_unwind {T Q R A} c !p.
Local Arguments relocate {T Q R A} f !p.
Local Arguments wp {T Q R A} ans !p Φ E l.

Inductive below {T Q R A : Type} : prog T Q R A → prog T Q R A → Prop :=
| below_undef q : below Undef q
| below_ret a : below (Ret a) (Ret a)
| below_throw e : below (Throw e) (Throw e)
| below_nofuel : below NoFuel NoFuel
| below_read i k k' : (∀ x, below (k x) (k' x)) → below (Read i k) (Read i k')
| below_write i x k k' : below k k' → below (Write i x k) (Write i x k')
| below_ask q k k' : (∀ r, below (k r) (k' r)) → below (Ask q k) (Ask q k')
| below_par B C (p1 : prog T Q R B) (p2 : prog T Q R C) k k' :
    (∀ b d, below (k b d) (k' b d)) → below (Par p1 p2 k) (Par p1 p2 k').

Section below.
  Context {T Q R : Type}.

  Lemma below_refl {A} (p : prog T Q R A) : below p p.
  Proof. induction p; by constructor. Qed.
  Lemma below_bind {A B} (p q : prog T Q R A) (f g : A → prog T Q R B) :
    below p q → (∀ a, below (f a) (g a)) → below (bind p f) (bind q g).
  Proof. intros Hp Hf. induction Hp; simpl; try by constructor. apply Hf. Qed.
  Lemma below_on_unwind {A} c c' (p q : prog T Q R A) :
    below c c' → below p q → below (on_unwind c p) (on_unwind c' q).
  Proof.
    intros Hc Hp. induction Hp; simpl; try by constructor.
    apply below_bind; [done|]. intros _. apply below_refl.
  Qed.
  Lemma below_relocate {A} f (p q : prog T Q R A) : below p q → below (relocate f p) (relocate f q).
  Proof. intros Hp. induction Hp; simpl; by constructor. Qed.
  Lemma below_for_up a cnt (p q : nat → prog T Q R unit) :
    (∀ i, below (p i) (q i)) → below (for_up a cnt p) (for_up a cnt q).
  Proof.
    intros H. revert a. induction cnt as [|cnt IH]; intros a; simpl; [apply below_refl|].
    by apply below_bind.
  Qed.
  Lemma below_wp {A} (p q : prog T Q R A) ans Φ E l : below p q → wp ans p Φ E l → wp ans q Φ E l.
  Proof.
    intros Hp. revert Φ E l.
    induction Hp as [| | | |i k k' _ IH|i x k k' _ IH|q k k' _ IH|B C p1 p2 k k' _ IH];
      intros Φ E l; simpl; try done.
    - destruct (l !! i); [apply IH|done].
    - intros [? ?]. split; [done|]. by apply IH.
    - intros H r Hr. by apply IH, H.
    - intros H. eapply wp_mono; [exact H| |].
      + intros b l1 _ H1. eapply wp_mono; [exact H1| |]; intros; by apply IH.
      + intros e l1 _ H1. eapply wp_mono; [exact H1| |]; intros; by apply IH.
  Qed.
End below.

Section chunk.
  Context {T : Type} (c : cfg) (n cap cap' : nat).
  Hypothesis Hcap : cap ≤ cap'.
  Notation P A := (cmp_prog T A).

  Lemma below_bget m i : below (bget m cap i : P T) (bget m cap' i).
  Proof.
    unfold bget. destruct (Nat.ltb_spec i cap); [|constructor].
    rewrite (proj2 (Nat.ltb_lt i cap')) by lia. apply below_refl.
  Qed.
  Lemma below_bput m i (x : T) : below (bput m cap i x : P unit) (bput m cap' i x).
  Proof.
    unfold bput. destruct (Nat.ltb_spec i cap); [|constructor].
    rewrite (proj2 (Nat.ltb_lt i cap')) by lia. apply below_refl.
  Qed.
  Lemma below_hole_drop m s e d : below (pm_hole_drop m cap s e d : P unit) (pm_hole_drop m cap' s e d).
  Proof.
    unfold pm_hole_drop. apply below_bind; [apply below_refl|]. intros len.
    apply below_for_up. intros i. apply below_bind; [apply below_bget|]. intros x. apply below_refl.
  Qed.
  Lemma below_copy_out m b k : below (pm_copy_out m cap b k : P unit) (pm_copy_out m cap' b k).
  Proof.
    unfold pm_copy_out. apply below_for_up. intros i.
    apply below_bind; [apply below_refl|]. intros x. apply below_bput.
  Qed.
  Lemma below_merge_fwd fuel m mid left right out :
    below (pm_merge_fwd fuel m cap mid left right out : P unit) (pm_merge_fwd fuel m cap' mid left right out).
  Proof.
    revert left right out. induction fuel as [|f IH]; intros left right out; [constructor|].
    cbn [pm_merge_fwd]. destruct (_ && _); [|apply below_hole_drop].
    apply below_bind; [apply below_refl|]. intros x.
    apply below_bind; [apply below_bget|]. intros y.
    apply below_bind; [apply below_on_unwind; [apply below_hole_drop|apply below_refl]|]. intros r.
    apply below_bind; [apply below_refl|]. intros _.
    apply below_bind; [apply below_on_unwind; [apply below_hole_drop|apply below_refl]|]. intros _.
    destruct r; apply IH.
  Qed.
  Lemma below_merge_bwd fuel m left right out :
    below (pm_merge_bwd fuel m cap left right out : P unit) (pm_merge_bwd fuel m cap' left right out).
  Proof.
    revert left right out. induction fuel as [|f IH]; intros left right out; [constructor|].
    cbn [pm_merge_bwd]. cbv zeta. destruct (_ && _); [|apply below_hole_drop].
    apply below_bind; [apply below_bget|]. intros x.
    apply below_bind; [apply below_refl|]. intros y.
    apply below_bind; [apply below_on_unwind; [apply below_hole_drop|apply below_refl]|]. intros r.
    apply below_bind; [apply below_on_unwind; [apply below_hole_drop|apply below_refl]|]. intros out'.
    apply below_bind; [apply below_refl|]. intros _.
    apply below_bind; [apply below_on_unwind; [apply below_hole_drop|apply below_refl]|]. intros _.
    apply IH.
  Qed.
  Lemma below_merge m mid : below (pm_merge m cap mid : P unit) (pm_merge m cap' mid).
  Proof.
    unfold pm_merge. apply below_bind; [apply below_refl|]. intros rest.
    destruct (mid <=? rest); (apply below_bind; [apply below_copy_out|]); intros _.
    - apply below_merge_fwd.
    - apply below_merge_bwd.
  Qed.
  Lemma below_collapse_loop fuel runs :
    below (pm_collapse_loop fuel n cap runs : P _) (pm_collapse_loop fuel n cap' runs).
  Proof.
    revert runs. induction fuel as [|f IH]; intros runs; [constructor|]. cbn [pm_collapse_loop].
    destruct (pm_collapse runs) as [r|]; [|apply below_refl].
    apply below_bind; [apply below_refl|]. intros left.
    apply below_bind; [apply below_refl|]. intros right.
    apply below_bind; [|intros _; apply IH].
    unfold slice_buf. destruct (_ && _); [|apply below_refl]. apply below_relocate, below_merge.
  Qed.
  Lemma below_sort_loop fuel e runs :
    below (pm_sort_loop c fuel n cap e runs : P _) (pm_sort_loop c fuel n cap' e runs).
  Proof.
    revert e runs. induction fuel as [|f IH]; intros e runs; [constructor|]. cbn [pm_sort_loop].
    destruct (0 <? e); [|apply below_refl].
    apply below_bind; [apply below_refl|]. intros [start|res]; [|apply below_refl].
    apply below_bind; [apply below_refl|]. intros start'.
    apply below_bind; [apply below_refl|]. intros len.
    apply below_bind; [apply below_collapse_loop|]. intros runs'. apply IH.
  Qed.
End chunk.

Global Opaque wp bind on_unwind relocate focus.

Section sort.
  Context {T : Type} (c : cfg) (take_item : nat → bool).
  Implicit Types (l junk m : list T).

  Lemma pm_merge_sort_half ans (V J : list T) cap :
    0 < length V → length V / 2 ≤ length J → length J ≤ cap →
    wp ans (pm_merge_sort c (length V) cap)
      (onv (length J) (λ res V', sort_result ans V res V'))
      (onv (length J) (mpanic ans V)) (V ++ J).
  Proof.
    intros HV HJ Hcap. eapply below_wp; [|by apply pm_merge_sort_spec].
    by apply below_sort_loop.
  Qed.

  Definition chunk_buffer l junk : Prop :=
    length l ≤ 20 ∨ length l ≤ CHUNK_LENGTH ∧ length junk = length l / 2.

  Lemma par_merge_sort_half ans l junk :
    chunk_buffer l junk →
    wp ans (par_merge_sort c take_item (length l))
      (λ _ M, onp (length junk) (λ V, sperm ans l V ∧ (if zst c then V = l else ksorted ans V)) M)
      (λ e M, onp (length junk) (mpanic ans l e) M) (l ++ junk).
  Proof.
    intros Hb. unfold par_merge_sort. destruct (zst c).
    { apply wp_ret. exists l, junk. done. }
    destruct (Nat.leb_spec (length l) PM_MAX_INSERTION) as [Hmax|Hmax].
    { destruct (Nat.leb_spec 2 (length l)) as [H2|H2].
      - wp_apply (wp_frame_r ans _ _ _ l junk (pm_small_spec ans l H2)).
        + intros _ M _ (V' & -> & HV' & H). exists V', junk. done.
        + intros e M _ (V' & -> & HV' & H). exists V', junk. done.
      - apply wp_ret. exists l, junk. split; [done|]. split; [done|]. split; [done|].
        destruct l as [|x [|y l]]; simpl in *; [constructor|apply ksorted_singleton|lia]. }
    destruct Hb as [Hb|[Hc Hb]]; [unfold PM_MAX_INSERTION in *; lia|].
    destruct (Nat.leb_spec (length l) CHUNK_LENGTH) as [Hle|Hgt]; [|lia].
    apply wp_bind.
    wp_apply (pm_merge_sort_half ans l junk (length l)); [unfold PM_MAX_INSERTION in *; lia|by rewrite Hb| | |].
    { rewrite Hb. apply Nat.div_le_upper_bound; lia. }
    - intros res M _ (V1 & J1 & -> & HJ1 & Hr).
      apply sort_result_state in Hr as [Hcs Hp].
      pose proof (sperm_length ans l V1 Hp) as Hl. unfold cstate in Hcs.
      destruct (ms_eqb res Descending); simpl in Hcs.
      + rewrite <-Hl.
        wp_apply (wp_frame_r ans _ _ _ V1 J1
          (reverse_spec ans (length V1) V1 (λ _ _, False) eq_refl)).
        * intros [] M _ (V' & -> & HV' & ->). exists (rev V1), J1.
          split; [done|]. split; [done|]. split; [|by apply ksorted_rev].
          etrans; [exact Hp|by apply sperm_reverse].
        * intros e M _ (V' & _ & _ & []).
      + apply wp_ret. exists V1, J1. done.
    - intros e M _ (V1 & J1 & -> & HJ1 & Hr). exists V1, J1. done.
  Qed.
  Lemma onp_half_take n k (Φ : list T → Prop) (m : list T) :
    length m = n + k → onp k Φ m → Φ (take n m).
  Proof.
    intros Hm (V & J & -> & HJ & H). rewrite app_length in Hm. by rewrite take_app_alt by lia.
  Qed.
  Lemma par_sort_half_lt lt l junk :
    strict_weak_order lt → (zst c = true → ∀ x y : T, x = y) → chunk_buffer l junk →
    every_schedule (ans_lt lt) (par_sort c take_item (length l)) (l ++ junk)
      (λ _ m, let l' := take (length l) m in
         Permutation l l' ∧ sorted_wrt lt l' ∧ same_order_of_equals lt l l') (λ _ _, False).
  Proof.
    intros Hs Hz Hb. eapply es_less; [apply ans_lt_total|apply within_par_merge_sort|].
    eapply wp_mono; [by apply par_merge_sort_half| |].
    - intros [] m Hm Ho. rewrite app_length in Hm.
      apply onp_half_take with (n := length l) in Ho as [Hp Hso]; [|done].
      cbv zeta. split; [symmetry; by apply (sperm_perm (ans_lt lt))|].
      split; [|by apply sperm_same_order].
      destruct (zst c); [by apply one_element_sorted; auto|]. apply ksorted_sorted; auto.
    - intros e m Hm Ho. rewrite app_length in Hm.
      apply onp_half_take with (n := length l) in Ho; [|done]. by eapply mpanic_lt.
  Qed.
  Lemma par_sort_by_half_any ans l junk :
    (∀ q, ∃ r, ans q r) → chunk_buffer l junk →
    every_schedule ans (par_sort_by c take_item (length l)) (l ++ junk)
      (λ _ m, Permutation l (take (length l) m))
      (λ e m, e = UserPanic ∧ Permutation l (take (length l) m)).
  Proof.
    intros Ht Hb. eapply es_by_compare; [done|apply within_par_merge_sort|].
    eapply wp_mono; [by apply par_merge_sort_half| |].
    - intros [] m Hm Ho. rewrite app_length in Hm.
      apply onp_half_take with (n := length l) in Ho as [Hp _]; [|done].
      symmetry. by eapply sperm_perm.
    - intros e m Hm Ho. rewrite app_length in Hm.
      apply onp_half_take with (n := length l) in Ho as (-> & _ & Hp); [|done].
      split; [done|]. by symmetry.
  Qed.
End sort.

(** 2001 equal elements make two chunks that are merged through the whole buffer. *)
Definition one_over : nat := N.to_nat 2001.
Definition half_of_it : nat := N.to_nat 1000.
Lemma one_over_undefined :
  (run (pure_less (λ _ _ : bool, false)) (par_sort cfg_release64 (λ _, true) one_over) tt
     (replicate one_over false ++ replicate half_of_it true)).1.1 = Undefined.
Proof. vm_compute. reflexivity. Qed.
Lemma par_sort_half_false :
  ¬ ∀ (T : Type) (c : cfg) (take_item : nat → bool) (lt : T → T → bool) (l junk : list T),
    strict_weak_order lt → (zst c = true → ∀ x y : T, x = y) → length junk = length l / 2 →
    (run (pure_less lt) (par_sort c take_item (length l)) tt (l ++ junk)).1.1 = Done tt.
Proof.
  intros H.
  specialize (H bool cfg_release64 (λ _, true) (λ _ _, false)
    (replicate one_over false) (replicate half_of_it true)).
  rewrite !replicate_length, one_over_undefined in H.
  discriminate H; [by split|done|].
  unfold one_over, half_of_it.
  change (N.to_nat 2001 / 2) with (N.to_nat 2001 / N.to_nat 2). by rewrite <-N2Nat.inj_div.
Qed.
