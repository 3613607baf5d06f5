(** * TAccessSeq: the accesses of the selections, of the stable sort and of the
    linear methods are paid for by calls. *)
From Verif Require Export TAccess.
From Verif Require Import TAlike.
From stdpp Require Import list.
Local Open Scope prog_scope.

Section select.
  Context {T : Type} (c : cfg).

  Lemma max_by_loop_pays n acc i cnt (Ψ : nat → nat → Prop) (E : nat → Prop) b :
    2 ≤ b → (∀ x b', b + 14 * cnt ≤ b' → Ψ x b') → (∀ b', b ≤ b' + 2 → E b') →
    pay (max_by_loop (T:=T) n acc i cnt) Ψ E b.
  Proof.
    revert acc i b. induction cnt as [|k IH]; intros acc i b Hb HΨ HE; simpl; pays_go.
    apply IH; [lia|intros; pays_end..].
  Qed.
  Lemma min_by_loop_pays n acc i cnt (Ψ : nat → nat → Prop) (E : nat → Prop) b :
    2 ≤ b → (∀ x b', b + 14 * cnt ≤ b' → Ψ x b') → (∀ b', b ≤ b' + 2 → E b') →
    pay (min_by_loop (T:=T) n acc i cnt) Ψ E b.
  Proof.
    revert acc i b. induction cnt as [|k IH]; intros acc i b Hb HΨ HE; simpl; pays_go.
    apply IH; [lia|intros; pays_end..].
  Qed.
  Lemma max_swap_pays n k (Ψ : unit → nat → Prop) (E : nat → Prop) b :
    4 ≤ b → (∀ x b', b + 14 * (n - 1) ≤ b' + 4 → Ψ x b') → (∀ b', b ≤ b' + 4 → E b') →
    pay (m ← max_index (T:=T) n; swap n m k) Ψ E b.
  Proof.
    intros Hb HΨ HE. unfold max_index. pays_go.
    apply max_by_loop_pays; [lia| |intros; pays_end]. intros. pays_go.
  Qed.
  Lemma min_swap_pays n k (Ψ : unit → nat → Prop) (E : nat → Prop) b :
    4 ≤ b → (∀ x b', b + 14 * (n - 1) ≤ b' + 4 → Ψ x b') → (∀ b', b ≤ b' + 4 → E b') →
    pay (m ← min_index (T:=T) n; swap n m k) Ψ E b.
  Proof.
    intros Hb HΨ HE. unfold min_index. pays_go.
    apply min_by_loop_pays; [lia| |intros; pays_end]. intros. pays_go.
  Qed.
  Lemma less_at_pays n i j (Ψ : bool → nat → Prop) (E : nat → Prop) b :
    2 ≤ b → (∀ x b', b + 14 ≤ b' → Ψ x b') → (∀ b', b ≤ b' + 2 → E b') →
    pay (less_at (T:=T) n i j) Ψ E b.
  Proof. intros Hb HΨ HE. unfold less_at. pays_go. Qed.
  Lemma median_idx_pays n i j k (Ψ : nat → nat → Prop) (E : nat → Prop) b :
    2 ≤ b → (∀ x b', b ≤ b' → Ψ x b') → (∀ b', b ≤ b' + 2 → E b') →
    pay (median_idx (T:=T) n i j k) Ψ E b.
  Proof. intros Hb HΨ HE. unfold median_idx. pays_go. Qed.
  Ltac less_step := apply pays_bind, less_at_pays; [lia| |intros; pays_end]; intros ? ? ?.
  Lemma ninther_pays n a1 a2 d0 d e f g h i (Ψ : unit → nat → Prop) (E : nat → Prop) b :
    2 ≤ b → (∀ x b', b ≤ b' → Ψ x b') → (∀ b', b ≤ b' + 2 → E b') →
    pay (ninther (T:=T) n a1 a2 d0 d e f g h i) Ψ E b.
  Proof.
    intros Hb HΨ HE. unfold ninther.
    apply pays_bind, median_idx_pays; [lia| |intros; pays_end]. intros mb b1 Hb1.
    apply pays_bind, median_idx_pays; [lia| |intros; pays_end]. intros mh b2 Hb2.
    less_step. destruct (if x then _ else _) as [mb' mh'].
    less_step. destruct (if x0 then _ else _) as [d' f'].
    less_step. apply pays_bind.
    eapply (pays_mono _ _ (λ _ b', b + 14 ≤ b') _ E); [| |done].
    - destruct x1; [apply pays_ret; lia|]. less_step. destruct x1; [apply pays_ret; lia|].
      less_step. apply pays_bind. destruct x1; [pays_go; lia|].
      less_step. destruct x1; pays_go; lia.
    - intros [k|] b5 Hb5; [|pays_go]. less_step. apply pays_bind.
      eapply (pays_mono _ _ (λ _ b', b + 14 ≤ b') _ E); [| |done].
      + destruct x2; [apply pays_ret; lia|]. less_step. apply pays_ret; lia.
      + intros. pays_go.
  Qed.
  Lemma ninthers_loop_pays n frac i cnt x y (Ψ : unit → nat → Prop) (E : nat → Prop) b :
    2 ≤ b → (∀ x b', b ≤ b' → Ψ x b') → (∀ b', b ≤ b' + 2 → E b') →
    pay (ninthers_loop (T:=T) n frac i cnt x y) Ψ E b.
  Proof.
    revert i x y b. induction cnt as [|k IH]; intros i x y b Hb HΨ HE; simpl; pays_go.
    apply ninther_pays; [lia| |intros; pays_end]. intros _ b1 Hb1.
    apply IH; [lia|intros; pays_end..].
  Qed.
  Lemma median_of_ninthers_pays rec n (Ψ : nat → nat → Prop) (E : nat → Prop) b :
    (∀ m k (Ψ : unit → nat → Prop) (E : nat → Prop) b,
       10 ≤ b → (∀ x b', b ≤ b' → Ψ x b') → (∀ b', b ≤ b' + 10 → E b') → pay (rec m k) Ψ E b) →
    10 ≤ b → (∀ x b', b + 10 * (n - 1) ≤ b' + 10 → Ψ x b') → (∀ b', b ≤ b' + 10 → E b') →
    pay (median_of_ninthers (T:=T) c rec n) Ψ E b.
  Proof.
    intros Hrec Hb HΨ HE. unfold median_of_ninthers. pays_go.
    apply ninthers_loop_pays; [lia| |intros; pays_end]. intros _ b1 Hb1. pays_go.
    apply Hrec; [lia| |intros; pays_end]. intros _ b2 Hb2. pays_go.
    apply partition_pays; [lia| |intros; pays_end]. intros [p ?] b3 Hb3. pays_go.
  Qed.
  Lemma medians_loop_pays rec fuel n k (Ψ : unit → nat → Prop) (E : nat → Prop) b :
    (∀ m k (Ψ : unit → nat → Prop) (E : nat → Prop) b,
       10 ≤ b → (∀ x b', b ≤ b' → Ψ x b') → (∀ b', b ≤ b' + 10 → E b') → pay (rec m k) Ψ E b) →
    10 ≤ b → (∀ x b', b ≤ b' → Ψ x b') → (∀ b', b ≤ b' + 10 → E b') →
    pay (medians_loop (T:=T) c rec fuel n k) Ψ E b.
  Proof.
    intros Hrec. revert n k b. induction fuel as [|f IH]; intros n k b Hb HΨ HE; simpl; [pays_go|].
    unfold SEL_MAX_INSERTION. destruct (Nat.leb_spec n 10).
    { pays_go. apply shift_left_pays; [lia|intros; pays_end..]. }
    destruct (k =? n - 1).
    { apply max_swap_pays; [lia|intros; pays_end..]. }
    destruct (k =? 0).
    { apply min_swap_pays; [lia|intros; pays_end..]. }
    apply pays_bind, median_of_ninthers_pays; [done|lia| |intros; pays_end]. intros p b1 Hb1.
    destruct (Nat.compare p k); pays_go; (apply IH; [lia|intros; pays_end..]).
  Qed.
  Lemma median_of_medians_pays depth n k (Ψ : unit → nat → Prop) (E : nat → Prop) b :
    10 ≤ b → (∀ x b', b ≤ b' → Ψ x b') → (∀ b', b ≤ b' + 10 → E b') →
    pay (median_of_medians (T:=T) c depth n k) Ψ E b.
  Proof.
    revert n k Ψ E b. induction depth as [|d IH]; intros n k Ψ E b Hb HΨ HE; [simpl; pays_go|].
    rewrite medians_unfold. pays_go. apply medians_loop_pays; auto.
  Qed.
  Lemma pai_loop_pays fuel n index pred limit wb (Ψ : unit → nat → Prop) (E : nat → Prop) b :
    2 * n + 30 ≤ b → (∀ x b', b ≤ b' → Ψ x b') → (∀ b', b ≤ b' + 2 * n + 30 → E b') →
    pay (pai_loop (T:=T) c fuel n index pred limit wb) Ψ E b.
  Proof.
    revert n index pred limit wb b.
    induction fuel as [|f IH]; intros n index pred limit wb b Hb HΨ HE; [simpl; pays_go|].
    cbn [pai_loop]. unfold SEL_MAX_INSERTION. destruct (Nat.leb_spec n 10).
    { pays_go. apply shift_left_pays; [lia|intros; pays_end..]. }
    destruct (limit =? 0).
    { apply median_of_medians_pays; [lia|intros; pays_end..]. }
    apply pays_bind, limit_pays; [lia| |intros; pays_end]. intros limit' b1 Hb1.
    apply pays_bind, choose_pivot_pays; [lia| |intros; pays_end]. intros [pivot likely] b2 Hb2.
    apply pays_bind, pred_pays; [lia| |intros; pays_end]. intros eq b4 Hb4.
    destruct eq.
    { apply pays_bind, partition_equal_pays; [lia| |intros; pays_end]. intros mid b5 Hb5. pays_go.
      apply IH; [lia|intros; pays_end..]. }
    apply pays_bind, partition_pays; [lia| |intros; pays_end]. intros [mid was_p] b5 Hb5. pays_go.
    destruct (Nat.compare mid index); pays_go; (apply IH; [lia|intros; pays_end..]).
  Qed.
  Lemma partition_at_index_pays n index (Ψ : nat * nat * nat * (nat * nat) → nat → Prop) (E : nat → Prop) b :
    2 * n + 30 ≤ b →
    (∀ lv v rv b', lv.1 + lv.2 ≤ n → rv.1 + rv.2 ≤ n → lv.2 + rv.2 ≤ n → b ≤ b' + 4 → Ψ (lv, v, rv) b') →
    (∀ b', b ≤ b' + 2 * n + 30 → E b') →
    pay (partition_at_index (T:=T) c n index) Ψ E b.
  Proof.
    intros Hb HΨ HE. unfold partition_at_index. destruct (Nat.leb_spec n index); [pays_go|].
    apply pays_bind. eapply (pays_mono _ _ (λ _ b', b ≤ b' + 4) _ E); [| |done].
    - destruct (zst c); [apply pays_ret; lia|]. destruct (index =? n - 1).
      { apply max_swap_pays; [lia|intros; lia|intros; pays_end]. }
      destruct (index =? 0).
      { apply min_swap_pays; [lia|intros; lia|intros; pays_end]. }
      apply pai_loop_pays; [lia|intros; lia|intros; pays_end].
    - intros _ b1 Hb1. unfold split_at, index0. simpl. pays_go.
      + apply HΨ; simpl; lia.
  Qed.
  Lemma rel_index_pays n pivot offset (Ψ : nat → nat → Prop) (E : nat → Prop) b :
    (∀ i, Ψ i b) → E b → pay (rel_index (T:=T) c n pivot offset) Ψ E b.
  Proof. intros HΨ HE. unfold rel_index. destruct (_ <=? _), (ovf c); by apply pays_ret || by apply pays_throw. Qed.
  Lemma partition_at_indices_pays depth fuel n base offset inds (Ψ : list (nat * nat) → nat → Prop) (E : nat → Prop) b :
    2 * n + 30 + 4 * length inds ≤ b →
    (∀ x b', b ≤ b' + 4 * length inds → Ψ x b') →
    (∀ b', b ≤ b' + 2 * n + 30 + 4 * length inds → E b') →
    pay (partition_at_indices (T:=T) c depth fuel n base offset inds) Ψ E b.
  Proof.
    revert fuel n base offset inds Ψ E b.
    induction depth as [|d IHd]; intros fuel; [intros; simpl; pays_go|].
    induction fuel as [|f IHf]; intros n base offset inds Ψ E b Hb HΨ HE; [simpl; pays_go|].
    simpl. destruct inds as [|i0 inds0]; [pays_go|].
    remember (i0 :: inds0) as inds eqn:Heq. clear Heq.
    assert (length (take (length inds / 2) inds) + length (drop (length inds / 2) inds) = length inds) as Hlen.
    { by rewrite <-app_length, take_drop. }
    destruct (drop (length inds / 2) inds) as [|pivot right_inds]; [pays_go|]. simpl in Hlen.
    apply pays_bind, rel_index_pays; [intros i|pays_end].
    apply pays_bind, partition_at_index_pays; [lia| |intros; pays_end].
    intros lv v rv b1 Hlv Hrv Hlr Hb1. pays_go.
    apply IHd; [lia| |intros; pays_end]. intros ls b2 Hb2. pays_go.
    apply IHf; [lia| |intros; pays_end]. intros rs b3 Hb3. pays_go.
  Qed.
  Lemma select_many_pays n inds (Ψ : list (nat * nat) → nat → Prop) (E : nat → Prop) b :
    2 * n + 30 + 4 * length inds ≤ b → (∀ x b', Ψ x b') → (∀ b', E b') →
    pay (select_many (T:=T) c n inds) Ψ E b.
  Proof. intros. apply partition_at_indices_pays; auto. Qed.
End select.

Section merge.
  Context {T : Type} (c : cfg).

  Lemma copy_out_pays cap n base i cnt (buf : list T) (Ψ : list T → nat → Prop) (E : nat → Prop) b :
    cnt ≤ b → (∀ x b', b ≤ b' + cnt → Ψ x b') → (∀ b', b ≤ b' + cnt → E b') →
    pay (copy_out cap n base i cnt buf) Ψ E b.
  Proof.
    revert i buf b. induction cnt as [|k IH]; intros i buf b Hb HΨ HE; simpl; pays_go.
    apply IH; [lia|intros; pays_end..].
  Qed.
  Lemma buf_get_pays (buf : list T) i (Ψ : T → nat → Prop) (E : nat → Prop) b :
    (∀ x, Ψ x b) → pay (buf_get buf i) Ψ E b.
  Proof. intros HΨ. unfold buf_get. destruct (buf !! i); [by apply pays_ret|apply pays_undef]. Qed.
  Lemma merge_hole_drop_pays n (buf : list T) start end_ dest (Ψ : unit → nat → Prop) (E : nat → Prop) b :
    end_ - start ≤ b → (∀ x b', b ≤ b' + (end_ - start) → Ψ x b') →
    (∀ b', b ≤ b' + (end_ - start) → E b') →
    pay (merge_hole_drop n buf start end_ dest) Ψ E b.
  Proof.
    intros Hb HΨ HE. unfold merge_hole_drop. pays_go.
    eapply pays_mono; [apply (pays_for_up _ _ _ _ (λ i b', b ≤ b' + i) E)| |auto]; [lia| |].
    - intros i b0 Hi Hb0. apply pays_bind, buf_get_pays. intros x. pays_go. lia.
    - simpl. auto.
  Qed.
  Lemma merge_fwd_pays fuel n mid (buf : list T) left right out (Ψ : unit → nat → Prop) (E : nat → Prop) b :
    mid - left + 1 ≤ b →
    (∀ x b', b + 14 * Nat.min (mid - left) (n - right) ≤ b' + (mid - left) → Ψ x b') →
    (∀ b', b ≤ b' + (mid - left) + 1 → E b') →
    pay (merge_fwd fuel n mid buf left right out) Ψ E b.
  Proof.
    revert left right out b.
    induction fuel as [|f IH]; intros left right out b Hb HΨ HE; simpl; [pays_go|].
    destruct (Nat.ltb_spec left mid), (Nat.ltb_spec right n); simpl;
      try (apply merge_hole_drop_pays; [lia|intros; pays_end..]).
    apply pays_bind, pays_uget; [lia|]. intros x. apply pays_bind, buf_get_pays. intros y.
    apply pays_bind, pays_on_unwind, pays_is_less.
    2: { apply merge_hole_drop_pays; [lia|intros; pays_end..]. }
    intros r. apply pays_bind, pays_nonoverlapping_if.
    apply pays_bind, pays_on_unwind, pays_put; [lia| |].
    2: { apply merge_hole_drop_pays; [lia|intros; pays_end..]. }
    destruct r; (apply IH; [lia| |intros; pays_end]); intros; apply HΨ; lia.
  Qed.
  Lemma merge_bwd_pays fuel n (buf : list T) left right out (Ψ : unit → nat → Prop) (E : nat → Prop) b :
    right + 1 ≤ b →
    (∀ x b', b + 14 * Nat.min left right ≤ b' + right → Ψ x b') →
    (∀ b', b ≤ b' + right + 1 → E b') →
    pay (merge_bwd fuel n buf left right out) Ψ E b.
  Proof.
    revert left right out b.
    induction fuel as [|f IH]; intros left right out b Hb HΨ HE; simpl; [pays_go|].
    destruct (Nat.ltb_spec 0 left), (Nat.ltb_spec 0 right); simpl;
      try (apply merge_hole_drop_pays; [lia|intros; pays_end..]).
    apply pays_bind, buf_get_pays. intros y. apply pays_bind, pays_uget; [lia|]. intros x. 
    apply pays_bind, pays_on_unwind, pays_is_less.
    2: { apply merge_hole_drop_pays; [lia|intros; pays_end..]. }
    intros r. apply pays_bind, pays_on_unwind, pays_usub.
    2: { destruct r; (apply merge_hole_drop_pays; [lia|intros; pays_end..]). }
    intros _. apply pays_bind, pays_nonoverlapping_if.
    apply pays_bind, pays_on_unwind, pays_put; [lia| |].
    2: { destruct r; (apply merge_hole_drop_pays; [lia|intros; pays_end..]). }
    destruct r; (apply IH; [lia| |intros; pays_end]); intros; apply HΨ; lia.
  Qed.
  Lemma merge_pays cap n mid (Ψ : unit → nat → Prop) (E : nat → Prop) b :
    n + 1 ≤ b → (∀ x b', b ≤ b' → Ψ x b') → (∀ b', b ≤ b' + n + 1 → E b') →
    pay (MMerge.merge (T:=T) cap n mid) Ψ E b.
  Proof.
    intros Hb HΨ HE. unfold MMerge.merge. pays_go.
    - apply copy_out_pays; [lia| |intros; pays_end]. intros buf b1 Hb1.
      apply merge_fwd_pays; [lia| |intros; pays_end]. intros. apply HΨ. lia.
    - apply copy_out_pays; [lia| |intros; pays_end]. intros buf b1 Hb1.
      apply merge_bwd_pays; [lia| |intros; pays_end]. intros. apply HΨ. lia.
  Qed.
  Lemma streak_loop_pays want fuel n e (Ψ : nat → nat → Prop) (E : nat → Prop) b :
    2 ≤ b → (∀ e' b', e ≤ e' → b + 14 * (e' - e) ≤ b' → Ψ e' b') → (∀ b', b ≤ b' + 2 → E b') →
    pay (streak_loop (T:=T) want fuel n e) Ψ E b.
  Proof.
    revert e b. induction fuel as [|f IH]; intros e b Hb HΨ HE; simpl; pays_go.
    apply IH; [lia| |intros; pays_end]. intros. apply HΨ; lia.
  Qed.
  Lemma find_streak_pays n (Ψ : nat * bool → nat → Prop) (E : nat → Prop) b :
    2 ≤ b → (∀ e (r : bool) b', b + (if r then 2 * e else 0) ≤ b' → Ψ (e, r) b') →
    (∀ b', b ≤ b' + 2 → E b') →
    pay (find_streak (T:=T) n) Ψ E b.
  Proof.
    intros Hb HΨ HE. unfold find_streak. pays_go.
    apply streak_loop_pays; [lia| |intros; pays_end]. intros e b1 He Hb1. apply pays_ret, HΨ.
    destruct r; lia.
  Qed.
  Lemma provide_sorted_batch_pays n start end_ (Ψ : nat → nat → Prop) (E : nat → Prop) b :
    2 ≤ b → (∀ x b', b ≤ b' → Ψ x b') → (∀ b', b ≤ b' + 2 → E b') →
    pay (provide_sorted_batch (T:=T) c n start end_) Ψ E b.
  Proof.
    intros Hb HΨ HE. unfold provide_sorted_batch. pays_go.
    apply shift_left_pays; [lia| |intros; pays_end]. intros. pays_go.
  Qed.
  Lemma collapse_loop_pays fuel cap n runs (Ψ : list run_t → nat → Prop) (E : nat → Prop) b :
    n + 1 ≤ b → (∀ x b', b ≤ b' → Ψ x b') → (∀ b', b ≤ b' + n + 1 → E b') →
    pay (collapse_loop (T:=T) fuel cap n runs) Ψ E b.
  Proof.
    revert runs b. induction fuel as [|f IH]; intros runs b Hb HΨ HE; simpl; [pays_go|].
    destruct (collapse runs n); [|pays_go].
    assert (∀ r (Ψ' : run_t → nat → Prop), (∀ x, Ψ' x b) → pay (run_get (T:=T) runs r) Ψ' E b) as Hget.
    { intros r Ψ' H. unfold run_get. destruct (runs !! r); [by apply pays_ret|apply pays_throw; pays_end]. }
    apply pays_bind, Hget. intros lft. apply pays_bind, Hget. intros rgt. pays_go.
    apply merge_pays; [lia| |intros; pays_end]. intros _ b1 Hb1. apply IH; [lia|intros; pays_end..].
  Qed.
  Lemma merge_sort_loop_pays fuel cap n start runs (Ψ : list run_t → nat → Prop) (E : nat → Prop) b :
    n + 2 ≤ b → (∀ x b', b ≤ b' → Ψ x b') → (∀ b', b ≤ b' + n + 2 → E b') →
    pay (merge_sort_loop (T:=T) c fuel cap n start start runs) Ψ E b.
  Proof.
    revert start runs b. induction fuel as [|f IH]; intros start runs b Hb HΨ HE; [simpl; pays_go|].
    cbn [merge_sort_loop]. pays_go.
    apply find_streak_pays; [lia| |intros; pays_end]. intros e r b1 Hb1. apply pays_bind.
    eapply (pays_mono _ _ (λ _ b', b ≤ b') _ E); [| |done].
    { destruct r; [|apply pays_ret; lia]. pays_go.
      apply reverse_pays; [lia|intros; lia|intros; pays_end]. }
    intros _ b2 Hb2. apply pays_bind, provide_sorted_batch_pays; [lia| |intros; pays_end].
    intros e2 b3 Hb3. pays_go.
    apply collapse_loop_pays; [lia| |intros; pays_end]. intros runs' b4 Hb4.
    apply IH; [lia|intros; pays_end..].
  Qed.
  Lemma stable_sort_pays n (Ψ : unit → nat → Prop) (E : nat → Prop) b :
    n + 2 ≤ b → (∀ x b', Ψ x b') → (∀ b', E b') →
    pay (stable_sort (T:=T) c n) Ψ E b.
  Proof.
    intros Hb HΨ HE. unfold stable_sort, merge_sort, MS_MAX_INSERTION. pays_go.
    { apply shift_left_pays; auto; lia. }
    apply merge_sort_loop_pays; [lia| |intros; pays_end]. intros. pays_go.
  Qed.
End merge.

(** The linear methods and the searches, with tight rates. *)
Section linear.
  Context {T : Type} (c : cfg).

  Lemma is_sorted_pays n (Ψ : bool → nat → Prop) (E : nat → Prop) b :
    2 ≤ b → (∀ x b', Ψ x b') → (∀ b', E b') →
    pays 2 (MSearch.is_sorted (T:=T) n) Ψ E b.
  Proof.
    intros Hb HΨ HE. unfold MSearch.is_sorted.
    assert (∀ cnt i b, 2 ≤ b → pays 2 (MSearch.is_sorted_loop (T:=T) n i cnt) Ψ E b) as H; [|auto].
    induction cnt as [|k IH]; intros i b0 Hb0; simpl; pays_go. apply IH; lia.
  Qed.
  Lemma is_sorted_pays_total n (Ψ : bool → nat → Prop) (E : nat → Prop) b :
    2 * (n - 1) ≤ b → (∀ x b', Ψ x b') → (∀ b', E b') →
    pays 0 (MSearch.is_sorted (T:=T) n) Ψ E b.
  Proof.
    intros Hb HΨ HE. unfold MSearch.is_sorted.
    assert (∀ cnt i b, 2 * cnt ≤ b → pays 0 (MSearch.is_sorted_loop (T:=T) n i cnt) Ψ E b) as H; [|auto].
    induction cnt as [|k IH]; intros i b0 Hb0; simpl; pays_go. apply IH; lia.
  Qed.
  Lemma contains_pays n (x : T) (Ψ : bool → nat → Prop) (E : nat → Prop) b :
    n ≤ b → (∀ x b', Ψ x b') → (∀ b', E b') →
    pays 0 (contains n x) Ψ E b.
  Proof.
    intros Hb HΨ HE. unfold contains.
    assert (∀ cnt i b, cnt ≤ b → pays 0 (contains_loop n x i cnt) Ψ E b) as H; [|auto].
    induction cnt as [|k IH]; intros i b0 Hb0; simpl; pays_go. apply IH; lia.
  Qed.
  Lemma binary_search_pays n (Ψ : search_result → nat → Prop) (E : nat → Prop) b :
    1 ≤ b → (∀ x b', Ψ x b') → (∀ b', E b') →
    pays 1 (binary_search_by (T:=T) c n) Ψ E b.
  Proof.
    intros Hb HΨ HE. unfold binary_search_by.
    assert (∀ fuel size l r b, 1 ≤ b → pays 1 (binary_search_loop (T:=T) c fuel n size l r) Ψ E b) as H; [|auto].
    clear b Hb. induction fuel as [|f IH]; intros size l r b Hb; cbn [binary_search_loop]; pays_go.
    apply pays_ask. intros [[]|]; pays_go; apply IH; lia.
  Qed.
  Lemma partition_dedup_by_pays n (Ψ : (nat * nat) * (nat * nat) → nat → Prop) (E : nat → Prop) b :
    8 * (n - 1) ≤ b → (∀ x b', Ψ x b') → (∀ b', E b') →
    pays 0 (partition_dedup_by (T:=T) n) Ψ E b.
  Proof.
    intros Hb HΨ HE. unfold partition_dedup_by, split_views. pays_go.
    assert (∀ cnt nr nw (Ψ' : nat → nat → Prop) b, 8 * cnt ≤ b → (∀ x b', Ψ' x b') →
      pays 0 (dedup_loop (T:=T) n cnt nr nw) Ψ' E b) as Hloop.
    { clear b Hb HΨ. induction cnt as [|k IH]; intros nr nw Ψ' b Hb HΨ; simpl; [pays_go|].
      apply pays_bind, pays_usub; [intros _|auto]. unfold same_bucket. apply pays_bind.
      destruct (nr =? _); [pays_go|]. pays_go. apply pays_ask. intros [[] x' y'|x' y']; pays_go.
      all: apply IH; [lia|auto]. }
    apply Hloop; [lia|]. intros k b'. pays_go.
  Qed.
  Context {K : Type}.
  Lemma collect_keys_pays w n i cnt (Ψ : list (K * nat) → nat → Prop) (E : nat → Prop) b :
    cnt ≤ b → (∀ v b', b ≤ b' + cnt → Ψ v b') → (∀ b', E b') →
    pays 0 (collect_keys (T:=T) (K:=K) c w n i cnt) Ψ E b.
  Proof.
    revert i Ψ b. induction cnt as [|k IH]; intros i Ψ b Hb HΨ HE; simpl; [pays_go|].
    apply pays_bind, pays_uget; [lia|]. intros x. apply pays_bind. apply pays_ask.
    intros []; pays_go. apply IH; [lia| |auto]. intros v b' Hb'. pays_go.
  Qed.
  Lemma permute_pays n (v : list (K * nat)) i cnt (Ψ : unit → nat → Prop) (E : nat → Prop) b :
    4 * cnt ≤ b → (∀ v b', Ψ v b') → (∀ b', E b') →
    pays 0 (permute (T:=T) n v i cnt) Ψ E b.
  Proof.
    assert (∀ (v : list (K * nat)) i (Ψ : nat → nat → Prop) b, (∀ x, Ψ x b) → (∀ b', E b') →
      pays 0 (vec_index (T:=T) v i) Ψ E b) as Hidx.
    { intros. unfold vec_index. destruct (_ !! _); pays_go; auto. }
    intros Hb HΨ HE. revert v i b Hb. induction cnt as [|k IH]; intros v i b Hb; simpl; [pays_go|].
    apply pays_bind, Hidx; [intros index|done].
    apply pays_bind.
    assert (∀ fuel x (Ψ : nat → nat → Prop), (∀ x, Ψ x b) → pays 0 (chase (T:=T) fuel v i x) Ψ E b) as Hc.
    { induction fuel as [|f IHf]; intros x Ψ' H; simpl; destruct (_ <? _); pays_go; auto. }
    apply Hc. intros x. apply pays_bind. destruct (v !! i); pays_go. apply IH. lia.
  Qed.
  Lemma sort_by_cached_key_pays sz n (Ψ : unit → nat → Prop) (E : nat → Prop) b :
    5 * n ≤ b → (∀ v b', Ψ v b') → (∀ b', E b') →
    pays 0 (sort_by_cached_key (T:=T) (K:=K) c sz n) Ψ E b.
  Proof.
    intros Hb HΨ HE. unfold sort_by_cached_key, sort_by_key_macro. pays_go.
    apply collect_keys_pays; [lia| |auto]. intros v b1 Hb1. apply pays_bind. apply pays_ask.
    intros []; pays_go. apply permute_pays; auto. lia.
  Qed.
  Lemma par_sort_by_cached_key_pays sz n (Ψ : unit → nat → Prop) (E : nat → Prop) b :
    5 * n ≤ b → (∀ v b', Ψ v b') → (∀ b', E b') →
    pays 0 (par_sort_by_cached_key (T:=T) (K:=K) c sz n) Ψ E b.
  Proof.
    intros Hb HΨ HE. unfold par_sort_by_cached_key, par_sort_by_key_macro. pays_go.
    assert (∀ w cnt todo acc p (Ψ' : list (K * nat) → nat → Prop) b, cnt ≤ b →
      (∀ v b', b ≤ b' + cnt → Ψ' v b') →
      pays 0 (par_collect_keys (T:=T) (K:=K) c w n todo acc p cnt) Ψ' E b) as Hc.
    { clear b Hb HΨ. intros w. induction cnt as [|k IH]; intros todo acc p Ψ' b Hb HΨ; simpl; [pays_go|].
      apply pays_ask. intros r. destruct (match r with Picked _ _ _ => _ | _ => _ end) as [[which place] stop].
      destruct (_ && _); [pays_go|]. destruct (_ !! _); [|pays_go]. pays_go.
      apply pays_ask. intros []; (apply IH; [lia|intros; apply HΨ; lia]). }
    apply Hc; [lia|]. intros v b1 Hb1. apply pays_bind. apply pays_ask.
    intros []; pays_go. apply permute_pays; auto. lia.
  Qed.
End linear.
