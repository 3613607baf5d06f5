(** * TAccess: the accesses of the sequential functions are paid for by calls. *)
From Verif Require Export Access MApi MDedup MSearch MCached.
From stdpp Require Import list.

Local Open Scope prog_scope.

Notation pay p Ψ E b := (pays 16 p Ψ E b) (only parsing).

(** Symbolic execution; arithmetic is left to [lia]. *)
Ltac pays_step1 :=
  lazymatch goal with
  | |- pays _ (bind _ _) _ _ _ => apply pays_bind
  | |- pays _ (on_unwind _ _) _ _ _ => apply pays_on_unwind
  | |- pays _ (uget _ _) _ _ _ => apply pays_uget; [lia|intros ?]
  | |- pays _ (get _ _) _ _ _ => apply pays_get; [lia|intros ?|]
  | |- pays _ (uput _ _ _) _ _ _ => apply pays_uput; [lia|]
  | |- pays _ (put _ _ _) _ _ _ => apply pays_put; [lia| |]
  | |- pays _ (uswap _ _ _) _ _ _ => apply pays_uswap; [lia|]
  | |- pays _ (swap _ _ _) _ _ _ => apply pays_swap; [lia| |]
  | |- pays _ (is_less _ _) _ _ _ => apply pays_is_less; [intros ?|]
  | |- pays _ (usub _ _) _ _ _ => apply pays_usub; [intros ?|]
  | |- pays _ (width _ _) _ _ _ => apply pays_width; [intros ?|]
  | |- pays _ (nonoverlapping _ _) _ _ _ => apply pays_nonoverlapping
  | |- pays _ (dassert _ _) _ _ _ => apply pays_dassert
  | |- pays _ (assert _) _ _ _ => apply pays_assert; [intros ?|]
  | |- pays _ (slice _ _ _ _) _ _ _ => apply pays_slice; [intros ? ?|]
  | |- pays _ (Ret _) _ _ _ => apply pays_ret
  | |- pays _ (Throw _) _ _ _ => apply pays_throw
  | |- pays _ Undef _ _ _ => apply pays_undef
  | |- pays _ NoFuel _ _ _ => apply pays_nofuel
  | |- pays _ (if ?i <? ?j then _ else _) _ _ _ => destruct (Nat.ltb_spec i j)
  | |- pays _ (if ?i <=? ?j then _ else _) _ _ _ => destruct (Nat.leb_spec i j)
  | |- pays _ (if ?i =? ?j then _ else _) _ _ _ => destruct (Nat.eqb_spec i j)
  | |- pays _ (if ?t then _ else _) _ _ _ => destruct t eqn:?
  | |- pays _ (let '(_, _) := ?x in _) _ _ _ => destruct x eqn:?
  end; cbn beta.
Ltac pays_end :=
  lazymatch goal with
  | |- pays _ _ _ _ _ => fail
  | |- ?Ψ _ _ => match goal with H : ∀ _ _, _ |- _ => apply H; lia end
  | |- ?E _ => match goal with H : ∀ _, _ |- _ => apply H; lia end
  end.
Ltac pays_go := repeat first [pays_end|pays_step1].

Section insertion.
  Context {T : Type} (c : cfg).
  Notation P A := (cmp_prog T A).

  Lemma insert_tail_loop_pays n (tmp : T) h (Ψ : unit → nat → Prop) (E : nat → Prop) b :
    1 ≤ b → (∀ a b', b ≤ b' + 1 → Ψ a b') → (∀ b', b ≤ b' + 1 → E b') →
    pay (insert_tail_loop n tmp h) Ψ E b.
  Proof.
    revert b. induction h as [|j IH]; intros b Hb HΨ HE; simpl; pays_go.
    apply IH; [lia|intros; pays_end..].
  Qed.
  Lemma insert_tail_pays n (Ψ : unit → nat → Prop) (E : nat → Prop) b :
    2 ≤ b → (∀ a b', b ≤ b' → Ψ a b') → (∀ b', b ≤ b' + 2 → E b') →
    pay (insert_tail (T:=T) c n) Ψ E b.
  Proof.
    intros Hb HΨ HE. unfold insert_tail. pays_go.
    apply insert_tail_loop_pays; [lia|intros; pays_end..].
  Qed.
  Lemma insert_head_loop_pays n (tmp : T) i cnt (Ψ : unit → nat → Prop) (E : nat → Prop) b :
    1 ≤ b → (∀ a b', b ≤ b' + 1 → Ψ a b') → (∀ b', b ≤ b' + 1 → E b') →
    pay (insert_head_loop n tmp i cnt) Ψ E b.
  Proof.
    revert i b. induction cnt as [|j IH]; intros i b Hb HΨ HE; simpl; pays_go.
    apply IH; [lia|intros; pays_end..].
  Qed.
  Lemma insert_head_pays n (Ψ : unit → nat → Prop) (E : nat → Prop) b :
    2 ≤ b → (∀ a b', b ≤ b' → Ψ a b') → (∀ b', b ≤ b' + 2 → E b') →
    pay (insert_head (T:=T) c n) Ψ E b.
  Proof.
    intros Hb HΨ HE. unfold insert_head. pays_go.
    apply insert_head_loop_pays; [lia|intros; pays_end..].
  Qed.
  Lemma shift_left_pays n off (Ψ : unit → nat → Prop) (E : nat → Prop) b :
    2 ≤ b → (∀ a b', b ≤ b' → Ψ a b') → (∀ b', b ≤ b' + 2 → E b') →
    pay (insertion_sort_shift_left (T:=T) c n off) Ψ E b.
  Proof.
    intros Hb HΨ HE. unfold insertion_sort_shift_left. pays_go.
    eapply pays_mono; [apply (pays_for_up _ _ _ _ (λ _ b', b ≤ b') E)|simpl; auto|auto]; [done|].
    intros i b0 _ Hb0. pays_go. apply insert_tail_pays; [lia|intros; lia|intros; pays_end].
  Qed.
  Lemma shift_right_pays n off (Ψ : unit → nat → Prop) (E : nat → Prop) b :
    2 ≤ b → (∀ a b', b ≤ b' → Ψ a b') → (∀ b', b ≤ b' + 2 → E b') →
    pay (insertion_sort_shift_right (T:=T) c n off) Ψ E b.
  Proof.
    intros Hb HΨ HE. unfold insertion_sort_shift_right. pays_go.
    eapply pays_mono; [apply (pays_for_down _ _ _ _ (λ _ b', b ≤ b') E)|simpl; auto|auto]; [done|].
    intros i b0 _ Hb0. pays_go. apply insert_head_pays; [lia|intros; lia|intros; pays_end].
  Qed.
  Lemma find_unsorted_pays fuel n i (Ψ : nat → nat → Prop) (E : nat → Prop) b :
    2 ≤ b →
    (∀ i' b', i ≤ i' → i' ≤ Nat.max i n → b + 14 * (i' - i) ≤ b' →
      (i' < n → b + 14 * (S i' - i) ≤ b') → Ψ i' b') →
    (∀ b', b ≤ b' + 2 → E b') →
    pay (find_unsorted (T:=T) fuel n i) Ψ E b.
  Proof.
    revert i b. induction fuel as [|f IH]; intros i b Hb HΨ HE; simpl; pays_go.
    apply IH; [lia| |intros; pays_end]. intros. apply HΨ; lia.
  Qed.
  Lemma partial_insertion_steps_pays steps n i (Ψ : bool → nat → Prop) (E : nat → Prop) b :
    2 ≤ b → i ≤ Nat.max 1 n →
    (∀ (r : bool) b', b + (if r then 14 * (n - i) else 0) ≤ b' → Ψ r b') →
    (∀ b', b ≤ b' + 2 → E b') →
    pay (partial_insertion_steps (T:=T) c steps n i) Ψ E b.
  Proof.
    revert i b. induction steps as [|st IH]; intros i b Hb Hi HΨ HE; cbn [partial_insertion_steps]; pays_go.
    apply find_unsorted_pays; [lia| |intros; pays_end].
    intros i' b' Hi1 Hi2 Hb1 Hb2. unfold SHORTEST_SHIFTING. pays_go.
    - apply shift_left_pays; [lia| |intros; pays_end]. intros _ b2 Hb3. pays_go.
      apply shift_right_pays; [lia| |intros; pays_end]. intros _ b4 Hb4.
      apply IH; [lia|lia| |intros; pays_end]. intros [] b5 Hb5; apply HΨ; lia.
    - apply IH; [lia|lia| |intros; pays_end]. intros [] b5 Hb5; apply HΨ; lia.
  Qed.
  Lemma partial_insertion_sort_pays n (Ψ : bool → nat → Prop) (E : nat → Prop) b :
    2 ≤ b →
    (∀ (r : bool) b', b + (if r then 14 * (n - 1) else 0) ≤ b' → Ψ r b') →
    (∀ b', b ≤ b' + 2 → E b') →
    pay (partial_insertion_sort (T:=T) c n) Ψ E b.
  Proof. intros. apply partial_insertion_steps_pays; auto. lia. Qed.
End insertion.

Section heap.
  Context {T : Type}.

  Lemma sift_down_pays fuel n node (Ψ : unit → nat → Prop) (E : nat → Prop) b :
    2 ≤ b → (∀ a b', b + (if 2 * node + 1 <? n then 10 else 0) ≤ b' → Ψ a b') →
    (∀ b', b ≤ b' + 2 → E b') →
    pay (sift_down (T:=T) fuel n node) Ψ E b.
  Proof.
    revert node b. induction fuel as [|f IH]; intros node b Hb HΨ HE; cbn [sift_down]; [pays_go|].
    destruct (Nat.leb_spec n (2 * node + 1)); destruct (Nat.ltb_spec (2 * node + 1) n); try lia.
    { pays_go. }
    pays_go.
    all: apply IH; [lia| |intros; pays_end]; intros a b';
      destruct (_ <? _); intros; pays_end.
  Qed.
  Lemma heap_sort_pays n (Ψ : unit → nat → Prop) (E : nat → Prop) b :
    6 ≤ b → (∀ a b', b ≤ b' + 4 → Ψ a b') → (∀ b', b ≤ b' + 6 → E b') →
    pay (heap_sort (T:=T) n) Ψ E b.
  Proof.
    intros Hb HΨ HE. unfold heap_sort. pays_go.
    eapply pays_mono; [apply (pays_for_down _ _ _ _ (λ _ b', b ≤ b') E)| |auto]; [done| |].
    { intros i b0 _ Hb0. apply sift_down_pays; [lia|intros; lia|intros; pays_end]. }
    cbn beta. intros _ b1 Hb1.
    eapply pays_mono; [apply (pays_for_down _ _ _ _ (λ k b', b ≤ b' + (if k =? 0 then 4 else 0)) E)| |auto].
    - lia.
    - intros i b0 Hi Hb0. simpl in Hb0. pays_go.
      apply sift_down_pays; [lia| |intros; pays_end]. intros _ b2 Hb2.
      destruct (Nat.eqb_spec i 0), (Nat.ltb_spec (2 * 0 + 1) (1 + i - 0)); lia.
    - simpl. intros a c Hc. apply HΨ. lia.
  Qed.
End heap.

Section partition.
  Context {T : Type} (c : cfg).

  Lemma pe_scan_l_pays fuel n (pivot : T) l r (Ψ : nat → nat → Prop) (E : nat → Prop) b :
    1 ≤ b → l ≤ r →
    (∀ l' b', l ≤ l' → l' ≤ r → b + 15 * (l' - l) ≤ b' → (l' < r → b + 15 * (S l' - l) ≤ b') → Ψ l' b') →
    (∀ b', b ≤ b' + 1 → E b') →
    pay (pe_scan_l fuel n pivot l r) Ψ E b.
  Proof.
    revert l b. induction fuel as [|f IH]; intros l b Hb Hl HΨ HE; simpl; pays_go.
    apply IH; [lia|lia| |intros; pays_end]. intros. apply HΨ; lia.
  Qed.
  Lemma pe_scan_r_pays fuel n (pivot : T) l r (Ψ : nat → nat → Prop) (E : nat → Prop) b :
    1 ≤ b → l ≤ r →
    (∀ r' b', r' < r → l ≤ r' ∨ S r' = r → b + 15 * (r - S r') ≤ b' → (l < r' → b + 15 * (r - r') ≤ b') → Ψ r' b') →
    (∀ b', b ≤ b' + 1 → E b') →
    pay (pe_scan_r fuel n pivot l r) Ψ E b.
  Proof.
    revert r b. induction fuel as [|f IH]; intros r b Hb Hl HΨ HE; simpl; pays_go.
    apply IH; [lia|lia| |intros; pays_end]. intros. apply HΨ; lia.
  Qed.
  Lemma pe_loop_pays fuel n (pivot : T) l r (Ψ : nat → nat → Prop) (E : nat → Prop) b :
    1 ≤ b → l ≤ r → (∀ l' b', b + 10 * (r - l) ≤ b' → Ψ l' b') → (∀ b', b ≤ b' + 1 → E b') →
    pay (pe_loop fuel n pivot l r) Ψ E b.
  Proof.
    revert l r b. induction fuel as [|f IH]; intros l r b Hb Hl HΨ HE; cbn [pe_loop]; pays_go.
    apply pe_scan_l_pays; [lia|lia| |intros; pays_end]. intros l' b1 Hl1 Hl2 Hb1 Hb1'. pays_go.
    apply pe_scan_r_pays; [lia|lia| |intros; pays_end]. intros r' b2 Hr1 Hr2 Hb2 Hb2'. pays_go.
    apply IH; [lia|lia| |intros; pays_end]. intros l3 b3 Hb3. apply HΨ. lia.
  Qed.
  Lemma partition_equal_pays n pivot (Ψ : nat → nat → Prop) (E : nat → Prop) b :
    7 ≤ b → (∀ r b', b + 10 * (n - 1) ≤ b' + 6 → Ψ r b') → (∀ b', b ≤ b' + 7 → E b') →
    pay (partition_equal (T:=T) n pivot) Ψ E b.
  Proof.
    intros Hb HΨ HE. unfold partition_equal. pays_go.
    apply pe_loop_pays; [lia|lia| |intros; pays_go].
    intros l' b' Hb'. pays_go.
  Qed.
End partition.

Section blocks.
  Context {T : Type} (c : cfg).

  Lemma trace_l_pays n (pivot : T) elem i cnt acc (Ψ : list nat → nat → Prop) (E : nat → Prop) b :
    1 ≤ b → (∀ acc' b', length acc' ≤ length acc + cnt → b + 15 * cnt ≤ b' → Ψ acc' b') →
    (∀ b', b ≤ b' + 1 → E b') →
    pay (trace_l n pivot elem i cnt acc) Ψ E b.
  Proof.
    revert elem i acc b. induction cnt as [|k IH]; intros elem i acc b Hb HΨ HE; simpl; pays_go.
    apply IH; [lia| |intros; pays_end]. intros acc' b' Ha Hb'. apply HΨ; [|lia].
    destruct r; rewrite ?app_length in Ha; simpl in Ha; lia.
  Qed.
  Lemma trace_r_pays n (pivot : T) elem i cnt acc (Ψ : list nat → nat → Prop) (E : nat → Prop) b :
    1 ≤ b → (∀ acc' b', length acc' ≤ length acc + cnt → b + 15 * cnt ≤ b' → Ψ acc' b') →
    (∀ b', b ≤ b' + 1 → E b') →
    pay (trace_r n pivot elem i cnt acc) Ψ E b.
  Proof.
    revert elem i acc b. induction cnt as [|k IH]; intros elem i acc b Hb HΨ HE; simpl; pays_go.
    apply IH; [lia| |intros; pays_end]. intros acc' b' Ha Hb'. apply HΨ; [|lia].
    destruct r; rewrite ?app_length in Ha; simpl in Ha; lia.
  Qed.
  Lemma cycle_pays n l r cnt (tmp : T) ol ls orr rs (Ψ : list nat * list nat → nat → Prop) (E : nat → Prop) b :
    4 * cnt + 1 ≤ b →
    (∀ ls' rs' b', length ls' + cnt = length ls → length rs' + cnt = length rs →
       b ≤ b' + 4 * cnt + 1 → Ψ (ls', rs') b') →
    (∀ b', b ≤ b' + 4 * cnt + 1 → E b') →
    pay (cycle n l r cnt tmp ol ls orr rs) Ψ E b.
  Proof.
    revert ol ls orr rs b. induction cnt as [|k IH]; intros ol ls orr rs b Hb HΨ HE; simpl.
    { pays_go. }
    destruct ls as [|ol' ls]; [pays_go|]. destruct rs as [|or' rs]; [pays_go|]. pays_go.
    apply IH; [lia| |intros; pays_end]. simpl in HΨ. intros. apply HΨ; lia.
  Qed.
  Lemma exchange_pays n l r offl offr (Ψ : list nat * list nat → nat → Prop) (E : nat → Prop) b :
    let k := Nat.min (length offl) (length offr) in
    4 * k ≤ b →
    (∀ ls' rs' b', length ls' + k = length offl → length rs' + k = length offr →
       b ≤ b' + 4 * k → Ψ (ls', rs') b') →
    (∀ b', b ≤ b' + 4 * k → E b') →
    pay (exchange (T:=T) n l r offl offr) Ψ E b.
  Proof.
    intros k Hb HΨ HE. unfold exchange. subst k.
    destruct offl as [|ol ls]; [simpl in *; apply pays_ret, HΨ; simpl; lia|].
    destruct offr as [|orr rs]; [simpl in *; apply pays_ret, HΨ; simpl; lia|].
    simpl length in *. rewrite <-Nat.succ_min_distr in *. pays_go.
    apply cycle_pays; [lia| |intros; pays_end]. intros. apply HΨ; lia.
  Qed.
  Lemma finish_l_pays n l r offs (Ψ : nat → nat → Prop) (E : nat → Prop) b :
    4 * length offs ≤ b → (∀ r' b', b ≤ b' + 4 * length offs → Ψ r' b') →
    (∀ b', b ≤ b' + 4 * length offs → E b') →
    pay (finish_l (T:=T) n l r offs) Ψ E b.
  Proof.
    revert r b. induction offs as [|o os IH]; intros r b Hb HΨ HE; simpl in *; pays_go.
    apply IH; [lia|intros; pays_end..].
  Qed.
  Lemma finish_r_pays n l r offs (Ψ : nat → nat → Prop) (E : nat → Prop) b :
    4 * length offs ≤ b → (∀ r' b', b ≤ b' + 4 * length offs → Ψ r' b') →
    (∀ b', b ≤ b' + 4 * length offs → E b') →
    pay (finish_r (T:=T) n l r offs) Ψ E b.
  Proof.
    revert l b. induction offs as [|o os IH]; intros l b Hb HΨ HE; simpl in *; pays_go.
    apply IH; [lia|intros; pays_end..].
  Qed.

  Definition fresh (offs : list nat) (k : nat) : nat := if length offs =? 0 then k else 0.
  Lemma trace_if_l_pays n (pivot : T) elem cnt offs (Ψ : list nat → nat → Prop) (E : nat → Prop) b :
    1 ≤ b →
    (∀ offs' b', length offs' ≤ length offs + fresh offs cnt → b + 15 * fresh offs cnt ≤ b' → Ψ offs' b') →
    (∀ b', b ≤ b' + 1 → E b') →
    pay (if length offs =? 0 then trace_l n pivot elem 0 cnt [] else Ret offs) Ψ E b.
  Proof.
    intros Hb HΨ HE. unfold fresh in HΨ. destruct (Nat.eqb_spec (length offs) 0); [|pays_go].
    apply trace_l_pays; [lia| |done]. simpl. intros. apply HΨ; lia.
  Qed.
  Lemma trace_if_r_pays n (pivot : T) elem cnt offs (Ψ : list nat → nat → Prop) (E : nat → Prop) b :
    1 ≤ b →
    (∀ offs' b', length offs' ≤ length offs + fresh offs cnt → b + 15 * fresh offs cnt ≤ b' → Ψ offs' b') →
    (∀ b', b ≤ b' + 1 → E b') →
    pay (if length offs =? 0 then trace_r n pivot elem 0 cnt [] else Ret offs) Ψ E b.
  Proof.
    intros Hb HΨ HE. unfold fresh in HΨ. destruct (Nat.eqb_spec (length offs) 0); [|pays_go].
    apply trace_r_pays; [lia| |done]. simpl. intros. apply HΨ; lia.
  Qed.

  (** The elements pending in a block. *)
  Definition pending (offs : list nat) : nat := if length offs =? 0 then 0 else BLOCK.
  Lemma pib_loop_pays fuel n (pivot : T) l r offl offr (Ψ : nat → nat → Prop) (E : nat → Prop) b :
    length offl = 0 ∨ length offr = 0 →
    4 * (length offl + length offr) + 1 ≤ b →
    (∀ k b', b + 10 * (r - l - pending offl - pending offr) ≤ b' + 4 * (length offl + length offr) →
       Ψ k b') →
    (∀ b', b ≤ b' + 4 * (length offl + length offr) + 1 → E b') →
    pay (pib_loop c fuel n pivot l r BLOCK BLOCK offl offr) Ψ E b.
  Proof.
    revert l r offl offr b.
    induction fuel as [|f IH]; intros l r offl offr b Hoff Hb HΨ HE; [simpl; pays_go|].
    cbn [pib_loop]. apply pays_bind, pays_width; [intros Hlr|pays_end].
    destruct (Nat.leb_spec (r - l) (2 * BLOCK)) as [Hdone|Hdone].
    - (* the last round *)
      apply pays_bind.
      eapply (pays_mono _ _ (λ x b', b' = b ∧
        r - l - pending offl - pending offr ≤ fresh offl x.1 + fresh offr x.2) _ E).
      { apply pays_bind.
        eapply (pays_mono _ _ (λ rem b', b' = b ∧
          rem = r - l - (if (0 <? length offl) || (0 <? length offr) then BLOCK else 0)) _ E).
        - destruct (_ || _); pays_go; [|split; [done|lia]]. done.
        - intros rem b' [-> ->].
          destruct (Nat.ltb_spec 0 (length offl)), (Nat.ltb_spec 0 (length offr)); simpl;
            pays_go; simpl; unfold pending, fresh;
            destruct (Nat.eqb_spec (length offl) 0), (Nat.eqb_spec (length offr) 0); try lia.
        - done. }
      2: { done. }
      intros [bl br] b0 [-> Hs]. simpl in Hs. apply pays_bind.
      apply trace_if_l_pays; [lia| |intros; pays_end]. intros offl' b1 Hl1 Hb1.
      apply pays_bind, trace_if_r_pays; [lia| |intros; pays_end]. intros offr' b2 Hl2 Hb2.
      apply pays_bind, exchange_pays; [lia| |intros; pays_end].
      intros offl2 offr2 b3 Hl3 Hr3 Hb3. cbn beta iota. apply pays_bind.
      eapply (pays_mono _ _ (λ _ b', b' = b3) _ E).
      { destruct (length offr2 =? 0); pays_go; [done|]. done. }
      2: { done. }
      intros r' b4 ->. pays_go.
      + apply finish_l_pays; rewrite ?rev_length; [lia| |intros; pays_end].
        intros r2 b5 Hb5. pays_go.
      + apply finish_r_pays; rewrite ?rev_length; [lia| |intros; pays_end].
        intros r2 b5 Hb5. pays_go.
    - apply pays_bind, pays_ret, pays_bind.
      apply trace_if_l_pays; [lia| |intros; pays_end]. intros offl' b1 Hl1 Hb1.
      apply pays_bind, trace_if_r_pays; [lia| |intros; pays_end]. intros offr' b2 Hl2 Hb2.
      apply pays_bind, exchange_pays; [lia| |intros; pays_end].
      intros offl2 offr2 b3 Hl3 Hr3 Hb3. cbn beta iota. apply pays_bind.
      eapply (pays_mono _ _ (λ r' b', b' = b3 ∧ r' = if length offr2 =? 0 then r - BLOCK else r) _ E).
      { destruct (length offr2 =? 0); pays_go; [done|]. done. }
      2: { done. }
      intros r' b4 [-> ->].
      assert (2 * BLOCK = 256 ∧ BLOCK = 128) as [HB1 HB2] by done.
      apply IH; [lia|lia| |intros; pays_end].
      intros k b' Hb'. apply HΨ. unfold pending, fresh in *.
      destruct (Nat.eqb_spec (length offl) 0), (Nat.eqb_spec (length offr) 0),
        (Nat.eqb_spec (length offl2) 0), (Nat.eqb_spec (length offr2) 0); try lia.
  Qed.
  Lemma partition_in_blocks_pays n (pivot : T) (Ψ : nat → nat → Prop) (E : nat → Prop) b :
    1 ≤ b → (∀ k b', b + 10 * n ≤ b' → Ψ k b') → (∀ b', b ≤ b' + 1 → E b') →
    pay (partition_in_blocks c n pivot) Ψ E b.
  Proof.
    intros Hb HΨ HE. unfold partition_in_blocks. pays_go.
    apply pib_loop_pays; simpl; [lia|lia| |intros; pays_end].
    intros k b'. unfold pending. simpl. intros. apply HΨ. lia.
  Qed.
  Lemma pt_scan_l_pays fuel n (pivot : T) l r (Ψ : nat → nat → Prop) (E : nat → Prop) b :
    1 ≤ b → l ≤ r → (∀ l' b', l ≤ l' → l' ≤ r → b + 15 * (l' - l) ≤ b' → Ψ l' b') →
    (∀ b', b ≤ b' + 1 → E b') →
    pay (pt_scan_l fuel n pivot l r) Ψ E b.
  Proof.
    revert l b. induction fuel as [|f IH]; intros l b Hb Hl HΨ HE; simpl; pays_go.
    apply IH; [lia|lia| |intros; pays_end]. intros. apply HΨ; lia.
  Qed.
  Lemma pt_scan_r_pays fuel n (pivot : T) l r (Ψ : nat → nat → Prop) (E : nat → Prop) b :
    1 ≤ b → l ≤ r → (∀ r' b', l ≤ r' → r' ≤ r → b + 15 * (r - r') ≤ b' → Ψ r' b') →
    (∀ b', b ≤ b' + 1 → E b') →
    pay (pt_scan_r fuel n pivot l r) Ψ E b.
  Proof.
    revert r b. induction fuel as [|f IH]; intros r b Hb Hl HΨ HE; simpl; pays_go.
    apply IH; [lia|lia| |intros; pays_end]. intros. apply HΨ; lia.
  Qed.
  Lemma partition_pays n pivot (Ψ : nat * bool → nat → Prop) (E : nat → Prop) b :
    10 ≤ b → (∀ x b', b + 10 * (n - 1) ≤ b' + 10 → Ψ x b') → (∀ b', b ≤ b' + 10 → E b') →
    pay (MPartition.partition (T:=T) c n pivot) Ψ E b.
  Proof.
    intros Hb HΨ HE. unfold MPartition.partition. pays_go.
    apply pt_scan_l_pays; [lia|lia| |intros; pays_go]. intros l' b1 Hl1 Hl2 Hb1. pays_go.
    apply pt_scan_r_pays; [lia|lia| |intros; pays_go]. intros r' b2 Hr1 Hr2 Hb2. pays_go.
    apply partition_in_blocks_pays; [lia| |intros; pays_go]. intros k b3 Hb3. pays_go.
  Qed.
End blocks.

Section pivot.
  Context {T : Type} (c : cfg).

  Lemma reverse_pays {Q R} K n (Ψ : unit → nat → Prop) (E : nat → Prop) b :
    2 * n ≤ b → (∀ a b', b ≤ b' + 2 * n → Ψ a b') → (∀ b', b ≤ b' + 2 * n → E b') →
    pays K (MPartition.reverse n : prog T Q R unit) Ψ E b.
  Proof.
    intros Hb HΨ HE. unfold MPartition.reverse.
    pose proof (Nat.mul_div_le n 2 ltac:(done)) as Hd.
    eapply pays_mono; [apply (pays_for_up _ _ _ _ (λ i b', b ≤ b' + 4 * i) E)| |auto]; [lia| |].
    - intros i b0 Hi Hb0. pays_go. lia.
    - simpl. intros a b' Hb'. apply HΨ. lia.
  Qed.
  Lemma break_loop_pays {Q R} K n pos i cnt seed (Ψ : unit → nat → Prop) (E : nat → Prop) b :
    4 * cnt ≤ b → (∀ a b', b ≤ b' + 4 * cnt → Ψ a b') → (∀ b', b ≤ b' + 4 * cnt → E b') →
    pays K (break_loop c n pos i cnt seed : prog T Q R unit) Ψ E b.
  Proof.
    revert i seed b. induction cnt as [|k IH]; intros i seed b Hb HΨ HE; cbn [break_loop]; [pays_go|].
    apply pays_bind.
    destruct (n <=? _); pays_go; (apply IH; [lia|intros; pays_end..]).
  Qed.
  Lemma break_patterns_pays {Q R} K n (Ψ : unit → nat → Prop) (E : nat → Prop) b :
    12 ≤ b → (∀ a b', b ≤ b' + 12 → Ψ a b') → (∀ b', b ≤ b' + 12 → E b') →
    pays K (break_patterns c n : prog T Q R unit) Ψ E b.
  Proof.
    intros Hb HΨ HE. unfold break_patterns. pays_go.
    apply break_loop_pays; [lia|intros; pays_end..].
  Qed.
  Lemma sort2_pays n i j k (Ψ : nat * nat * nat → nat → Prop) (E : nat → Prop) b :
    2 ≤ b → (∀ x b', b ≤ b' → Ψ x b') → (∀ b', b ≤ b' + 2 → E b') →
    pay (sort2 (T:=T) n i j k) Ψ E b.
  Proof. intros Hb HΨ HE. unfold sort2. pays_go. Qed.
  Lemma sort3_pays n i j d k (Ψ : nat * nat * nat * nat → nat → Prop) (E : nat → Prop) b :
    2 ≤ b → (∀ x b', b ≤ b' → Ψ x b') → (∀ b', b ≤ b' + 2 → E b') →
    pay (sort3 (T:=T) n i j d k) Ψ E b.
  Proof.
    intros Hb HΨ HE. unfold sort3.
    apply pays_bind, sort2_pays; [lia| |intros; pays_end]. intros [[? ?] ?] b1 Hb1.
    apply pays_bind, sort2_pays; [lia| |intros; pays_end]. intros [[? ?] ?] b2 Hb2.
    apply pays_bind, sort2_pays; [lia| |intros; pays_end]. intros [[? ?] ?] b3 Hb3. pays_go.
  Qed.
  Lemma sort_adjacent_pays n i k (Ψ : nat * nat → nat → Prop) (E : nat → Prop) b :
    2 ≤ b → (∀ x b', b ≤ b' → Ψ x b') → (∀ b', b ≤ b' + 2 → E b') →
    pay (sort_adjacent (T:=T) n i k) Ψ E b.
  Proof.
    intros Hb HΨ HE. unfold sort_adjacent. pays_go.
    apply sort3_pays; [lia| |intros; pays_end]. intros [[[? ?] ?] ?] b1 Hb1. pays_go.
  Qed.
  Lemma choose_pivot_pays n (Ψ : nat * bool → nat → Prop) (E : nat → Prop) b :
    2 * n + 2 ≤ b → (∀ x b', b ≤ b' + 2 * n → Ψ x b') → (∀ b', b ≤ b' + 2 * n + 2 → E b') →
    pay (choose_pivot (T:=T) n) Ψ E b.
  Proof.
    intros Hb HΨ HE. unfold choose_pivot. apply pays_bind.
    eapply (pays_mono _ _ (λ _ b', b ≤ b') _ E); [| |done].
    - destruct (8 <=? n); [|by apply pays_ret]. apply pays_bind.
      eapply (pays_mono _ _ (λ _ b', b ≤ b') _ E); [| |done].
      + destruct (_ <=? n); [|by apply pays_ret].
        apply pays_bind, sort_adjacent_pays; [lia| |intros; pays_end]. intros [? ?] b1 Hb1.
        apply pays_bind, sort_adjacent_pays; [lia| |intros; pays_end]. intros [? ?] b2 Hb2.
        apply pays_bind, sort_adjacent_pays; [lia| |intros; pays_end]. intros [? ?] b3 Hb3.
        apply pays_ret. lia.
      + intros [[[? ?] ?] ?] b1 Hb1. apply pays_bind, sort3_pays; [lia| |intros; pays_end].
        intros [[[? ?] ?] ?] b2 Hb2. apply pays_ret. lia.
    - intros [? ?] b1 Hb1. pays_go. apply reverse_pays; [lia| |intros; pays_end].
      intros _ b2 Hb2. pays_go.
  Qed.
End pivot.

Section quick.
  Context {T : Type} (c : cfg).

  (** The common part of the two quicksorts and of the selection. *)
  Lemma limit_pays {Q R} K n (wb : bool) limit (Ψ : nat → nat → Prop) (E : nat → Prop) b :
    12 ≤ b → (∀ x b', b ≤ b' + 12 → Ψ x b') → (∀ b', b ≤ b' + 12 → E b') →
    pays K (if wb then Ret limit else break_patterns c n ;; usub limit 1 : prog T Q R nat) Ψ E b.
  Proof.
    intros Hb HΨ HE. destruct wb; pays_go.
    apply break_patterns_pays; [lia| |intros; pays_end]. intros _ b1 Hb1. pays_go.
  Qed.
  Lemma pred_pays n (pred : option T) pivot (Ψ : bool → nat → Prop) (E : nat → Prop) b :
    1 ≤ b → (∀ x b', b ≤ b' → Ψ x b') → (∀ b', b ≤ b' + 1 → E b') →
    pay (match pred with
         | Some p => x ← get n pivot; r ← is_less p x; Ret (negb r)
         | None => Ret false
         end) Ψ E b.
  Proof. intros Hb HΨ HE. destruct pred; pays_go. Qed.

  Lemma qs_recurse_pays depth fuel n pred limit wb wp (Ψ : unit → nat → Prop) (E : nat → Prop) b :
    2 * n + 30 ≤ b → (∀ a b', b ≤ b' + 4 → Ψ a b') → (∀ b', b ≤ b' + 2 * n + 30 → E b') →
    pay (qs_recurse (T:=T) c depth fuel n pred limit wb wp) Ψ E b.
  Proof.
    revert fuel n pred limit wb wp Ψ E b.
    induction depth as [|d IHd]; intros fuel; [intros; simpl; pays_go|].
    induction fuel as [|f IHf]; intros n pred limit wb wp Ψ E b Hb HΨ HE; [simpl; pays_go|].
    simpl. unfold QS_MAX_INSERTION. destruct (Nat.leb_spec n 20).
    { pays_go. apply shift_left_pays; [lia|intros; pays_end..]. }
    destruct (limit =? 0).
    { apply heap_sort_pays; [lia|intros; pays_end..]. }
    apply pays_bind, limit_pays; [lia| |intros; pays_end]. intros limit' b1 Hb1.
    apply pays_bind, choose_pivot_pays; [lia| |intros; pays_end]. intros [pivot likely] b2 Hb2.
    apply pays_bind.
    eapply (pays_mono _ _ (λ (x : bool) b', b2 + (if x then 14 * (n - 1) else 0) ≤ b') _ E).
    { destruct (_ && _); [|apply pays_ret; lia].
      apply partial_insertion_sort_pays; [lia|auto|intros; pays_end]. }
    2: { done. }
    intros done b3 Hb3. destruct done.
    { apply pays_ret, HΨ. lia. }
    apply pays_bind, pred_pays; [lia| |intros; pays_end]. intros eq b4 Hb4.
    destruct eq.
    { apply pays_bind, partition_equal_pays; [lia| |intros; pays_end]. intros mid b5 Hb5. pays_go.
      apply IHf; [lia|intros; pays_end..]. }
    apply pays_bind, partition_pays; [lia| |intros; pays_end]. intros [mid was_p] b5 Hb5. pays_go.
    - apply IHd; [lia| |intros; pays_end]. intros _ b6 Hb6. pays_go. apply IHf; [lia|intros; pays_end..].
    - apply IHd; [lia| |intros; pays_end]. intros _ b6 Hb6. pays_go. apply IHf; [lia|intros; pays_end..].
  Qed.
  Lemma quick_sort_pays n (Ψ : unit → nat → Prop) (E : nat → Prop) b :
    2 * n + 30 ≤ b → (∀ a b', Ψ a b') → (∀ b', E b') →
    pay (quick_sort (T:=T) c n) Ψ E b.
  Proof.
    intros Hb HΨ HE. unfold quick_sort. pays_go. apply qs_recurse_pays; auto.
  Qed.
End quick.
