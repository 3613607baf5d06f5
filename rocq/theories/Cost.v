(** * Cost: counting the calls of the user's closure.

    [costs p Φ B k]: started when [k] calls have been made, [p] never makes the
    total exceed [B], whatever the array holds and whatever the closure answers,
    and if it returns [a] with a total of [k'] calls, then [Φ a k'].  Paths that
    panic, or that [wp] excludes ([Undef], [NoFuel]), need no further argument. *)
From Verif Require Export Polite.
From stdpp Require Import list.

Local Transparent bind on_unwind relocate focus silent wp wpg.
Local Arguments bind {T Q R A B} !p f.
Local Arguments on_unwind {T Q R A} c !p.
Local Arguments relocate {T Q R A} f !p.
Local Arguments silent {T Q R A} !p.
Local Arguments wp {T Q R A} ans !p Φ E l.
Local Arguments wpg {T Q R G A} ans !p Φ E g l.

Section costs.
  Context {T Q R : Type}.
  Notation P A := (prog T Q R A).

  Fixpoint costs {A} (p : P A) (Φ : A → nat → Prop) (B : nat) (k : nat) : Prop :=
    match p with
    | Ret a => Φ a k
    | Throw _ => True
    | Read i f => ∀ x, costs (f x) Φ B k
    | Write i x f => costs f Φ B k
    | Ask q f => k < B ∧ ∀ r, costs (f r) Φ B (S k)
    | Par p1 p2 f => False
    | Undef | NoFuel => True
    end.

  Lemma costs_mono {A} (p : P A) (Φ Φ' : A → nat → Prop) B k :
    costs p Φ B k → (∀ a k', k ≤ k' → Φ a k' → Φ' a k') → costs p Φ' B k.
  Proof.
    revert k.
    induction p as [A a|A e|A i f IH|A i x f IH|A q f IH|A B' C p1 IH1 p2 IH2 f IH| |];
      intros k Hp HΦ; simpl in *; auto.
    - intros x. eapply IH; eauto.
    - eapply IH; eauto.
    - destruct Hp as [? Hp]. split; [done|]. intros r. eapply IH; [apply Hp|].
      intros a k' Hk. apply HΦ. lia.
  Qed.
  Lemma costs_bind {A A'} (p : P A) (f : A → P A') Φ B k :
    costs p (λ a k', costs (f a) Φ B k') B k → costs (bind p f) Φ B k.
  Proof.
    revert A' f Φ k.
    induction p as [A a|A e|A i g IH|A i x g IH|A q g IH|A B' C p1 IH1 p2 IH2 g IH| |];
      intros A' f Φ k Hp; simpl in *; auto.
    destruct Hp as [? Hp]. auto.
  Qed.
  Lemma costs_silent {A} (p : P A) B k : silent p → costs p (λ _ k', k' = k) B k.
  Proof.
    induction p as [A a|A e|A i g IH|A i x g IH|A q g IH|A B' C p1 IH1 p2 IH2 g IH| |];
      simpl; auto; done.
  Qed.
  Lemma costs_on_unwind {A} c (p : P A) Φ B k :
    silent c → costs p Φ B k → costs (on_unwind c p) Φ B k.
  Proof.
    intros Hc. revert k.
    induction p as [A a|A e|A i g IH|A i x g IH|A q g IH|A B' C p1 IH1 p2 IH2 g IH| |];
      intros k Hp; simpl in *; auto.
    - apply costs_bind. eapply costs_mono; [by apply costs_silent|]. done.
    - destruct Hp as [? Hp]. auto.
  Qed.
  Lemma costs_relocate {A} g (p : P A) Φ B k : costs p Φ B k → costs (relocate g p) Φ B k.
  Proof.
    revert k.
    induction p as [A a|A e|A i f IH|A i x f IH|A q f IH|A B' C p1 IH1 p2 IH2 f IH| |];
      intros k Hp; simpl in *; auto.
    destruct Hp as [? Hp]. auto.
  Qed.

  (** Primitives. *)
  Lemma costs_ret {A} (a : A) (Φ : A → nat → Prop) B k : Φ a k → costs (Ret a : P A) Φ B k.
  Proof. done. Qed.
  Lemma costs_throw {A} e (Φ : A → nat → Prop) B k : costs (Throw e : P A) Φ B k.
  Proof. done. Qed.
  Lemma costs_undef {A} (Φ : A → nat → Prop) B k : costs (Undef : P A) Φ B k.
  Proof. done. Qed.
  Lemma costs_nofuel {A} (Φ : A → nat → Prop) B k : costs (NoFuel : P A) Φ B k.
  Proof. done. Qed.
  Lemma costs_uget n i (Φ : T → nat → Prop) B k :
    (∀ x, i < n → Φ x k) → costs (uget n i : P T) Φ B k.
  Proof. intros H. unfold uget. destruct (Nat.ltb_spec i n); simpl; auto. Qed.
  Lemma costs_get n i (Φ : T → nat → Prop) B k :
    (∀ x, i < n → Φ x k) → costs (get n i : P T) Φ B k.
  Proof. intros H. unfold get. destruct (Nat.ltb_spec i n); simpl; auto. Qed.
  Lemma costs_uput n i x (Φ : unit → nat → Prop) B k :
    (i < n → Φ tt k) → costs (uput n i x : P unit) Φ B k.
  Proof. intros H. unfold uput. destruct (Nat.ltb_spec i n); simpl; auto. Qed.
  Lemma costs_put n i x (Φ : unit → nat → Prop) B k :
    (i < n → Φ tt k) → costs (put n i x : P unit) Φ B k.
  Proof. intros H. unfold put. destruct (Nat.ltb_spec i n); simpl; auto. Qed.
  Lemma costs_swap n i j (Φ : unit → nat → Prop) B k :
    Φ tt k → costs (swap n i j : P unit) Φ B k.
  Proof.
    intros H. eapply costs_mono; [apply costs_silent, silent_swap|]. by intros [] ? _ ->.
  Qed.
  Lemma costs_uswap n i j (Φ : unit → nat → Prop) B k :
    Φ tt k → costs (uswap n i j : P unit) Φ B k.
  Proof.
    intros H. eapply costs_mono; [apply costs_silent, silent_uswap|]. by intros [] ? _ ->.
  Qed.
  Lemma costs_usub a b (Φ : nat → nat → Prop) B k :
    (b ≤ a → Φ (a - b) k) → costs (usub a b : P nat) Φ B k.
  Proof. intros H. unfold usub. destruct (Nat.leb_spec b a); simpl; auto. Qed.
  Lemma costs_nonoverlapping i j (Φ : unit → nat → Prop) B k :
    (i ≠ j → Φ tt k) → costs (nonoverlapping i j : P unit) Φ B k.
  Proof. intros H. unfold nonoverlapping. destruct (Nat.eqb_spec i j); simpl; auto. Qed.
  Lemma costs_dassert c b (Φ : unit → nat → Prop) B k :
    Φ tt k → costs (dassert c b : P unit) Φ B k.
  Proof. intros H. unfold dassert. by destruct (_ && _). Qed.
  Lemma costs_assert b (Φ : unit → nat → Prop) B k :
    (b = true → Φ tt k) → costs (assert b : P unit) Φ B k.
  Proof. intros H. unfold assert. destruct b; simpl; auto. Qed.
  Lemma costs_slice {A} n a b (p : nat → P A) Φ B k :
    (a ≤ b → b ≤ n → costs (p (b - a)) Φ B k) → costs (slice n a b p) Φ B k.
  Proof.
    intros H. unfold slice.
    destruct (Nat.leb_spec a b), (Nat.leb_spec b n); simpl; try done.
    apply costs_relocate. auto.
  Qed.
  Lemma costs_for_up a cnt (body : nat → P unit) (I : nat → nat → Prop) B k :
    I a k →
    (∀ i k', a ≤ i < a + cnt → I i k' → costs (body i) (λ _ k'', I (S i) k'') B k') →
    costs (for_up a cnt body) (λ _ k', I (a + cnt) k') B k.
  Proof.
    revert a k. induction cnt as [|cnt IH]; intros a k Ha Hb; simpl.
    - by rewrite Nat.add_0_r.
    - apply costs_bind. eapply costs_mono; [apply Hb; [lia|done]|].
      intros [] k' _ Hi. simpl. replace (a + S cnt) with (S a + cnt) by lia.
      apply IH; [done|]. intros i k'' ?. apply Hb. lia.
  Qed.
  (** [I j] holds when [j] iterations are left. *)
  Lemma costs_for_down a cnt (body : nat → P unit) (I : nat → nat → Prop) B k :
    I cnt k →
    (∀ j k', j < cnt → I (S j) k' → costs (body (a + j)) (λ _ k'', I j k'') B k') →
    costs (for_down a cnt body) (λ _ k', I 0 k') B k.
  Proof.
    revert k. induction cnt as [|cnt IH]; intros k Ha Hb; simpl; [done|].
    apply costs_bind. eapply costs_mono; [apply Hb; [lia|done]|].
    intros [] k' _ Hi. apply IH; [done|]. intros j k'' ?. apply Hb. lia.
  Qed.

  (** The ghost transition that counts. *)
  Definition cnt_ans (ok : Q → R → Prop) (g : nat) (q : Q) (r : R) (g' : nat) : Prop :=
    ok q r ∧ g' = S g.

  (** Facts about control and number of calls, and facts about data. *)
  Lemma costs_wp {A} (ans : Q → R → Prop) (p : P A) Φ Φ' E' B k l :
    k ≤ B → wp ans p Φ' E' l → costs p Φ B k →
    wpg (cnt_ans ans) p (λ a g l', Φ a g ∧ Φ' a l') (λ e g l', g ≤ B ∧ E' e l') k l.
  Proof.
    revert Φ Φ' E' k l.
    induction p as [A a|A e|A i f IH|A i x f IH|A q f IH|A B' C p1 IH1 p2 IH2 f IH| |];
      intros Φ Φ' E' k l Hk Hwp Hc; simpl in *; try done.
    - destruct (l !! i) as [x|]; [|done]. by apply IH.
    - destruct Hwp. split; [done|]. by apply IH.
    - intros r g' [Hr ->]. destruct Hc as [? Hc]. apply IH; auto. 
  Qed.

  Lemma wpg_run_counted {S A} (ok : Q → R → Prop) (o : S → Q → R * S) (p : P A) Φ E s l :
    (∀ s q, ok q (o s q).1) →
    wpg (cnt_ans ok) p Φ E 0 l →
    match run (logged o) p (s, []) l with
    | (Done a, (_, tr), l') => Φ a (length tr) l'
    | (Panicked e, (_, tr), l') => E e (length tr) l'
    | (Undefined, _, _) | (Diverged, _, _) => False
    end.
  Proof.
    intros Ho Hwp.
    pose proof (wpg_run (λ (st : S * list (Q * R)) g, length st.2 = g) (cnt_ans ok) (logged o) p)
      as Hrun.
    specialize (Hrun ltac:(intros [s' tr] g q <-; simpl; specialize (Ho s' q);
      destruct (o s' q) as [r s'']; simpl in *; eexists; split;
        [split; [exact Ho|reflexivity]|rewrite app_length; simpl; lia])).
    specialize (Hrun Φ E (s, []) 0 l eq_refl Hwp).
    destruct (run (logged o) p (s, []) l) as [[[a|e| |] [s' tr]] l']; try done;
      by destruct Hrun as (g' & <- & ?).
  Qed.

  (** The number of calls alone. *)
  Lemma costs_run {S A} (ans : Q → R → Prop) (o : S → Q → R * S) (p : P A) (Φ : A → nat → Prop)
      Φ' E' B s l :
    (∀ s q, ans q (o s q).1) → wp ans p Φ' E' l →
    (∀ a k, Φ a k → k ≤ B) → costs p Φ B 0 →
    length (run (logged o) p (s, []) l).1.2.2 ≤ B.
  Proof.
    intros Ho Hwp HΦ Hc.
    pose proof (wpg_run_counted ans o p _ _ s l Ho
      (costs_wp ans p Φ Φ' E' B 0 l ltac:(lia) Hwp Hc)) as H.
    destruct (run (logged o) p (s, []) l) as [[[a|e| |] [s' tr]] l']; try done; simpl.
    - destruct H as [H _]. by eapply HΦ.
    - by destruct H.
  Qed.
End costs.

Lemma costs_is_less {T} (a b : T) (Φ : bool → nat → Prop) B k :
  k < B → (∀ r, Φ r (S k)) → costs (is_less a b) Φ B k.
Proof. intros Hk H. split; [done|]. intros [r|]; simpl; auto. Qed.

Global Opaque wp wpg bind on_unwind relocate focus silent costs.

Create HintDb costs.
Ltac cost_step :=
  match goal with
  | |- costs (bind _ _) _ _ _ => apply costs_bind
  | |- costs (on_unwind _ _) _ _ _ => apply costs_on_unwind; [solve [polite]|]
  | |- costs (Ret _) _ _ _ => apply costs_ret
  | |- costs (Throw _) _ _ _ => apply costs_throw
  | |- costs Undef _ _ _ => apply costs_undef
  | |- costs NoFuel _ _ _ => apply costs_nofuel
  | |- costs (uget _ _) _ _ _ => apply costs_uget; intros ? ?
  | |- costs (get _ _) _ _ _ => apply costs_get; intros ? ?
  | |- costs (uput _ _ _) _ _ _ => apply costs_uput; intros ?
  | |- costs (put _ _ _) _ _ _ => apply costs_put; intros ?
  | |- costs (swap _ _ _) _ _ _ => apply costs_swap
  | |- costs (uswap _ _ _) _ _ _ => apply costs_uswap
  | |- costs (usub _ _) _ _ _ => apply costs_usub; intros ?
  | |- costs (nonoverlapping _ _) _ _ _ => apply costs_nonoverlapping; intros ?
  | |- costs (dassert _ _) _ _ _ => apply costs_dassert
  | |- costs (assert _) _ _ _ => apply costs_assert; intros ?
  | |- costs (is_less _ _) _ _ _ => apply costs_is_less; [|intros ?]
  | |- costs (slice _ _ _ _) _ _ _ => apply costs_slice; intros ? ?
  | |- costs (if ?x <? ?y then _ else _) _ _ _ => destruct (Nat.ltb_spec x y)
  | |- costs (if ?x <=? ?y then _ else _) _ _ _ => destruct (Nat.leb_spec x y)
  | |- costs (if ?x =? ?y then _ else _) _ _ _ => destruct (Nat.eqb_spec x y)
  | |- costs (match ?x with _ => _ end) _ _ _ => destruct x eqn:?
  end.
Ltac cost_fin := intros; cbv beta in *; lia.
(** Replace the goal by the specification [H] of a called function. *)
Tactic Notation "cost_call" open_constr(H) := eapply costs_mono; [eapply H|].

Section leaves.
  Context {T : Type} (c : cfg).
  Implicit Types (B k n : nat).

  Lemma insert_tail_loop_cost n (tmp : T) h B k :
    k + h ≤ B → costs (insert_tail_loop n tmp h) (λ _ k', k' ≤ k + h) B k.
  Proof.
    revert k. induction h as [|h IH]; intros k Hk; simpl; repeat cost_step; try lia.
    cost_call (IH (S k)); [lia|]. cost_fin.
  Qed.
  Lemma insert_tail_cost n B k :
    k + (n - 1) ≤ B → costs (insert_tail (T:=T) c n) (λ _ k', k' ≤ k + (n - 1)) B k.
  Proof.
    intros Hk. unfold insert_tail. repeat cost_step; try lia.
    cost_call (insert_tail_loop_cost n x1 (n - 1 - 1)); [lia|]. cost_fin.
  Qed.

  Lemma insert_head_loop_cost n (tmp : T) i cnt B k :
    k + cnt ≤ B → costs (insert_head_loop n tmp i cnt) (λ _ k', k' ≤ k + cnt) B k.
  Proof.
    revert i k. induction cnt as [|cnt IH]; intros i k Hk; simpl; repeat cost_step; try lia.
    cost_call (IH (S i) (S k)); [lia|]. cost_fin.
  Qed.
  Lemma insert_head_cost n B k :
    k + (n - 1) ≤ B → costs (insert_head (T:=T) c n) (λ _ k', k' ≤ k + (n - 1)) B k.
  Proof.
    intros Hk. unfold insert_head. repeat cost_step; try lia.
    cost_call (insert_head_loop_cost n x1 2 (n - 2)); [lia|]. cost_fin.
  Qed.
  (** [cnt] insertions into at most [n] elements. *)
  Lemma insertion_sort_shift_left_cost n offset B k :
    k + (n - offset) * (n - 1) ≤ B →
    costs (insertion_sort_shift_left (T:=T) c n offset)
      (λ _ k', k' ≤ k + (n - offset) * (n - 1)) B k.
  Proof.
    intros Hk. unfold insertion_sort_shift_left. repeat cost_step.
    cost_call (costs_for_up offset (n - offset) _
      (λ i k', k' ≤ k + (i - offset) * (n - 1)) B k).
    - lia.
    - intros i k' Hi Hk'. repeat cost_step.
      assert ((i - offset) * (n - 1) + (n - 1) = (S i - offset) * (n - 1)).
      { replace (S i - offset) with (S (i - offset)) by lia. lia. }
      assert ((S i - offset) * (n - 1) ≤ (n - offset) * (n - 1))
        by (apply Nat.mul_le_mono_r; lia).
      cost_call (insert_tail_cost (S i - 0)); [lia|]. cost_fin.
    - intros [] k' _. replace (offset + (n - offset) - offset) with (n - offset) by lia. done.
  Qed.
  Lemma insertion_sort_shift_right_cost n offset B k :
    k + offset * (n - 1) ≤ B →
    costs (insertion_sort_shift_right (T:=T) c n offset)
      (λ _ k', k' ≤ k + offset * (n - 1)) B k.
  Proof.
    intros Hk. unfold insertion_sort_shift_right. repeat cost_step.
    cost_call (costs_for_down 0 offset _
      (λ j k', k' + j * (n - 1) ≤ k + offset * (n - 1)) B k).
    - lia.
    - intros j k' Hi Hk'. simpl in Hk'. repeat cost_step.
      set (p := j * (n - 1)) in *. set (q := offset * (n - 1)) in *.
      cost_call (insert_head_cost (n - (0 + j))); [lia|]. cost_fin.
    - cost_fin.
  Qed.
End leaves.
