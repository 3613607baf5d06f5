(** * Polite: a panic of the user's closure ends the run at once.

    [polite bad p]: when the closure's answer is a panic ([bad q r]), [p] calls the
    closure no more and unwinds (cleanup code may still move elements); and [p]
    never raises [UserPanic] for another reason.  This is a property of the
    program text, proved for each function of the model. *)
From Verif Require Export Ghost MApi PQuick PSelect PIndices.
From stdpp Require Import list.

Local Transparent bind on_unwind relocate focus.
Local Arguments bind {T Q R A B} !p f.
Local Arguments on_unwind {T Q R A} c !p.
Local Arguments relocate {T Q R A} f !p.
Local Arguments with_asks {T Q R Q' R'} h {A} !p.

Section polite.
  Context {T Q R : Type} (bad : Q → R → Prop).
  Notation P A := (prog T Q R A).

  (** Only moves elements, and does not return. *)
  Fixpoint quiet {A} (p : P A) : Prop :=
    match p with
    | Ret _ => False
    | Throw _ => True
    | Read i k => ∀ x, quiet (k x)
    | Write i x k => quiet k
    | Ask q k => False
    | Par p1 p2 k => False
    | Undef | NoFuel => True
    end.
  (** Only moves elements. *)
  Fixpoint silent {A} (p : P A) : Prop :=
    match p with
    | Ret _ => True
    | Throw e => e ≠ UserPanic
    | Read i k => ∀ x, silent (k x)
    | Write i x k => silent k
    | Ask q k => False
    | Par p1 p2 k => False
    | Undef | NoFuel => True
    end.
  Fixpoint polite {A} (p : P A) : Prop :=
    match p with
    | Ret _ => True
    | Throw e => e ≠ UserPanic
    | Read i k => ∀ x, polite (k x)
    | Write i x k => polite k
    | Ask q k => ∀ r, (bad q r → quiet (k r)) ∧ (¬ bad q r → polite (k r))
    | Par p1 p2 k => False
    | Undef | NoFuel => True
    end.

  Lemma silent_polite {A} (p : P A) : silent p → polite p.
  Proof.
    induction p as [A a|A e|A i k IH|A i x k IH|A q k IH|A B C p1 IH1 p2 IH2 k IH| |];
      simpl; auto; done.
  Qed.
  Lemma quiet_bind {A B} (p : P A) (f : A → P B) : quiet p → quiet (bind p f).
  Proof.
    revert B f.
    induction p as [A a|A e|A i k IH|A i x k IH|A q k IH|A B' C p1 IH1 p2 IH2 k IH| |];
      intros B f; simpl; auto; done.
  Qed.
  Lemma silent_bind {A B} (p : P A) (f : A → P B) :
    silent p → (∀ a, silent (f a)) → silent (bind p f).
  Proof.
    revert B f.
    induction p as [A a|A e|A i k IH|A i x k IH|A q k IH|A B' C p1 IH1 p2 IH2 k IH| |];
      intros B f; simpl; auto; done.
  Qed.
  Lemma polite_bind {A B} (p : P A) (f : A → P B) :
    polite p → (∀ a, polite (f a)) → polite (bind p f).
  Proof.
    revert B f.
    induction p as [A a|A e|A i k IH|A i x k IH|A q k IH|A B' C p1 IH1 p2 IH2 k IH| |];
      intros B f; simpl; auto; try done.
    intros Hp Hf r. destruct (Hp r) as [H1 H2]. split; [|by auto].
    intros Hb. by apply quiet_bind, H1.
  Qed.
  Lemma silent_throw {A B} (c : P B) e : silent c → quiet (bind c (λ _, Throw (A:=A) e)).
  Proof.
    induction c as [U' a|U' e'|U' i k IH|U' i x k IH|U' q k IH|U' B' C p1 IH1 p2 IH2 k IH| |];
      simpl; auto; done.
  Qed.
  Lemma quiet_on_unwind {A} (c : P unit) (p : P A) :
    silent c → quiet p → quiet (on_unwind c p).
  Proof.
    intros Hc.
    induction p as [A a|A e|A i k IH|A i x k IH|A q k IH|A B' C p1 IH1 p2 IH2 k IH| |];
      simpl; auto; try done.
    intros _. by apply silent_throw.
  Qed.
  Lemma polite_on_unwind {A} (c : P unit) (p : P A) :
    silent c → polite p → polite (on_unwind c p).
  Proof.
    intros Hc.
    induction p as [A a|A e|A i k IH|A i x k IH|A q k IH|A B' C p1 IH1 p2 IH2 k IH| |];
      simpl; auto; try done.
    - intros He. apply polite_bind; [by apply silent_polite|]. done.
    - intros Hp r. destruct (Hp r) as [H1 H2]. split; [|by auto].
      intros Hb. by apply quiet_on_unwind, H1.
  Qed.
  Lemma quiet_relocate {A} f (p : P A) : quiet p → quiet (relocate f p).
  Proof.
    induction p as [A a|A e|A i k IH|A i x k IH|A q k IH|A B' C p1 IH1 p2 IH2 k IH| |];
      simpl; auto; done.
  Qed.
  Lemma silent_relocate {A} f (p : P A) : silent p → silent (relocate f p).
  Proof.
    induction p as [A a|A e|A i k IH|A i x k IH|A q k IH|A B' C p1 IH1 p2 IH2 k IH| |];
      simpl; auto; done.
  Qed.
  Lemma polite_relocate {A} f (p : P A) : polite p → polite (relocate f p).
  Proof.
    induction p as [A a|A e|A i k IH|A i x k IH|A q k IH|A B' C p1 IH1 p2 IH2 k IH| |];
      simpl; auto; try done.
    intros Hp r. destruct (Hp r) as [H1 H2]. split; [|by auto].
    intros Hb. by apply quiet_relocate, H1.
  Qed.

  Lemma run_quiet {S A} (o : S → Q → R * S) (p : P A) s l :
    quiet p → ∃ r l', run o p s l = (r, s, l') ∧ ∀ a, r ≠ Done a.
  Proof.
    revert l.
    induction p as [A a|A e|A i k IH|A i x k IH|A q k IH|A B' C p1 IH1 p2 IH2 k IH| |];
      intros l Hp; simpl in *; try done; eauto.
    - destruct (l !! i); [|by eauto]. by apply IH.
    - case_decide; [|by eauto]. by apply IH.
  Qed.

  (** Either no call panicked, and then no [UserPanic] leaves the program; or the
      last call, and only it, panicked. *)
  Lemma polite_run {S A} (o : S → Q → R * S) (p : P A) (dec : ∀ q r, Decision (bad q r)) s tr l r s' tr' l' :
    polite p → run (logged o) p (s, tr) l = (r, (s', tr'), l') →
    ∃ tr2, tr' = tr ++ tr2 ∧
      ((Forall (λ e, ¬ bad e.1 e.2) tr2 ∧ r ≠ Panicked UserPanic) ∨
       (∃ tr0 e, tr2 = tr0 ++ [e] ∧ bad e.1 e.2 ∧ Forall (λ e, ¬ bad e.1 e.2) tr0 ∧
                 ∀ a, r ≠ Done a)).
  Proof.
    revert s tr l.
    induction p as [A a|A e|A i k IH|A i x k IH|A q k IH|A B' C p1 IH1 p2 IH2 k IH| |];
      intros s tr l Hp Hr; simpl in *.
    - simplify_eq. exists []. rewrite app_nil_r. split; [done|left]. split; [constructor|done].
    - simplify_eq. exists []. rewrite app_nil_r. split; [done|left]. split; [constructor|].
      intros [= ->]. done.
    - destruct (l !! i) as [x|]; [by eapply IH|]. simplify_eq.
      exists []. rewrite app_nil_r. split; [done|left]. split; [constructor|done].
    - case_decide; [by eapply IH|]. simplify_eq.
      exists []. rewrite app_nil_r. split; [done|left]. split; [constructor|done].
    - destruct (o s q) as [a s1]. destruct (Hp a) as [H1 H2]. destruct (decide (bad q a)) as [Hb|Hb].
      + destruct (run_quiet (logged o) (k a) (s1, tr ++ [(q, a)]) l (H1 Hb)) as (r' & l1 & Hr' & Hd).
        rewrite Hr' in Hr. simplify_eq. exists [(q, a)]. split; [done|]. right.
        exists [], (q, a). split; [done|]. split; [done|]. split; [constructor|done].
      + eapply IH in Hr as (tr2 & -> & Hcase); [|by apply H2].
        exists ((q, a) :: tr2). rewrite <-app_assoc. split; [done|].
        destruct Hcase as [[Hf Hn]|(tr0 & e & -> & He & Hf & Hn)].
        * left. split; [|done]. by constructor.
        * right. exists ((q, a) :: tr0), e. split; [done|]. split; [done|]. split; [|done].
          by constructor.
    - done.
    - simplify_eq. exists []. rewrite app_nil_r. split; [done|left]. split; [constructor|done].
    - simplify_eq. exists []. rewrite app_nil_r. split; [done|left]. split; [constructor|done].
  Qed.
End polite.

(** ** Wrappers. *)
Section wrap.
  Context {T Q R Q' R' : Type} (bad : Q → R → Prop) (bad' : Q' → R' → Prop)
    (h : Q → prog T Q' R' R).

  Lemma quiet_with_asks {A} (p : prog T Q R A) : quiet p → quiet (with_asks h p).
  Proof.
    induction p as [A a|A e|A i k IH|A i x k IH|A q k IH|A B' C p1 IH1 p2 IH2 k IH| |];
      simpl; auto; done.
  Qed.
End wrap.

Definition none_bad {Q R} : Q → option R → Prop := λ _ r, r = None.
Global Instance none_bad_dec {Q R} (q : Q) (r : option R) : Decision (none_bad q r).
Proof. unfold none_bad. destruct r; [by right|by left]. Defined.

Lemma polite_by_compare {T A} (p : cmp_prog T A) :
  polite none_bad p → polite none_bad (by_compare p).
Proof.
  unfold by_compare.
  induction p as [A a|A e|A i k IH|A i x k IH|A q k IH|A B' C p1 IH1 p2 IH2 k IH| |];
    simpl; auto; try done.
  intros Hp r. unfold none_bad in *. split.
  - intros ->. apply quiet_with_asks. by apply Hp.
  - intros Hr. apply IH, Hp. by destruct r as [[]|].
Qed.

(** Key closures: an answer that is not of the kind asked for is a panic. *)
Definition key_bad {T K} : key_question (T:=T) K → key_answer K → Prop := λ q r,
  match q, r with
  | KeyOf _, AKey _ => False
  | KeyLt _ _, ABool _ => False
  | _, _ => True
  end.
Global Instance key_bad_dec {T K} (q : key_question (T:=T) K) r : Decision (key_bad q r).
Proof. unfold key_bad. destruct q, r; apply _. Defined.

Lemma polite_by_key {T K A} (p : cmp_prog T A) :
  polite none_bad p → polite (key_bad (K:=K)) (by_key p).
Proof.
  unfold by_key.
  induction p as [A a|A e|A i k IH|A i x k IH|A q k IH|A B' C p1 IH1 p2 IH2 k IH| |];
    simpl; auto; try done.
  intros Hp. destruct q as [a b]. simpl.
  assert (Hq : ∀ h : T * T → prog T (key_question (T:=T) K) (key_answer K) (option bool),
            quiet (with_asks h (k None))).
  { intros h. apply quiet_with_asks. by apply Hp. }
  intros [ka|v|]; (split; intros Hb); simpl in *; try (by apply Hq); try tauto.
  intros [kb|v|]; (split; intros Hb2); simpl in *; try (by apply Hq); try tauto.
  intros [kb'|v|]; (split; intros Hb3); simpl in *; try (by apply Hq); try tauto.
  apply IH. by apply Hp.
Qed.

(** ** The primitives and the functions of the model. *)
Section prims.
  Context {T Q R : Type} (bad : Q → R → Prop).
  Notation P A := (prog T Q R A).

  Lemma silent_uget n i : silent (uget (T:=T) (Q:=Q) (R:=R) n i).
  Proof. unfold uget. by destruct (i <? n). Qed.
  Lemma silent_get n i : silent (get (T:=T) (Q:=Q) (R:=R) n i).
  Proof. unfold get. by destruct (i <? n). Qed.
  Lemma silent_uput n i (x : T) : silent (uput (T:=T) (Q:=Q) (R:=R) n i x).
  Proof. unfold uput. by destruct (i <? n). Qed.
  Lemma silent_put n i (x : T) : silent (put (T:=T) (Q:=Q) (R:=R) n i x).
  Proof. unfold put. by destruct (i <? n). Qed.
  Lemma silent_uswap n i j : silent (uswap (T:=T) (Q:=Q) (R:=R) n i j).
  Proof.
    unfold uswap. repeat (apply silent_bind; [apply silent_uget || apply silent_uput|intros ?]).
    apply silent_uput.
  Qed.
  Lemma silent_swap n i j : silent (swap (T:=T) (Q:=Q) (R:=R) n i j).
  Proof. unfold swap. destruct (_ && _); [apply silent_uswap|done]. Qed.
  Lemma silent_usub a b : silent (usub (T:=T) (Q:=Q) (R:=R) a b).
  Proof. unfold usub. by destruct (b <=? a). Qed.
  Lemma silent_nonoverlapping i j : silent (nonoverlapping (T:=T) (Q:=Q) (R:=R) i j).
  Proof. unfold nonoverlapping. by destruct (i =? j). Qed.
  Lemma silent_dassert c b : silent (dassert (T:=T) (Q:=Q) (R:=R) c b).
  Proof. unfold dassert. by destruct (_ && _). Qed.
  Lemma silent_assert b : silent (assert (T:=T) (Q:=Q) (R:=R) b).
  Proof. unfold assert. by destruct b. Qed.
  Lemma silent_for_up a cnt (body : nat → P unit) :
    (∀ i, silent (body i)) → silent (for_up a cnt body).
  Proof.
    intros Hb. revert a. induction cnt as [|cnt IH]; intros a; simpl; [done|].
    by apply silent_bind.
  Qed.
  Lemma polite_for_up a cnt (body : nat → P unit) :
    (∀ i, polite bad (body i)) → polite bad (for_up a cnt body).
  Proof.
    intros Hb. revert a. induction cnt as [|cnt IH]; intros a; simpl; [done|].
    by apply polite_bind.
  Qed.
  Lemma polite_for_down a cnt (body : nat → P unit) :
    (∀ i, polite bad (body i)) → polite bad (for_down a cnt body).
  Proof.
    intros Hb. revert a. induction cnt as [|cnt IH]; intros a; simpl; [done|].
    by apply polite_bind.
  Qed.
  Lemma polite_slice {A} n a b (p : nat → P A) :
    (∀ m, polite bad (p m)) → polite bad (slice n a b p).
  Proof. intros Hp. unfold slice. destruct (_ && _); [by apply polite_relocate|done]. Qed.
  Lemma polite_ret {A} (a : A) : polite bad (Ret (T:=T) (Q:=Q) (R:=R) a).
  Proof. done. Qed.
  Lemma polite_throw {A} e : e ≠ UserPanic → polite bad (Throw (T:=T) (Q:=Q) (R:=R) (A:=A) e).
  Proof. done. Qed.
  Lemma silent_ret {A} (a : A) : silent (Ret (T:=T) (Q:=Q) (R:=R) a).
  Proof. done. Qed.
  Lemma silent_undef {A} : silent (Undef (T:=T) (Q:=Q) (R:=R) (A:=A)).
  Proof. done. Qed.
  Lemma silent_for_down a cnt (body : nat → P unit) :
    (∀ i, silent (body i)) → silent (for_down a cnt body).
  Proof.
    intros Hb. revert a. induction cnt as [|cnt IH]; intros a; simpl; [done|].
    by apply silent_bind.
  Qed.
  Lemma polite_undef {A} : polite bad (Undef (T:=T) (Q:=Q) (R:=R) (A:=A)).
  Proof. done. Qed.
  Lemma polite_nofuel {A} : polite bad (NoFuel (T:=T) (Q:=Q) (R:=R) (A:=A)).
  Proof. done. Qed.
End prims.

Lemma polite_is_less {T} (a b : T) : polite none_bad (is_less a b).
Proof.
  intros r. unfold none_bad. split.
  - by intros ->.
  - destruct r; by intros ?.
Qed.

Global Opaque quiet silent polite bind on_unwind relocate focus.

Create HintDb polite.
Global Hint Resolve silent_uget silent_get silent_uput silent_put silent_uswap silent_swap
  silent_usub silent_nonoverlapping silent_dassert silent_assert : polite.

Ltac polite_step :=
  match goal with
  | |- polite _ (bind _ _) => apply polite_bind; [|intros ?]
  | |- polite _ (on_unwind _ _) => apply polite_on_unwind
  | |- polite _ (Ret _) => apply polite_ret
  | |- polite _ (Throw _) => apply polite_throw; done
  | |- silent (Ret _) => apply silent_ret
  | |- silent Undef => apply silent_undef
  | |- polite _ Undef => apply polite_undef
  | |- polite _ NoFuel => apply polite_nofuel
  | |- polite _ (is_less _ _) => apply polite_is_less
  | |- polite _ (slice _ _ _ _) => apply polite_slice; intros ?
  | |- polite _ (for_up _ _ _) => apply polite_for_up; intros ?
  | |- polite _ (for_down _ _ _) => apply polite_for_down; intros ?
  | |- polite _ (match ?x with _ => _ end) => destruct x
  | |- polite _ (let '(_, _) := ?x in _) => destruct x
  | |- polite _ _ => solve [apply silent_polite; auto with polite]
  | |- polite _ _ => solve [auto with polite]
  | |- silent (bind _ _) => apply silent_bind; [|intros ?]
  | |- silent (for_up _ _ _) => apply silent_for_up; intros ?
  | |- silent (match ?x with _ => _ end) => destruct x
  | |- silent _ => solve [auto with polite | done]
  end.
Ltac polite := repeat polite_step.

Section functions.
  Context {T : Type} (c : cfg).
  Notation pol := (polite (T:=T) (Q:=T * T) (R:=option bool) none_bad).

  Lemma insert_tail_loop_polite n (tmp : T) h : pol (insert_tail_loop n tmp h).
  Proof. induction h; simpl; polite. Qed.
  Hint Resolve insert_tail_loop_polite : polite.
  Lemma insert_tail_polite n : pol (insert_tail c n).
  Proof. unfold insert_tail. polite. Qed.
  Hint Resolve insert_tail_polite : polite.
  Lemma insert_head_loop_polite n (tmp : T) i cnt : pol (insert_head_loop n tmp i cnt).
  Proof. revert i. induction cnt; intros i; simpl; polite. Qed.
  Hint Resolve insert_head_loop_polite : polite.
  Lemma insert_head_polite n : pol (insert_head c n).
  Proof. unfold insert_head. polite. Qed.
  Hint Resolve insert_head_polite : polite.
  Lemma insertion_sort_shift_left_polite n off : pol (insertion_sort_shift_left c n off).
  Proof. unfold insertion_sort_shift_left. polite. Qed.
  Hint Resolve insertion_sort_shift_left_polite : polite.
  Lemma insertion_sort_shift_right_polite n off : pol (insertion_sort_shift_right c n off).
  Proof. unfold insertion_sort_shift_right. polite. Qed.
  Hint Resolve insertion_sort_shift_right_polite : polite.
  Lemma find_unsorted_polite fuel n i : pol (find_unsorted fuel n i).
  Proof. revert i. induction fuel; intros i; simpl; polite. Qed.
  Hint Resolve find_unsorted_polite : polite.
  Lemma partial_insertion_steps_polite steps n i : pol (partial_insertion_steps c steps n i).
  Proof. revert i. induction steps; intros i; simpl; polite. Qed.
  Hint Resolve partial_insertion_steps_polite : polite.
  Lemma partial_insertion_sort_polite n : pol (partial_insertion_sort c n).
  Proof. unfold partial_insertion_sort. polite. Qed.
  Hint Resolve partial_insertion_sort_polite : polite.

  Lemma sift_down_polite fuel n node : pol (sift_down fuel n node).
  Proof. revert node. induction fuel; intros node; cbn [sift_down]; polite. Qed.
  Hint Resolve sift_down_polite : polite.
  Lemma heap_sort_polite n : pol (heap_sort n).
  Proof. unfold heap_sort. polite. Qed.
  Hint Resolve heap_sort_polite : polite.

  Lemma pe_scan_l_polite fuel n (pivot : T) l r : pol (pe_scan_l fuel n pivot l r).
  Proof. revert l. induction fuel; intros l; simpl; polite. Qed.
  Hint Resolve pe_scan_l_polite : polite.
  Lemma pe_scan_r_polite fuel n (pivot : T) l r : pol (pe_scan_r fuel n pivot l r).
  Proof. revert r. induction fuel; intros r; simpl; polite. Qed.
  Hint Resolve pe_scan_r_polite : polite.
  Lemma pe_loop_polite fuel n (pivot : T) l r : pol (pe_loop fuel n pivot l r).
  Proof. revert l r. induction fuel; intros l r; cbn [pe_loop]; polite. Qed.
  Hint Resolve pe_loop_polite : polite.
  Lemma partition_equal_polite n pivot : pol (partition_equal n pivot).
  Proof. unfold partition_equal. polite. Qed.
  Hint Resolve partition_equal_polite : polite.
  Lemma trace_l_polite n (pivot : T) elem i cnt acc : pol (trace_l n pivot elem i cnt acc).
  Proof. revert elem i acc. induction cnt; intros elem i acc; simpl; polite. Qed.
  Hint Resolve trace_l_polite : polite.
  Lemma trace_r_polite n (pivot : T) elem i cnt acc : pol (trace_r n pivot elem i cnt acc).
  Proof. revert elem i acc. induction cnt; intros elem i acc; simpl; polite. Qed.
  Hint Resolve trace_r_polite : polite.
  Lemma cycle_polite n l r cnt (tmp : T) ol ls orr rs : pol (cycle n l r cnt tmp ol ls orr rs).
  Proof. revert ol ls orr rs. induction cnt; intros ol ls orr rs; simpl; polite. Qed.
  Hint Resolve cycle_polite : polite.
  Lemma exchange_polite n l r offl offr : pol (exchange n l r offl offr).
  Proof. unfold exchange. polite. Qed.
  Hint Resolve exchange_polite : polite.
  Lemma finish_l_polite n l r offs : pol (finish_l n l r offs).
  Proof. revert r. induction offs; intros r; simpl; polite. Qed.
  Hint Resolve finish_l_polite : polite.
  Lemma finish_r_polite n l r offs : pol (finish_r n l r offs).
  Proof. revert l. induction offs; intros l; simpl; polite. Qed.
  Hint Resolve finish_r_polite : polite.
  Lemma width_polite l r : pol (width l r).
  Proof. unfold width. polite. Qed.
  Hint Resolve width_polite : polite.
  Lemma pib_loop_polite fuel n (pivot : T) l r bl br offl offr :
    pol (pib_loop c fuel n pivot l r bl br offl offr).
  Proof.
    revert l r bl br offl offr. induction fuel; intros l r bl br offl offr; cbn [pib_loop]; polite.
  Qed.
  Hint Resolve pib_loop_polite : polite.
  Lemma partition_in_blocks_polite n (pivot : T) : pol (partition_in_blocks c n pivot).
  Proof. unfold partition_in_blocks. polite. Qed.
  Hint Resolve partition_in_blocks_polite : polite.
  Lemma pt_scan_l_polite fuel n (pivot : T) l r : pol (pt_scan_l fuel n pivot l r).
  Proof. revert l. induction fuel; intros l; simpl; polite. Qed.
  Hint Resolve pt_scan_l_polite : polite.
  Lemma pt_scan_r_polite fuel n (pivot : T) l r : pol (pt_scan_r fuel n pivot l r).
  Proof. revert r. induction fuel; intros r; simpl; polite. Qed.
  Hint Resolve pt_scan_r_polite : polite.
  Lemma partition_polite n pivot : pol (MPartition.partition c n pivot).
  Proof. unfold MPartition.partition. polite. Qed.
  Hint Resolve partition_polite : polite.
  Lemma reverse_silent n : silent (MPartition.reverse (T:=T) (Q:=T * T) (R:=option bool) n).
  Proof. unfold MPartition.reverse. polite. Qed.
  Hint Resolve reverse_silent : polite.
  Lemma break_loop_silent n pos i cnt seed :
    silent (break_loop (T:=T) (Q:=T * T) (R:=option bool) c n pos i cnt seed).
  Proof. revert i seed. induction cnt; intros i seed; cbn [break_loop]; polite. Qed.
  Hint Resolve break_loop_silent : polite.
  Lemma break_patterns_silent n :
    silent (break_patterns (T:=T) (Q:=T * T) (R:=option bool) c n).
  Proof. unfold break_patterns. polite. Qed.
  Hint Resolve break_patterns_silent : polite.
  Lemma sort2_polite n a b s : pol (sort2 n a b s).
  Proof. unfold sort2. polite. Qed.
  Hint Resolve sort2_polite : polite.
  Lemma sort3_polite n a b d s : pol (sort3 n a b d s).
  Proof. unfold sort3. polite. Qed.
  Hint Resolve sort3_polite : polite.
  Lemma sort_adjacent_polite n a s : pol (sort_adjacent n a s).
  Proof. unfold sort_adjacent. polite. Qed.
  Hint Resolve sort_adjacent_polite : polite.
  Lemma choose_pivot_polite n : pol (choose_pivot n).
  Proof. unfold choose_pivot. polite. Qed.
  Hint Resolve choose_pivot_polite : polite.

  Lemma qs_recurse_polite depth fuel n pred limit wb wp :
    pol (qs_recurse c depth fuel n pred limit wb wp).
  Proof.
    revert fuel n pred limit wb wp. induction depth as [|depth IHd]; intros fuel n pred limit wb wp;
      [exact (polite_nofuel _)|].
    revert n pred limit wb wp. induction fuel as [|fuel IHf]; intros n pred limit wb wp;
      [exact (polite_nofuel _)|].
    rewrite qs_recurse_unfold. polite; first [apply IHf | apply IHd].
  Qed.
  Hint Resolve qs_recurse_polite : polite.
  Lemma quick_sort_polite n : pol (quick_sort c n).
  Proof. unfold quick_sort. polite. Qed.

  Lemma max_by_loop_polite n acc i cnt : pol (max_by_loop n acc i cnt).
  Proof. revert acc i. induction cnt; intros acc i; simpl; polite. Qed.
  Hint Resolve max_by_loop_polite : polite.
  Lemma min_by_loop_polite n acc i cnt : pol (min_by_loop n acc i cnt).
  Proof. revert acc i. induction cnt; intros acc i; simpl; polite. Qed.
  Hint Resolve min_by_loop_polite : polite.
  Lemma max_index_polite n : pol (max_index n).
  Proof. unfold max_index. polite. Qed.
  Hint Resolve max_index_polite : polite.
  Lemma min_index_polite n : pol (min_index n).
  Proof. unfold min_index. polite. Qed.
  Hint Resolve min_index_polite : polite.
  Lemma median_idx_polite n a b d : pol (median_idx n a b d).
  Proof. unfold median_idx. polite. Qed.
  Hint Resolve median_idx_polite : polite.
  Lemma less_at_polite n i j : pol (less_at n i j).
  Proof. unfold less_at. polite. Qed.
  Hint Resolve less_at_polite : polite.
  Lemma ninther_polite n a b d0 d e f g h i : pol (ninther n a b d0 d e f g h i).
  Proof. unfold ninther. polite. Qed.
  Hint Resolve ninther_polite : polite.
  Lemma ninthers_loop_polite n frac i cnt a b : pol (ninthers_loop n frac i cnt a b).
  Proof. revert i a b. induction cnt; intros i a b; cbn [ninthers_loop]; polite. Qed.
  Hint Resolve ninthers_loop_polite : polite.
  Lemma mom_loop_polite rec fuel n k :
    (∀ n k, pol (rec n k)) → pol (mom_loop c rec fuel n k).
  Proof.
    intros Hrec. revert n k. induction fuel as [|fuel IHf]; intros n k; [simpl; polite|].
    cbn [mom_loop]. fold (mom_loop c rec). polite.
    unfold median_of_ninthers. polite.
  Qed.
  Lemma median_of_medians_polite depth n k : pol (median_of_medians c depth n k).
  Proof.
    revert n k. induction depth as [|depth IHd]; intros n k; [simpl; polite|].
    rewrite median_of_medians_unfold. polite. by apply mom_loop_polite.
  Qed.
  Hint Resolve median_of_medians_polite : polite.
  Lemma pai_loop_polite fuel n index pred limit wb : pol (pai_loop c fuel n index pred limit wb).
  Proof.
    revert n index pred limit wb. induction fuel as [|fuel IHf]; intros n index pred limit wb;
      cbn [pai_loop]; polite.
  Qed.
  Hint Resolve pai_loop_polite : polite.
  Lemma split_at_polite v i : pol (split_at v i).
  Proof. unfold split_at. polite. Qed.
  Hint Resolve split_at_polite : polite.
  Lemma index0_polite v : pol (index0 v).
  Proof. unfold index0. polite. Qed.
  Hint Resolve index0_polite : polite.
  Lemma partition_at_index_polite n index : pol (partition_at_index c n index).
  Proof. unfold partition_at_index, partition_at_index_loop. polite. Qed.
  Hint Resolve partition_at_index_polite : polite.
  Lemma rel_index_polite n p o : pol (rel_index c n p o).
  Proof. unfold rel_index. polite. Qed.
  Hint Resolve rel_index_polite : polite.
  Lemma partition_at_indices_polite depth fuel n base offset inds :
    pol (partition_at_indices c depth fuel n base offset inds).
  Proof.
    revert fuel n base offset inds. induction depth as [|depth IHd];
      intros fuel n base offset inds; [exact (polite_nofuel _)|].
    revert n base offset inds. induction fuel as [|fuel IHf]; intros n base offset inds;
      [exact (polite_nofuel _)|].
    destruct inds as [|i0 inds]; [exact (polite_ret _ _)|].
    rewrite partition_at_indices_unfold. cbv zeta. polite; first [apply IHf | apply IHd].
  Qed.
  Hint Resolve partition_at_indices_polite : polite.
  Lemma select_many_polite n inds : pol (select_many c n inds).
  Proof. unfold select_many. polite. Qed.

  Lemma buf_get_silent buf i : silent (buf_get (T:=T) buf i).
  Proof. unfold buf_get. polite. Qed.
  Hint Resolve buf_get_silent : polite.
  Lemma copy_out_polite cap n base i cnt buf : pol (copy_out cap n base i cnt buf).
  Proof. revert i buf. induction cnt; intros i buf; simpl; polite. Qed.
  Hint Resolve copy_out_polite : polite.
  Lemma merge_hole_drop_silent n buf s e d : silent (merge_hole_drop (T:=T) n buf s e d).
  Proof. unfold merge_hole_drop. polite. Qed.
  Hint Resolve merge_hole_drop_silent : polite.
  Lemma merge_fwd_polite fuel n mid buf l r o : pol (merge_fwd fuel n mid buf l r o).
  Proof. revert l r o. induction fuel; intros l r o; simpl; polite. Qed.
  Hint Resolve merge_fwd_polite : polite.
  Lemma merge_bwd_polite fuel n buf l r o : pol (merge_bwd fuel n buf l r o).
  Proof. revert l r o. induction fuel; intros l r o; simpl; polite. Qed.
  Hint Resolve merge_bwd_polite : polite.
  Lemma merge_polite cap n mid : pol (MMerge.merge cap n mid).
  Proof. unfold MMerge.merge. polite. Qed.
  Hint Resolve merge_polite : polite.
  Lemma streak_loop_polite want fuel n e : pol (streak_loop want fuel n e).
  Proof. revert e. induction fuel; intros e; simpl; polite. Qed.
  Hint Resolve streak_loop_polite : polite.
  Lemma find_streak_polite n : pol (find_streak n).
  Proof. unfold find_streak. polite. Qed.
  Hint Resolve find_streak_polite : polite.
  Lemma provide_sorted_batch_polite n s e : pol (provide_sorted_batch c n s e).
  Proof. unfold provide_sorted_batch. polite. Qed.
  Hint Resolve provide_sorted_batch_polite : polite.
  Lemma run_get_polite runs r : pol (run_get runs r).
  Proof. unfold run_get. polite. Qed.
  Hint Resolve run_get_polite : polite.
  Lemma collapse_loop_polite fuel cap n runs : pol (collapse_loop fuel cap n runs).
  Proof. revert runs. induction fuel; intros runs; cbn [collapse_loop]; polite. Qed.
  Hint Resolve collapse_loop_polite : polite.
  Lemma merge_sort_loop_polite fuel cap n s e runs : pol (merge_sort_loop c fuel cap n s e runs).
  Proof. revert s e runs. induction fuel; intros s e runs; cbn [merge_sort_loop]; polite. Qed.
  Hint Resolve merge_sort_loop_polite : polite.
  Lemma stable_sort_polite n : pol (stable_sort c n).
  Proof. unfold stable_sort, merge_sort. polite. Qed.
End functions.
