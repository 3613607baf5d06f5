(** * TLendSame: MLend.v and MSelect.v describe the same code.

    With a collection that neither panics nor changes elements the program of MLend.v does
    what that of MSelect.v does, and it lends what the latter returns. *)
From Verif Require Export TLend.
From stdpp Require Import list.

Local Transparent bind relocate focus with_asks.
Local Arguments bind {T Q R A B} !p f.
Local Arguments relocate {T Q R A} f !p.
Local Arguments with_asks {T Q R Q' R'} h {A} !p.

(** The caller with this comparator and such a collection. *)
Definition patient {T S} (o : S → T * T → option bool * S) (s : S) (q : lend_question T) :
    option bool * S * (nat → T → T) :=
  match q with
  | IsLess q => let '(r, s) := o s q in (r, s, λ _ x, x)
  | Extend _ _ => (Some true, s, λ _ x, x)
  end.

(** [acc]: the loans so far. *)
Inductive follows {T A A'} (post : list (nat * nat) → A → A' → Prop) :
    list (nat * nat) → prog T (lend_question T) (option bool) A → cmp_prog T A' → Prop :=
| follows_ret acc a a' : post acc a a' → follows post acc (Ret a) (Ret a')
| follows_throw acc e : follows post acc (Throw e) (Throw e)
| follows_read acc i k k' : (∀ x, follows post acc (k x) (k' x)) → follows post acc (Read i k) (Read i k')
| follows_write acc i x k k' : follows post acc k k' → follows post acc (Write i x k) (Write i x k')
| follows_ask acc q k k' :
    (∀ r, follows post acc (k r) (k' r)) → follows post acc (Ask (IsLess q) k) (Ask q k')
| follows_extend acc j pos k p' : follows post (acc ++ [(j, pos)]) (k (Some true)) p' →
    follows post acc (Ask (Extend j pos) k) p'
| follows_undef acc : follows post acc Undef Undef
| follows_nofuel acc : follows post acc NoFuel NoFuel.

Lemma follows_bind {T A A' B B'} (post1 : list (nat * nat) → A → A' → Prop)
    (post : list (nat * nat) → B → B' → Prop) acc (p : prog T _ _ A) p' f f' :
  follows post1 acc p p' →
  (∀ acc a a', post1 acc a a' → follows post acc (f a) (f' a')) →
  follows post acc (bind p f) (bind p' f').
Proof. intros H Hf. induction H; simpl; auto; by constructor. Qed.
Lemma follows_then {T A B A'} (post1 : list (nat * nat) → A → B → Prop)
    (post : list (nat * nat) → A → A' → Prop) acc (p : prog T _ _ A) p' g :
  follows post1 acc p p' → (∀ acc a b, post1 acc a b → post acc a (g b)) →
  follows post acc p (bind p' (λ b, Ret (g b))).
Proof. intros H Hf. induction H; simpl; constructor; auto. Qed.
Lemma follows_slice {T A A'} (post : list (nat * nat) → A → A' → Prop) acc n a b
    (p : nat → prog T _ _ A) p' :
  (∀ m, follows post acc (p m) (p' m)) → follows post acc (slice n a b p) (slice n a b p').
Proof.
  intros H. unfold slice. destruct (_ && _); [|constructor]. unfold focus.
  specialize (H (b - a)). induction H; simpl; by constructor.
Qed.
Lemma follows_less {T A} (p : cmp_prog T A) acc : alone p →
  follows (λ acc' a a', acc' = acc ∧ a = a') acc (lend_less p) p.
Proof.
  unfold lend_less. intros Hp.
  induction p as [A a|A e|A i k IH|A i x k IH|A q k IH|A B C p1 IH1 p2 IH2 k IH| |];
    simpl in *; try done; constructor; auto.
Qed.

Lemma tamper_id {T} out (l : list T) : tamper (λ _ x, x) out l = l.
Proof.
  apply list_eq. intros i. unfold tamper. rewrite list_lookup_imap.
  destruct (l !! i); simpl; [|done]. by case_bool_decide.
Qed.

Lemma follows_run {T S A A'} (o : S → T * T → option bool * S)
    (post : list (nat * nat) → A → A' → Prop) acc p p' :
  follows post acc p p' → ∀ s out l, loans out = acc →
  match lend_run (patient o) p s out l, run o p' s l with
  | (Undefined, _, _, _), _ => True
  | (Done a, s1, out', l1), (Done a', s2, l2) => post (loans out') a a' ∧ s1 = s2 ∧ l1 = l2
  | (Panicked e, s1, _, l1), (Panicked e', s2, l2) => e = e' ∧ s1 = s2 ∧ l1 = l2
  | (Diverged, _, _, _), (Diverged, _, _) => True
  | _, _ => False
  end.
Proof.
  intros H. induction H as [acc a a' Hp|acc e|acc i k k' _ IH|acc i x k k' _ IH|acc q k k' _ IH|acc j pos k p' _ IH| |];
    intros s out l Hout; simpl.
  - by subst.
  - done.
  - case_bool_decide; [done|]. destruct (l !! i); [|done]. by apply IH.
  - case_bool_decide; [done|]. case_decide; [|done]. by apply IH.
  - destruct (o s q) as [r s1]. rewrite tamper_id. by apply IH.
  - case_bool_decide; [done|]. destruct (l !! pos) as [x|]; [|done]. rewrite tamper_id. apply IH.
    unfold loans. rewrite fmap_app. simpl. by rewrite <-Hout.
  - done.
  - done.
Qed.

Lemma lend_at_indices_follows {T} (c : cfg) d fuel n base offset inds acc :
  follows (λ acc' _ r, acc' = acc ++ r) acc (lend_at_indices (T:=T) c d fuel n base offset inds)
    (partition_at_indices c d fuel n base offset inds).
Proof.
  revert fuel n base offset inds acc.
  induction d as [|d IHd]; [constructor|]. intros fuel.
  induction fuel as [|f IHf]; intros n base offset inds acc; [constructor|].
  destruct inds as [|i0 inds]; [constructor; by rewrite app_nil_r|].
  rewrite lend_at_indices_unfold, partition_at_indices_unfold. cbv zeta.
  destruct (drop _ _) as [|pivot rinds]; [constructor|].
  eapply follows_bind; [apply follows_less, rel_index_alone|]. intros _ i _ [-> <-].
  eapply follows_bind; [apply follows_less, partition_at_index_alone|].
  intros _ [[lv value] rv] _ [-> <-].
  eapply follows_bind; [apply follows_slice; intros m; apply IHd|]. intros acc1 _ ls ->.
  simpl. constructor.
  eapply follows_then; [apply follows_slice; intros m; apply IHf|].
  intros acc2 _ rs ->. by rewrite <-!app_assoc.
Qed.

Lemma select_many_lend_same {T S} (c : cfg) (o : S → T * T → option bool * S) s inds (l : list T) :
  fits c (length l) →
  ∃ r s' out l', lend_run (patient o) (select_many_lend c (length l) inds) s [] l = (r, s', out, l') ∧
    (r = Done tt ∧ run o (select_many_nth_unstable c (length l) inds) s l = (Done (map fst out), s', l') ∨
     ∃ e, r = Panicked e ∧ run o (select_many_nth_unstable c (length l) inds) s l = (Panicked e, s', l')).
Proof.
  intros Hf.
  destruct (select_many_lend_all c (patient o) s inds l Hf)
    as (r & s' & out & l' & Hr & _ & _ & Hcase).
  exists r, s', out, l'. split; [done|].
  pose proof (follows_run o _ [] _ _ (lend_at_indices_follows c (Datatypes.S (bit_length (length inds)))
    (Datatypes.S (length inds)) (length l) 0 0 inds []) s [] l eq_refl) as H.
  fold (select_many_lend (T:=T) c (length l) inds) in H. rewrite Hr in H.
  unfold select_many_nth_unstable, select_many.
  destruct (run o _ s l) as [[r2 s2] l2].
  assert (Hu : r ≠ Undefined ∧ r ≠ Diverged).
  { destruct Hcase as [->|[->|[[-> _]|[[->|[-> _]] _]]]]; done. }
  destruct r as [[]|e| |], r2 as [r2|e2| |]; try done; try (by destruct Hu).
  - destruct H as (Hp & -> & ->). left. split; [done|]. simpl in Hp. by rewrite <-Hp.
  - destruct H as (-> & -> & ->). right. eauto.
Qed.
