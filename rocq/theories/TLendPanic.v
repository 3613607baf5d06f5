(** * TLendPanic: a panic of the comparator or of the collection is the last call and leaves. *)
From Verif Require Export TLend TPanic.
From stdpp Require Import list.

Local Transparent quiet polite bind relocate focus with_asks.
Local Arguments with_asks {T Q R Q' R'} h {A} !p.

(** The caller, with a log of the calls and answers. *)
Definition lend_logged {T S} (o : S → lend_question T → option bool * S * (nat → T → T)) :
    S * list (lend_question T * option bool) → lend_question T →
    option bool * (S * list (lend_question T * option bool)) * (nat → T → T) :=
  λ '(s, tr) q, let '(r, s', u) := o s q in (r, (s', tr ++ [(q, r)]), u).

Lemma polite_lend_less {T A} (p : cmp_prog T A) :
  polite none_bad p → polite none_bad (lend_less p).
Proof.
  unfold lend_less.
  induction p as [A a|A e|A i k IH|A i x k IH|A q k IH|A B' C p1 IH1 p2 IH2 k IH| |];
    simpl; auto; try done.
  intros Hp r. unfold none_bad in *. split.
  - intros ->. apply quiet_with_asks. by apply Hp.
  - intros Hr. by apply IH, Hp.
Qed.
Lemma polite_extend {T} i p : polite none_bad (extend (T:=T) i p).
Proof.
  intros r. unfold none_bad. split.
  - by intros ->.
  - by destruct r.
Qed.

Section lend.
  Context {T S : Type} (o : S → lend_question T → option bool * S * (nat → T → T)).
  Notation P A := (prog T (lend_question T) (option bool) A).

  Lemma lend_run_quiet {A} (p : P A) s out l :
    quiet p → ∃ r l', lend_run (lend_logged o) p s out l = (r, s, out, l') ∧ ∀ a, r ≠ Done a.
  Proof.
    revert l.
    induction p as [A a|A e|A i k IH|A i x k IH|A q k IH|A B' C p1 IH1 p2 IH2 k IH| |];
      intros l Hp; simpl in *; try done; eauto.
    - case_bool_decide; [by eauto|]. destruct (l !! i); [|by eauto]. by apply IH.
    - case_bool_decide; [by eauto|]. case_decide; [|by eauto]. by apply IH.
  Qed.

  Lemma polite_lend_run {A} (p : P A) s tr out l r s' tr' out' l' :
    polite none_bad p → lend_run (lend_logged o) p (s, tr) out l = (r, (s', tr'), out', l') →
    ∃ tr2, tr' = tr ++ tr2 ∧
      (calm tr2 ∧ r ≠ Panicked UserPanic ∨ ends_in_panic tr2 ∧ ∀ a, r ≠ Done a).
  Proof.
    assert (Hcons : ∀ A (q : lend_question T) b (tr tr2 tr' : list (lend_question T * option bool)) (r : outcome A),
      tr' = (tr ++ [(q, Some b)]) ++ tr2 →
      (calm tr2 ∧ r ≠ Panicked UserPanic ∨ ends_in_panic tr2 ∧ ∀ a, r ≠ Done a) →
      ∃ tr2, tr' = tr ++ tr2 ∧
        (calm tr2 ∧ r ≠ Panicked UserPanic ∨ ends_in_panic tr2 ∧ ∀ a, r ≠ Done a)).
    { clear. intros A q b tr tr2 tr' r -> H. exists ((q, Some b) :: tr2).
      rewrite <-app_assoc. split; [done|].
      destruct H as [[H ?]|[(tr0 & q' & -> & H) ?]]; [left|right]; (split; [|done]).
      - by constructor.
      - exists ((q, Some b) :: tr0), q'. split; [done|]. by constructor. }
    assert (Hnil : ∀ A (tr : list (lend_question T * option bool)) (r : outcome A), r ≠ Panicked UserPanic →
      ∃ tr2, tr = tr ++ tr2 ∧
        (calm tr2 ∧ r ≠ Panicked UserPanic ∨ ends_in_panic tr2 ∧ ∀ a, r ≠ Done a)).
    { clear. intros A tr r Hr. exists []. rewrite app_nil_r. split; [done|]. left. split; [constructor|done]. }
    revert s tr out l.
    induction p as [A a|A e|A i k IH|A i x k IH|A q k IH|A B' C p1 IH1 p2 IH2 k IH| |];
      intros s tr out l Hp Hr; simpl in *.
    - simplify_eq. by apply Hnil.
    - simplify_eq. apply Hnil. by intros [= ->].
    - case_bool_decide; [simplify_eq; by apply Hnil|].
      destruct (l !! i) as [x|]; [by eapply IH|]. simplify_eq. by apply Hnil.
    - case_bool_decide; [simplify_eq; by apply Hnil|].
      case_decide; [by eapply IH|]. simplify_eq. by apply Hnil.
    - assert (Hgo : ∀ out l,
        (let '(r, s, u) := lend_logged o (s, tr) q in lend_run (lend_logged o) (k r) s out (tamper u out l))
        = (r, (s', tr'), out', l') →
        ∃ tr2, tr' = tr ++ tr2 ∧
          (calm tr2 ∧ r ≠ Panicked UserPanic ∨ ends_in_panic tr2 ∧ ∀ a, r ≠ Done a)).
      { clear Hr out l. intros out l Hr. simpl in Hr. destruct (o s q) as [[a s1] u].
        destruct (Hp a) as [H1 H2]. destruct a as [b|].
        - eapply IH in Hr as (tr2 & -> & Hcase); [|by apply H2]. by eapply Hcons.
        - destruct (lend_run_quiet (k None) (s1, tr ++ [(q, None)]) out (tamper u out l) (H1 eq_refl))
            as (r' & l1 & Hr' & Hd).
          rewrite Hr' in Hr. simplify_eq. exists [(q, None)]. split; [done|]. right.
          split; [|done]. exists [], q. split; [done|constructor]. }
      destruct q as [q|j pos]; [by eapply Hgo|].
      case_bool_decide; [simplify_eq; by apply Hnil|].
      destruct (l !! pos) as [x|]; [by eapply Hgo|]. simplify_eq. by apply Hnil.
    - done.
    - simplify_eq. by apply Hnil.
    - simplify_eq. by apply Hnil.
  Qed.
End lend.

Lemma lend_at_indices_polite {T} (c : cfg) d fuel n base offset inds :
  polite none_bad (lend_at_indices (T:=T) c d fuel n base offset inds).
Proof.
  revert fuel n base offset inds.
  induction d as [|d IHd]; [done|]. intros fuel.
  induction fuel as [|f IHf]; intros n base offset inds; [by destruct inds|].
  destruct inds as [|i0 inds]; [done|].
  rewrite lend_at_indices_unfold. cbv zeta. destruct (drop _ _) as [|pivot rinds]; [done|].
  apply polite_bind; [apply polite_lend_less; unfold rel_index; by repeat case_match|intros i].
  apply polite_bind; [apply polite_lend_less, partition_at_index_polite|intros [[lv value] rv]].
  apply polite_bind; [apply polite_slice; intros m; apply IHd|intros _].
  apply polite_bind; [apply polite_extend|intros _].
  apply polite_slice. intros m. apply IHf.
Qed.

Lemma select_many_lend_panics {T S} (c : cfg)
    (o : S → lend_question T → option bool * S * (nat → T → T)) s inds (l : list T) :
  dbg c = false → fits c (length l) → valid_indices 0 (length l) inds →
  ∃ r s' tr out l',
    lend_run (lend_logged o) (select_many_lend c (length l) inds) (s, []) [] l = (r, (s', tr), out, l') ∧
    (r = Done tt ∧ calm tr ∨ r = Panicked UserPanic ∧ ends_in_panic tr).
Proof.
  intros Hd Hf Hv.
  destruct (select_many_lend_all c (lend_logged o) (s, []) inds l Hf)
    as (r & [s' tr] & out & l' & Hr & _ & _ & Hcase).
  exists r, s', tr, out, l'. split; [done|].
  destruct (polite_lend_run o _ s [] [] l _ _ _ _ _ (lend_at_indices_polite _ _ _ _ _ _ _) Hr)
    as (tr2 & -> & Hlog). simpl.
  destruct Hcase as [->|[->|[[_ ?]|[_ ?]]]]; [| |congruence|done];
    destruct Hlog as [[? Hn]|[? Hn]]; auto; by edestruct Hn.
Qed.
