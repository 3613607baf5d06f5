(** * TView: an operation on a view acts on the addressed elements exactly as on
    an array of its own, and leaves the rest of memory alone. *)
From Verif Require Export Views FootAll.
From stdpp Require Import list relations.

(** The view addresses pairwise different elements of memory. *)
Definition view_ok {T} (f : nat → nat) (n : nat) (mem : list T) : Prop :=
  (∀ i j, i < n → j < n → f i = f j → i = j) ∧ (∀ i, i < n → f i < length mem).

(** [m] lists the elements the view addresses, in view order. *)
Definition view_of {T} (f : nat → nat) (n : nat) (mem m : list T) : Prop :=
  length m = n ∧ ∀ i, i < n → mem !! f i = m !! i.

(** Nothing but the elements the view addresses has changed. *)
Definition only_view {T} (f : nat → nat) (n : nat) (mem mem' : list T) : Prop :=
  length mem' = length mem ∧ ∀ j, (∀ i, i < n → j ≠ f i) → mem' !! j = mem !! j.

Local Transparent bind on_unwind relocate focus wp fp.
Local Arguments bind {T Q R A B} !p f.
Local Arguments on_unwind {T Q R A} c !p.
Local Arguments relocate {T Q R A} f !p.
Local Arguments fp {T Q R A} F !p.
Local Arguments run {T Q R S A} o !p s l.

Lemma only_view_refl {T} f n (mem : list T) : only_view f n mem mem.
Proof. done. Qed.
Lemma only_view_trans {T} f n (m1 m2 m3 : list T) :
  only_view f n m1 m2 → only_view f n m2 m3 → only_view f n m1 m3.
Proof.
  intros [H1 H2] [H3 H4]. split; [congruence|]. intros j Hj. by rewrite H4, H2.
Qed.
Lemma view_ok_mono {T} f n (mem mem' : list T) :
  length mem' = length mem → view_ok f n mem → view_ok f n mem'.
Proof. intros Hl [H1 H2]. split; [done|]. by rewrite Hl. Qed.
Lemma view_of_insert {T} f n (mem m : list T) i x :
  view_ok f n mem → view_of f n mem m → i < n →
  view_of f n (<[f i:=x]> mem) (<[i:=x]> m) ∧ only_view f n mem (<[f i:=x]> mem).
Proof.
  intros [Hinj Hb] [Hl Hm] Hi. split; split.
  - by rewrite insert_length.
  - intros j Hj. destruct (decide (j = i)) as [->|Hne].
    + rewrite !list_lookup_insert; [done|lia|auto].
    + rewrite !list_lookup_insert_ne; [auto|done|]. intros Heq. apply Hne. symmetry. by apply Hinj.
  - by rewrite insert_length.
  - intros j Hj. rewrite list_lookup_insert_ne; [done|]. intros Heq. by apply (Hj i Hi).
Qed.

Section run.
  Context {T Q R S : Type} (o : S → Q → R * S).

  Lemma run_relocate {A} (f : nat → nat) (p : prog T Q R A) n mem m s :
    within n p → view_ok f n mem → view_of f n mem m →
    ∃ r s' m' mem', run o p s m = (r, s', m') ∧ run o (relocate f p) s mem = (r, s', mem') ∧
      view_of f n mem' m' ∧ only_view f n mem mem'.
  Proof.
    unfold within. intros Hp.
    assert (∃ F : nat → Prop, fp F p ∧ ∀ i, F i → i < n) as (F & Hp' & HF) by (by eexists).
    clear Hp. revert F mem m s Hp' HF.
    induction p as [A a|A e|A i k IH|A i x k IH|A q k IH|A B C p1 IH1 p2 IH2 k IH| |];
      intros F mem m s Hp HF Hok Hm; simpl in *; eauto 10 using only_view_refl.
    - destruct Hp as [Hi Hk]. apply HF in Hi as Hi'.
      rewrite (proj2 Hm i Hi').
      destruct (lookup_lt_is_Some_2 m i) as [x Hx]; [rewrite (proj1 Hm); done|].
      rewrite Hx. by eapply IH.
    - destruct Hp as [Hi Hk]. apply HF in Hi as Hi'.
      destruct (view_of_insert f n mem m i x Hok Hm Hi') as [Hm' Hov].
      rewrite decide_True by (rewrite (proj1 Hm); done).
      rewrite decide_True by (by apply Hok).
      destruct (IH F (<[f i:=x]> mem) (<[i:=x]> m) s Hk HF) as (r & s' & m' & mem' & H1 & H2 & H3 & H4);
        [by eapply view_ok_mono; [apply Hov|]|done|].
      exists r, s', m', mem'. eauto 10 using only_view_trans.
    - destruct (o s q) as [r s1]. by eapply IH.
    - destruct Hp as [(F1 & F2 & HF1 & HF2 & _ & Hp1 & Hp2) Hk].
      destruct (IH1 F1 mem m s Hp1 ltac:(auto) Hok Hm) as (r1 & s1 & m1 & mem1 & E1 & E1' & Hm1 & Ho1).
      rewrite E1, E1'.
      assert (Hok1 : view_ok f n mem1) by (by eapply view_ok_mono; [apply Ho1|]).
      destruct (IH2 F2 mem1 m1 s1 Hp2 ltac:(auto) Hok1 Hm1) as (r2 & s2 & m2 & mem2 & E2 & E2' & Hm2 & Ho2).
      assert (Hok2 : view_ok f n mem2) by (by eapply view_ok_mono; [apply Ho2|]).
      assert (Ho : only_view f n mem mem2) by (by eapply only_view_trans).
      assert (HK : ∀ b d, ∃ r s' m' mem', run o (k b d) s2 m2 = (r, s', m') ∧
        run o (relocate f (k b d)) s2 mem2 = (r, s', mem') ∧
        view_of f n mem' m' ∧ only_view f n mem mem').
      { intros b d. destruct (IH b d F mem2 m2 s2 (Hk b d) HF Hok2 Hm2)
          as (r & s' & m' & mem' & H1 & H2 & H3 & H4).
        exists r, s', m', mem'. eauto 10 using only_view_trans. }
      destruct r1; eauto 10; rewrite E2, E2'; destruct r2; eauto 10.
  Qed.
End run.

(** ** Parallel operations *)
Section schedules.
  Context {T Q R : Type} (ans : Q → R → Prop).
  Local Arguments step {T Q R} ans {A} !p act.

  Lemma result_relocate {A} f (p : prog T Q R A) : result (relocate f p) = result p.
  Proof. by destruct p. Qed.

  Definition move (f : nat → nat) (act : action T) : action T :=
    match act with Tau => Tau | Rd i x => Rd (f i) x | Wr i x => Wr (f i) x end.

  Lemma step_relocate {A} f (p : prog T Q R A) act p' :
    step ans p act p' → step ans (relocate f p) (move f act) (relocate f p').
  Proof.
    revert act p'.
    induction p as [A a|A e|A i k IH|A i x k IH|A q k IH|A B C p1 IH1 p2 IH2 k IH| |];
      intros act p' Hs; simpl in *; try done.
    - destruct Hs as (x & -> & ->). by exists x.
    - by destruct Hs as (-> & ->).
    - destruct Hs as (r & Hr & -> & ->). by exists r.
    - destruct Hs as [(p1' & Hs & ->)|[(p2' & Hs & ->)|(b & d & H1 & H2 & -> & ->)]].
      + left. exists (relocate f p1'). split; [by apply IH1|done].
      + right; left. exists (relocate f p2'). split; [by apply IH2|done].
      + right; right. exists b, d. by rewrite !result_relocate.
  Qed.
  Lemma step_relocate_inv {A} f (p : prog T Q R A) act q :
    step ans (relocate f p) act q → ∃ act' p', act = move f act' ∧ q = relocate f p' ∧ step ans p act' p'.
  Proof.
    revert act q.
    induction p as [A a|A e|A i k IH|A i x k IH|A q k IH|A B C p1 IH1 p2 IH2 k IH| |];
      intros act q0 Hs; simpl in *; try done.
    - destruct Hs as (x & -> & ->). exists (Rd i x), (k x). eauto 10.
    - destruct Hs as (-> & ->). by exists (Wr i x), k.
    - destruct Hs as (r & Hr & -> & ->). exists Tau, (k r). eauto 10.
    - destruct Hs as [(p1' & Hs & ->)|[(p2' & Hs & ->)|(b & d & H1 & H2 & -> & ->)]].
      + apply IH1 in Hs as (act' & p' & -> & -> & Hs). exists act', (Par p' p2 k). eauto 10.
      + apply IH2 in Hs as (act' & p' & -> & -> & Hs). exists act', (Par p1 p' k). eauto 10.
      + rewrite !result_relocate in *. exists Tau, (k b d). eauto 12.
  Qed.

  Lemma effect_move f n act (mem m m' : list T) :
    (∀ i, touches act i → i < n) → view_ok f n mem → view_of f n mem m →
    effect act m m' → ∃ mem', effect (move f act) mem mem' ∧ view_of f n mem' m' ∧ only_view f n mem mem'.
  Proof.
    intros Ht Hok Hm. destruct act as [|i x|i x]; simpl in *.
    - intros ->. exists mem. eauto using only_view_refl.
    - intros [Hx ->]. exists mem. rewrite (proj2 Hm) by auto. eauto using only_view_refl.
    - intros [Hi ->]. destruct (view_of_insert f n mem m i x Hok Hm) as [H1 H2]; [auto|].
      exists (<[f i:=x]> mem). split; [|done]. split; [|done]. apply Hok. auto.
  Qed.
  Lemma effect_move_inv f n act (mem m mem' : list T) :
    (∀ i, touches act i → i < n) → view_ok f n mem → view_of f n mem m →
    effect (move f act) mem mem' → ∃ m', effect act m m' ∧ view_of f n mem' m' ∧ only_view f n mem mem'.
  Proof.
    intros Ht Hok Hm. destruct act as [|i x|i x]; simpl in *.
    - intros ->. exists m. eauto using only_view_refl.
    - intros [Hx ->]. exists m. rewrite (proj2 Hm) in Hx by auto. eauto using only_view_refl.
    - intros [Hi ->]. destruct (view_of_insert f n mem m i x Hok Hm) as [H1 H2]; [auto|].
      exists (<[i:=x]> m). split; [|done]. split; [|done]. rewrite (proj1 Hm). auto.
  Qed.

  (** Every schedule on the view is a schedule on the array of its own ... *)
  Lemma schedule_on_view {A} f (p : prog T Q R A) n mem m q mem' :
    within n p → view_ok f n mem → view_of f n mem m →
    rtc (stepm ans) (relocate f p, mem) (q, mem') →
    ∃ p' m', q = relocate f p' ∧ within n p' ∧ rtc (stepm ans) (p, m) (p', m') ∧
      view_of f n mem' m' ∧ only_view f n mem mem'.
  Proof.
    intros Hp Hok Hm Hr.
    remember (relocate f p, mem) as c0 eqn:Hc0. remember (q, mem') as c1 eqn:Hc1.
    revert p mem m Hp Hok Hm Hc0 Hc1.
    induction Hr as [c0|c0 [q2 mem2] c1 (act & Hs & He) Hr IH]; intros p mem m Hp Hok Hm -> Hc.
    - injection Hc as <- <-. exists p, m. eauto 10 using only_view_refl, rtc_refl.
    - subst c1. simpl in *. apply step_relocate_inv in Hs as (act' & p2 & -> & -> & Hs).
      destruct (fp_step ans _ _ _ _ Hp Hs) as [Hp2 Ht].
      destruct (effect_move_inv f n act' mem m mem2 Ht Hok Hm He) as (m2 & He2 & Hm2 & Ho2).
      destruct (IH p2 mem2 m2) as (p' & m' & -> & Hp' & Hr' & Hm' & Ho'); try done.
      { by eapply view_ok_mono; [apply Ho2|]. }
      exists p', m'. split; [done|]. split; [done|]. split; [|eauto using only_view_trans].
      eapply rtc_l; [|exact Hr']. by exists act'.
  Qed.
  (** ... and conversely. *)
  Lemma schedule_of_view {A} f (p : prog T Q R A) n mem m p' m' :
    within n p → view_ok f n mem → view_of f n mem m →
    rtc (stepm ans) (p, m) (p', m') →
    ∃ mem', rtc (stepm ans) (relocate f p, mem) (relocate f p', mem') ∧
      within n p' ∧ view_of f n mem' m' ∧ only_view f n mem mem'.
  Proof.
    intros Hp Hok Hm Hr.
    remember (p, m) as c0 eqn:Hc0. remember (p', m') as c1 eqn:Hc1.
    revert p mem m Hp Hok Hm Hc0 Hc1.
    induction Hr as [c0|c0 [p2 m2] c1 (act & Hs & He) Hr IH]; intros p mem m Hp Hok Hm -> Hc.
    - injection Hc as <- <-. exists mem. eauto 10 using only_view_refl, rtc_refl.
    - subst c1. simpl in *.
      destruct (fp_step ans _ _ _ _ Hp Hs) as [Hp2 Ht].
      destruct (effect_move f n act mem m m2 Ht Hok Hm He) as (mem2 & He2 & Hm2 & Ho2).
      destruct (IH p2 mem2 m2) as (mem' & Hr' & Hp' & Hm' & Ho'); try done.
      { by eapply view_ok_mono; [apply Ho2|]. }
      exists mem'. split; [|eauto using only_view_trans].
      eapply rtc_l; [|exact Hr']. exists (move f act). split; [by apply step_relocate|done].
  Qed.
End schedules.

Section schedules_view.
  Context {T Q R : Type} (ans : Q → R → Prop).
  Local Arguments wrong {T Q R A} !p l.

  Lemma wrong_relocate {A} f (p : prog T Q R A) n mem m :
    within n p → view_ok f n mem → view_of f n mem m → wrong (relocate f p) mem → wrong p m.
  Proof.
    unfold within. intros Hp Hok Hm.
    assert (∃ F : nat → Prop, fp F p ∧ ∀ i, F i → i < n) as (F & Hp' & HF) by (by eexists).
    clear Hp. revert F Hp' HF.
    induction p as [A a|A e|A i k IH|A i x k IH|A q k IH|A B C p1 IH1 p2 IH2 k IH| |];
      intros F Hp HF Hw; simpl in *; try done.
    - rewrite <- (proj2 Hm); [done|]. by apply HF, Hp.
    - rewrite (proj1 Hm). exfalso. destruct Hp as [Hi _]. apply HF in Hi.
      apply Hok in Hi. lia.
    - destruct Hp as [(F1 & F2 & HF1 & HF2 & _ & Hp1 & Hp2) Hk]. destruct Hw; eauto.
  Qed.

  Lemma every_schedule_on_view {A} f (p : prog T Q R A) n mem m Φ (E : exn → list T → Prop) :
    within n p → view_ok f n mem → view_of f n mem m →
    every_schedule ans p m Φ E →
    every_schedule ans (relocate f p) mem
      (λ a mem', only_view f n mem mem' ∧ ∃ m', view_of f n mem' m' ∧ Φ a m')
      (λ e mem', only_view f n mem mem' ∧ ∃ m', view_of f n mem' m' ∧ E e m').
  Proof.
    intros Hp Hok Hm Hes. split.
    - apply stepm_wf.
    - intros q mem' Hr Hw.
      destruct (schedule_on_view ans f p n mem m q mem' Hp Hok Hm Hr)
        as (p' & m' & -> & Hp' & Hr' & Hm' & Ho).
      eapply (es_safe _ _ _ _ _ Hes); [exact Hr'|].
      eapply wrong_relocate; [exact Hp'|by eapply view_ok_mono; [apply Ho|]|exact Hm'|exact Hw].
    - intros q mem' Hr.
      destruct (schedule_on_view ans f p n mem m q mem' Hp Hok Hm Hr)
        as (p' & m' & -> & Hp' & Hr' & Hm' & Ho).
      eapply fp_no_race, (fp_relocate (λ i, i < n)); [|exact Hp']. apply Hok.
    - intros q mem' Hr.
      destruct (schedule_on_view ans f p n mem m q mem' Hp Hok Hm Hr)
        as (p' & m' & -> & Hp' & Hr' & Hm' & Ho).
      rewrite result_relocate.
      destruct (es_progress _ _ _ _ _ Hes p' m' Hr') as [H|([p2 m2] & act & Hs & He)]; [by left|].
      right. simpl in *. destruct (fp_step ans _ _ _ _ Hp' Hs) as [_ Ht].
      destruct (effect_move f n act mem' m' m2 Ht) as (mem2 & He2 & _);
        [by eapply view_ok_mono; [apply Ho|]|done|done|].
      exists (relocate f p2, mem2), (move f act). split; [by apply step_relocate|done].
    - intros a mem' Hr.
      destruct (schedule_on_view ans f p n mem m _ mem' Hp Hok Hm Hr)
        as (p' & m' & Heq & Hp' & Hr' & Hm' & Ho).
      split; [done|]. exists m'. split; [done|].
      destruct p'; try done. injection Heq as ->. by eapply (es_done _ _ _ _ _ Hes).
    - intros e mem' Hr.
      destruct (schedule_on_view ans f p n mem m _ mem' Hp Hok Hm Hr)
        as (p' & m' & Heq & Hp' & Hr' & Hm' & Ho).
      split; [done|]. exists m'. split; [done|].
      destruct p'; try done. injection Heq as ->. by eapply (es_panic _ _ _ _ _ Hes).
  Qed.

  (** Both directions, for the final states. *)
  Lemma outcomes_on_view {A} f (p : prog T Q R A) n mem m (r : A + exn) :
    within n p → view_ok f n mem → view_of f n mem m →
    let ends p m r m' := ∃ p', rtc (stepm ans) (p, m) (p', m') ∧ result (A:=A) p' = Some r in
    (∀ mem', ends (relocate f p) mem r mem' →
       only_view f n mem mem' ∧ ∃ m', view_of f n mem' m' ∧ ends p m r m') ∧
    (∀ m', ends p m r m' →
       ∃ mem', only_view f n mem mem' ∧ view_of f n mem' m' ∧ ends (relocate f p) mem r mem').
  Proof.
    intros Hp Hok Hm ends. split.
    - intros mem' (q & Hr & Hq).
      destruct (schedule_on_view ans f p n mem m q mem' Hp Hok Hm Hr)
        as (p' & m' & -> & Hp' & Hr' & Hm' & Ho).
      split; [done|]. exists m'. split; [done|]. exists p'. rewrite result_relocate in Hq. done.
    - intros m' (p' & Hr & Hq).
      destruct (schedule_of_view ans f p n mem m p' m' Hp Hok Hm Hr) as (mem' & Hr' & _ & Hm' & Ho).
      exists mem'. split; [done|]. split; [done|]. exists (relocate f p'). by rewrite result_relocate.
  Qed.
End schedules_view.

(** ** Strided views *)
Lemma strided_ok {T} (mem : list T) n (off stride : Z) :
  stride ≠ 0%Z →
  (∀ i, i < n → (0 ≤ off + stride * Z.of_nat i < Z.of_nat (length mem))%Z) →
  view_ok (λ i, Z.to_nat (off + stride * Z.of_nat i)) n mem.
Proof.
  intros Hs Hb. split.
  - intros i j Hi Hj Heq. apply Hb in Hi, Hj.
    assert (off + stride * Z.of_nat i = off + stride * Z.of_nat j)%Z as Heq' by lia.
    assert (stride * (Z.of_nat i - Z.of_nat j) = 0)%Z as H0 by lia.
    apply Z.mul_eq_0 in H0. lia.
  - intros i Hi. apply Hb in Hi. lia.
Qed.

(** What it means that [p], an operation on [n] elements, respects views: run on a
    view it has the result of [p] on the array [m] of the elements in view order,
    calls the closures in the same way (same final closure state), leaves these
    elements as in that array, and changes nothing else. *)
Definition acts_on_view {T Q R A} (n : nat) (p : prog T Q R A) : Prop :=
  ∀ (S : Type) (o : S → Q → R * S) (s : S) (f : nat → nat) (mem m : list T),
  view_ok f n mem → view_of f n mem m →
  ∃ r s' m' mem', run o p s m = (r, s', m') ∧ run o (relocate f p) s mem = (r, s', mem') ∧
    view_of f n mem' m' ∧ only_view f n mem mem'.

Lemma within_acts {T Q R A} n (p : prog T Q R A) : within n p → acts_on_view n p.
Proof. intros Hp S o s f mem m Hok Hm. by apply run_relocate. Qed.

(** The same for parallel operations, under every schedule. *)
Definition ends {T Q R A} (ans : Q → R → Prop) (p : prog T Q R A) (m : list T) (r : A + exn)
    (m' : list T) : Prop :=
  ∃ p', rtc (stepm ans) (p, m) (p', m') ∧ result p' = Some r.
Definition acts_on_view_scheduled {T Q R A} (n : nat) (p : prog T Q R A) : Prop :=
  ∀ (ans : Q → R → Prop) (f : nat → nat) (mem m : list T),
  view_ok f n mem → view_of f n mem m →
  (∀ r mem', ends ans (relocate f p) mem r mem' →
     only_view f n mem mem' ∧ ∃ m', view_of f n mem' m' ∧ ends ans p m r m') ∧
  (∀ r m', ends ans p m r m' →
     ∃ mem', only_view f n mem mem' ∧ view_of f n mem' m' ∧ ends ans (relocate f p) mem r mem') ∧
  (∀ q mem', rtc (stepm ans) (relocate f p, mem) (q, mem') →
     only_view f n mem mem' ∧ ¬ race ans q).

Lemma within_acts_scheduled {T Q R A} n (p : prog T Q R A) :
  within n p → acts_on_view_scheduled n p.
Proof.
  intros Hp ans f mem m Hok Hm. split; [|split].
  - intros r. by apply (outcomes_on_view ans f p n mem m r).
  - intros r. by apply (outcomes_on_view ans f p n mem m r).
  - intros q mem' Hr.
    destruct (schedule_on_view ans f p n mem m q mem' Hp Hok Hm Hr)
      as (p' & m' & -> & Hp' & Hr' & Hm' & Ho).
    split; [done|]. eapply fp_no_race, (fp_relocate (λ i, i < n)); [|exact Hp']. apply Hok.
Qed.

(** The parallel stable sort allocates a buffer of [n] elements next to the
    memory the view addresses. *)
Definition buffered (f : nat → nat) (n len : nat) (i : nat) : nat :=
  if i <? n then f i else len + (i - n).

Lemma buffered_ok {T} f n (mem junk : list T) :
  view_ok f n mem → length junk = n → view_ok (buffered f n (length mem)) (n + n) (mem ++ junk).
Proof.
  intros [Hinj Hb] Hj. unfold buffered. split.
  - intros i j Hi Hj'. destruct (Nat.ltb_spec i n), (Nat.ltb_spec j n); intros Heq.
    + auto.
    + specialize (Hb i). lia.
    + specialize (Hb j). lia.
    + lia.
  - intros i Hi. rewrite app_length. destruct (Nat.ltb_spec i n); [specialize (Hb i)|]; lia.
Qed.
Lemma buffered_of {T} f n (mem m junk : list T) :
  view_ok f n mem → view_of f n mem m → length junk = n →
  view_of (buffered f n (length mem)) (n + n) (mem ++ junk) (m ++ junk).
Proof.
  intros [Hinj Hb] [Hl Hm] Hj. unfold buffered. split; [rewrite app_length; lia|].
  intros i Hi. destruct (Nat.ltb_spec i n).
  - rewrite !lookup_app_l; [auto|lia|auto].
  - rewrite !lookup_app_r by lia. f_equal. lia.
Qed.
Lemma buffered_view {T} f n (mem junk mem' m' : list T) :
  view_ok f n mem → length junk = n →
  view_of (buffered f n (length mem)) (n + n) mem' m' →
  view_of f n (take (length mem) mem') (take n m').
Proof.
  intros [Hinj Hb] Hj [Hl Hm]. split; [rewrite take_length; lia|].
  intros i Hi. rewrite !lookup_take by auto. rewrite <- (Hm i) by lia.
  unfold buffered. by destruct (Nat.ltb_spec i n); [|lia].
Qed.
Lemma buffered_only {T} f n (mem junk mem' : list T) :
  length junk = n → only_view (buffered f n (length mem)) (n + n) (mem ++ junk) mem' →
  only_view f n mem (take (length mem) mem').
Proof.
  intros Hj [Hl Ho]. rewrite app_length in Hl. split; [rewrite take_length; lia|].
  intros j Hjf. destruct (decide (j < length mem)) as [Hlt|Hge].
  - rewrite lookup_take by done. rewrite Ho.
    + by rewrite lookup_app_l.
    + intros i Hi. unfold buffered. destruct (Nat.ltb_spec i n); [auto|lia].
  - rewrite (lookup_ge_None_2 mem) by lia. apply lookup_ge_None_2. rewrite take_length. lia.
Qed.

Definition acts_on_view_buffered {T Q R A} (n : nat) (p : prog T Q R A) : Prop :=
  ∀ (ans : Q → R → Prop) (f : nat → nat) (mem m junk : list T),
  view_ok f n mem → view_of f n mem m → length junk = n →
  let g := buffered f n (length mem) in
  (∀ r mem', ends ans (relocate g p) (mem ++ junk) r mem' →
     only_view f n mem (take (length mem) mem') ∧
     ∃ m', view_of f n (take (length mem) mem') (take n m') ∧ ends ans p (m ++ junk) r m') ∧
  (∀ r m', ends ans p (m ++ junk) r m' →
     ∃ mem', only_view f n mem (take (length mem) mem') ∧
       view_of f n (take (length mem) mem') (take n m') ∧
       ends ans (relocate g p) (mem ++ junk) r mem') ∧
  (∀ q mem', rtc (stepm ans) (relocate g p, mem ++ junk) (q, mem') →
     only_view f n mem (take (length mem) mem') ∧ ¬ race ans q).

Lemma within_acts_buffered {T Q R A} n (p : prog T Q R A) :
  within (n + n) p → acts_on_view_buffered n p.
Proof.
  intros Hp ans f mem m junk Hok Hm Hj g.
  destruct (within_acts_scheduled _ _ Hp ans g (mem ++ junk) (m ++ junk)) as (H1 & H2 & H3);
    [by apply buffered_ok|by apply buffered_of|]. split; [|split].
  - intros r mem' Hr. destruct (H1 r mem' Hr) as (Ho & m' & Hm' & He).
    split; [by eapply buffered_only|]. exists m'. split; [by eapply buffered_view|done].
  - intros r m' Hr. destruct (H2 r m' Hr) as (mem' & Ho & Hm' & He).
    exists mem'. split; [by eapply buffered_only|]. split; [by eapply buffered_view|done].
  - intros q mem' Hr. destruct (H3 q mem' Hr) as [Ho Hq]. split; [by eapply buffered_only|done].
Qed.

(** ** All operations *)
Local Ltac split_ands :=
  lazymatch goal with
  | |- _ ∧ _ => split; split_ands
  | |- acts_on_view _ _ => idtac
  | |- acts_on_view_scheduled _ _ => idtac
  | |- acts_on_view_buffered _ _ => idtac
  | |- ∀ _, _ => intros ?; split_ands
  end.
Section all.
  Context {T : Type} (c : cfg).

  Lemma sorts_views n :
    acts_on_view n (MApi.sort (T:=T) c n) ∧ acts_on_view n (sort_by (T:=T) c n) ∧
    acts_on_view n (sort_unstable (T:=T) c n) ∧ acts_on_view n (sort_unstable_by (T:=T) c n) ∧
    ∀ K (sz : sizes),
      acts_on_view n (sort_by_key (T:=T) (K:=K) c n) ∧
      acts_on_view n (sort_unstable_by_key (T:=T) (K:=K) c n) ∧
      acts_on_view n (sort_by_cached_key (T:=T) (K:=K) c sz n) ∧
      acts_on_view n (par_sort_by_cached_key (T:=T) (K:=K) c sz n).
  Proof.
    split_ands; apply within_acts;
      try first [apply within_by_compare|apply within_by_key];
      first [apply within_stable_sort|apply within_quick_sort|apply within_sort_by_cached_key
            |apply within_par_sort_by_cached_key].
  Qed.
  Lemma selections_views n i inds :
    acts_on_view n (select_nth_unstable (T:=T) c n i) ∧
    acts_on_view n (select_nth_unstable_by (T:=T) c n i) ∧
    acts_on_view n (select_many_nth_unstable (T:=T) c n inds) ∧
    acts_on_view n (select_many_nth_unstable_by (T:=T) c n inds) ∧
    ∀ K,
      acts_on_view n (select_nth_unstable_by_key (T:=T) (K:=K) c n i) ∧
      acts_on_view n (select_many_nth_unstable_by_key (T:=T) (K:=K) c n inds).
  Proof.
    split_ands; apply within_acts;
      try first [apply within_by_compare|apply within_by_key];
      first [apply within_partition_at_index|apply within_select_many].
  Qed.
  Lemma others_views n :
    (∀ Q R, acts_on_view n (MPartition.reverse (T:=T) (Q:=Q) (R:=R) n)) ∧
    acts_on_view n (partition_dedup (T:=T) n) ∧
    acts_on_view n (partition_dedup_by (T:=T) n) ∧
    ∀ K, acts_on_view n (partition_dedup_by_key (T:=T) (K:=K) n).
  Proof.
    split_ands; apply within_acts;
      first [apply within_reverse_any|apply within_partition_dedup|apply within_partition_dedup_by
            |apply within_partition_dedup_by_key].
  Qed.
  Lemma searches_views n :
    (∀ x, acts_on_view n (contains (T:=T) n x)) ∧
    acts_on_view n (is_sorted_by (T:=T) n) ∧
    (∀ x, acts_on_view n (binary_search (T:=T) c n x)) ∧
    acts_on_view n (binary_search_by (T:=T) c n) ∧
    acts_on_view n (partition_point (T:=T) c n) ∧
    ∀ K, acts_on_view n (is_sorted_by_key (T:=T) (K:=K) n) ∧
      ∀ b : K, acts_on_view n (binary_search_by_key (T:=T) c n b).
  Proof.
    split_ands; apply within_acts; try apply within_by_key;
      first [apply within_contains|apply within_is_sorted|apply within_binary_search
            |apply within_binary_search_by|apply within_partition_point
            |apply within_binary_search_by_key].
  Qed.
  Lemma par_views n vlen inds :
    acts_on_view_scheduled n (par_sort_unstable (T:=T) c n) ∧
    acts_on_view_scheduled n (par_sort_unstable_by (T:=T) c n) ∧
    acts_on_view_scheduled n (par_select_many_nth_unstable (T:=T) c n vlen inds) ∧
    acts_on_view_scheduled n (par_select_many_nth_unstable_by (T:=T) c n vlen inds) ∧
    ∀ K,
      acts_on_view_scheduled n (par_sort_unstable_by_key (T:=T) (K:=K) c n) ∧
      acts_on_view_scheduled n (par_select_many_nth_unstable_by_key (T:=T) (K:=K) c n vlen inds).
  Proof.
    split_ands; apply within_acts_scheduled;
      try first [apply within_by_compare|apply within_by_key];
      first [apply within_par_quick_sort|apply within_par_select_many].
  Qed.
  Lemma par_stable_views take_item n :
    acts_on_view_buffered n (par_sort (T:=T) c take_item n) ∧
    acts_on_view_buffered n (par_sort_by (T:=T) c take_item n) ∧
    ∀ K, acts_on_view_buffered n (par_sort_by_key (T:=T) (K:=K) c take_item n).
  Proof.
    split_ands; apply within_acts_buffered;
      try first [apply within_by_compare|apply within_by_key]; apply within_par_merge_sort.
  Qed.
End all.
