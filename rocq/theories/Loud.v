(** * Loud: a panic of the closure in some task makes the whole call panic.

    [dead p D]: the values [p] may return satisfy [D].  [loud bad p D]: once a call
    of the closure in [p] panicked ([bad q r]), the values [p] may still return
    satisfy [D]; so with [D] empty it does not return.  Both hold for every memory,
    every answer and every interleaving. *)
From Verif Require Export Polite CallSpec MParMerge.
From stdpp Require Import list relations.

Local Transparent bind on_unwind relocate focus quiet silent polite.
Local Arguments bind {T Q R A B} !p f.
Local Arguments on_unwind {T Q R A} c !p.
Local Arguments relocate {T Q R A} f !p.
Local Arguments with_asks {T Q R Q' R'} h {A} !p.
Local Arguments quiet {T Q R A} !p.
Local Arguments silent {T Q R A} !p.
Local Arguments polite {T Q R} bad {A} !p.

(** An arm of a join that panicked, or returned such a value. *)
Definition spoilt {A} (D : A → Prop) (r : A + exn) : Prop :=
  match r with inl a => D a | inr _ => True end.
Definition nothing {A} (a : A) : Prop := False.

Section loud.
  Context {T Q R : Type} (bad : Q → R → Prop).
  Notation P A := (prog T Q R A).

  Fixpoint dead {A} (p : P A) (D : A → Prop) : Prop :=
    match p with
    | Ret a => D a
    | Throw _ => True
    | Read i k => ∀ x, dead (k x) D
    | Write i x k => dead k D
    | Ask q k => ∀ r, dead (k r) D
    | Par p1 p2 k =>
        (∃ D1, dead p1 D1 ∧ ∀ x y, spoilt D1 x → dead (k x y) D) ∨
        (∃ D2, dead p2 D2 ∧ ∀ x y, spoilt D2 y → dead (k x y) D)
    | Undef | NoFuel => True
    end.
  Fixpoint loud {A} (p : P A) (D : A → Prop) : Prop :=
    match p with
    | Ret a => True
    | Throw _ => True
    | Read i k => ∀ x, loud (k x) D
    | Write i x k => loud k D
    | Ask q k => ∀ r, (bad q r → dead (k r) D) ∧ (¬ bad q r → loud (k r) D)
    | Par p1 p2 k => ∃ D1 D2, loud p1 D1 ∧ loud p2 D2 ∧
        (∀ x y, spoilt D1 x → dead (k x y) D) ∧ (∀ x y, spoilt D2 y → dead (k x y) D) ∧
        ∀ x y, loud (k x y) D
    | Undef | NoFuel => True
    end.

  Lemma dead_mono {A} (p : P A) (D D' : A → Prop) :
    dead p D → (∀ a, D a → D' a) → dead p D'.
  Proof.
    induction p as [A a|A e|A i k IH|A i x k IH|A q k IH|A B C p1 IH1 p2 IH2 k IH| |];
      intros Hp HD; simpl in *; eauto.
    destruct Hp as [(D1 & H1 & H2)|(D2 & H1 & H2)]; [left|right]; eauto 10.
  Qed.
  Lemma loud_mono {A} (p : P A) (D D' : A → Prop) :
    loud p D → (∀ a, D a → D' a) → loud p D'.
  Proof.
    induction p as [A a|A e|A i k IH|A i x k IH|A q k IH|A B C p1 IH1 p2 IH2 k IH| |];
      intros Hp HD; simpl in *; eauto.
    - intros r. destruct (Hp r). split; intros Hb; [|by eauto]. eapply dead_mono; eauto.
    - destruct Hp as (D1 & D2 & H1 & H2 & H3 & H4 & H5). exists D1, D2.
      repeat (split; [done|]). split; [|split]; intros x y; [intros Hx..|].
      + eapply dead_mono; eauto.
      + eapply dead_mono; eauto.
      + eauto.
  Qed.
  Lemma dead_bind {A B} (p : P A) (f : A → P B) D D' :
    dead p D → (∀ a, D a → dead (f a) D') → dead (bind p f) D'.
  Proof.
    revert B f D D'.
    induction p as [A a|A e|A i k IH|A i x k IH|A q k IH|A B' C p1 IH1 p2 IH2 k IH| |];
      intros B f D D' Hp Hf; simpl in *; eauto.
    destruct Hp as [(D1 & H1 & H2)|(D2 & H1 & H2)]; [left; exists D1|right; exists D2];
      (split; [done|]); intros x y Hx; eapply IH; eauto.
  Qed.
  Lemma loud_bind {A B} (p : P A) (f : A → P B) D D' :
    loud p D → (∀ a, D a → dead (f a) D') → (∀ a, loud (f a) D') → loud (bind p f) D'.
  Proof.
    revert B f D D'.
    induction p as [A a|A e|A i k IH|A i x k IH|A q k IH|A B' C p1 IH1 p2 IH2 k IH| |];
      intros B f D D' Hp Hd Hf; simpl in *; eauto.
    - intros r. destruct (Hp r). split; intros Hb; [|by eauto]. eapply dead_bind; eauto.
    - destruct Hp as (D1 & D2 & H1 & H2 & H3 & H4 & H5). exists D1, D2.
      repeat (split; [done|]). split; [|split]; intros x y; [intros Hx..|].
      + eapply dead_bind; eauto.
      + eapply dead_bind; eauto.
      + eauto.
  Qed.
  Lemma loud_seq {A B} (p : P A) (f : A → P B) D' :
    loud p nothing → (∀ a, loud (f a) D') → loud (bind p f) D'.
  Proof. intros Hp Hf. eapply loud_bind; [exact Hp|done|exact Hf]. Qed.
  Lemma quiet_dead {A} (p : P A) D : quiet p → dead p D.
  Proof.
    induction p as [A a|A e|A i k IH|A i x k IH|A q k IH|A B C p1 IH1 p2 IH2 k IH| |];
      simpl; auto; done.
  Qed.
  Lemma polite_loud {A} (p : P A) D : polite bad p → loud p D.
  Proof.
    induction p as [A a|A e|A i k IH|A i x k IH|A q k IH|A B C p1 IH1 p2 IH2 k IH| |];
      simpl; auto; try done.
    intros Hp r. destruct (Hp r). split; [|by auto]. intros Hb. apply quiet_dead. auto.
  Qed.
  Lemma dead_on_unwind {A} (c : P unit) (p : P A) D :
    silent c → dead p D → dead (on_unwind c p) D.
  Proof.
    intros Hc.
    induction p as [A a|A e|A i k IH|A i x k IH|A q k IH|A B' C p1 IH1 p2 IH2 k IH| |];
      simpl; auto.
    - intros _. by apply quiet_dead, silent_throw.
    - intros [(D1 & H1 & H2)|(D2 & H1 & H2)]; [left|right]; eauto 10.
  Qed.
  Lemma loud_on_unwind {A} (c : P unit) (p : P A) D :
    silent c → loud p D → loud (on_unwind c p) D.
  Proof.
    intros Hc.
    induction p as [A a|A e|A i k IH|A i x k IH|A q k IH|A B' C p1 IH1 p2 IH2 k IH| |];
      simpl; auto.
    - intros _. eapply loud_seq; [|done]. by apply polite_loud, silent_polite.
    - intros Hp r. destruct (Hp r). split; [|by auto]. intros Hb. by apply dead_on_unwind; auto.
    - intros (D1 & D2 & H1 & H2 & H3 & H4 & H5). exists D1, D2. repeat (split; [done|]).
      split; [|split]; intros x y; [intros Hx..|]; auto using dead_on_unwind.
  Qed.
  Lemma dead_relocate {A} f (p : P A) D : dead p D → dead (relocate f p) D.
  Proof.
    revert D.
    induction p as [A a|A e|A i k IH|A i x k IH|A q k IH|A B' C p1 IH1 p2 IH2 k IH| |];
      intros D; simpl; auto.
    intros [(D1 & H1 & H2)|(D2 & H1 & H2)]; [left|right]; eauto 10.
  Qed.
  Lemma loud_relocate {A} f (p : P A) D : loud p D → loud (relocate f p) D.
  Proof.
    revert D.
    induction p as [A a|A e|A i k IH|A i x k IH|A q k IH|A B' C p1 IH1 p2 IH2 k IH| |];
      intros D; simpl; auto.
    - intros Hp r. destruct (Hp r). split; [|by auto]. intros Hb. by apply dead_relocate; auto.
    - intros (D1 & D2 & H1 & H2 & H3 & H4 & H5). exists D1, D2. split; [auto|]. split; [auto|].
      split; [|split]; intros x y; [intros Hx..|]; auto using dead_relocate.
  Qed.
  Lemma loud_slice {A} n a b (p : nat → P A) D :
    (∀ m, loud (p m) D) → loud (slice n a b p) D.
  Proof. intros Hp. unfold slice. destruct (_ && _); [by apply loud_relocate|done]. Qed.
  Lemma loud_join {B C} (p1 : P B) (p2 : P C) D :
    loud p1 nothing → loud p2 nothing → loud (rayon_join p1 p2) D.
  Proof.
    intros H1 H2. exists nothing, nothing. split; [done|]. split; [done|].
    split; [|split]; intros [] []; simpl; done.
  Qed.
  Lemma loud_par_each {B} (ts : list (P B)) :
    Forall (λ t, loud t nothing) ts → loud (par_each ts) (λ rs, ∃ e, inr e ∈ rs).
  Proof.
    induction 1 as [|t ts Ht Hts IH]; simpl; [done|].
    exists nothing, (λ rs, ∃ e, inr e ∈ rs). split; [done|]. split; [done|].
    split; [|split].
    - intros [b|e] [bs|e']; simpl; try done. intros _. exists e. by left.
    - intros b [bs|e']; simpl; [|done]. intros [e He]. exists e. by right.
    - by intros b [bs|e'].
  Qed.
  Lemma dead_all_done {B} (rs : list (B + exn)) D : (∃ e, inr e ∈ rs) → dead (all_done rs : P _) D.
  Proof.
    intros [e He]. revert D. induction rs as [|[b|e'] rs IH]; intros D; simpl; [by apply elem_of_nil in He| |done].
    apply elem_of_cons in He as [?|He]; [done|]. by apply (dead_bind _ _ nothing); [apply IH|].
  Qed.
  Lemma loud_all_done {B} (rs : list (B + exn)) D : loud (all_done rs : P _) D.
  Proof.
    revert D. induction rs as [|[b|e'] rs IH]; intros D; simpl; [done| |done].
    by apply loud_seq.
  Qed.
  Lemma loud_bridge {B} take_item (ts : list (P B)) D :
    Forall (λ t, loud t nothing) ts → loud (par_bridge take_item ts) D.
  Proof.
    intros Hts. unfold par_bridge.
    assert (∀ i, Forall (λ t, loud t nothing) (bridge_first take_item i ts)) as Hf.
    { induction Hts as [|t ts Ht Hts IH]; intros i; simpl; constructor; auto.
      destruct (take_item i); [|done]. by apply loud_seq. }
    assert (∀ rs : list (option B), Forall (λ t, loud t nothing) (bridge_rest rs ts)) as Hr.
    { clear Hf. induction Hts as [|t ts Ht Hts IH]; intros [|[b|] rs]; simpl; constructor; auto. done. }
    eapply loud_bind; [by apply loud_par_each| |].
    { intros rs Hrs. apply (dead_bind _ _ nothing); [by apply dead_all_done|done]. }
    intros rs. apply loud_seq; [apply loud_all_done|]. intros rs'.
    eapply loud_bind; [by apply loud_par_each| |].
    { intros rs2 Hrs. by apply dead_all_done. }
    intros rs2. apply loud_all_done.
  Qed.

  (** ** Soundness. *)
  Lemma dead_result {A} (p : P A) D r : dead p D → result p = Some r → spoilt D r.
  Proof. destruct p; simpl; intros Hc Hr; try done; by injection Hr as <-. Qed.
  Lemma dead_call {A} (p p' : P A) q r D : call_step_as p q r p' → dead p D → dead p' D.
  Proof.
    revert p' D.
    induction p as [A a|A e|A i k IH|A i x k IH|A q' k IH|A B C p1 IH1 p2 IH2 k IH| |];
      intros p' D Hs Hp; simpl in *; try done.
    - destruct Hs as [-> ->]. auto.
    - destruct Hs as [(p1' & Hs & ->)|(p2' & Hs & ->)];
        destruct Hp as [(D1 & H1 & H2)|(D2 & H1 & H2)]; simpl; eauto 10.
  Qed.
  Lemma loud_call {A} (p p' : P A) q r D :
    call_step_as p q r p' → loud p D → (bad q r → dead p' D) ∧ (¬ bad q r → loud p' D).
  Proof.
    revert p' D.
    induction p as [A a|A e|A i k IH|A i x k IH|A q' k IH|A B C p1 IH1 p2 IH2 k IH| |];
      intros p' D Hs Hp; simpl in *; try done.
    - destruct Hs as [-> ->]. auto.
    - destruct Hp as (D1 & D2 & H1 & H2 & H3 & H4 & H5).
      destruct Hs as [(p1' & Hs & ->)|(p2' & Hs & ->)]; simpl.
      + destruct (IH1 _ _ Hs H1). split; intros Hb; [left; eauto|]. exists D1, D2. auto 10.
      + destruct (IH2 _ _ Hs H2). split; intros Hb; [right; eauto|]. exists D1, D2. auto 10.
  Qed.
  Lemma dead_step {A} (ans : Q → R → Prop) (p p' : P A) act D :
    step ans p act p' → dead p D → dead p' D.
  Proof.
    revert p' D.
    induction p as [A a|A e|A i k IH|A i x k IH|A q k IH|A B C p1 IH1 p2 IH2 k IH| |];
      intros p' D Hs Hp; simpl in *; try done.
    - by destruct Hs as (x & _ & ->).
    - by destruct Hs as (_ & ->).
    - by destruct Hs as (r & _ & _ & ->).
    - destruct Hs as [(p1' & Hs & ->)|[(p2' & Hs & ->)|(x & y & Hx & Hy & _ & ->)]];
        destruct Hp as [(D1 & H1 & H2)|(D2 & H1 & H2)]; simpl; eauto 10.
      + apply H2. by eapply dead_result.
      + apply H2. by eapply dead_result.
  Qed.
  Lemma loud_step {A} (p p' : P A) act D :
    step (λ _ _, False) p act p' → loud p D → loud p' D.
  Proof.
    revert p' D.
    induction p as [A a|A e|A i k IH|A i x k IH|A q k IH|A B C p1 IH1 p2 IH2 k IH| |];
      intros p' D Hs Hp; simpl in *; try done.
    - by destruct Hs as (x & _ & ->).
    - by destruct Hs as (_ & ->).
    - by destruct Hs as (r & [] & _ & ->).
    - destruct Hp as (D1 & D2 & H1 & H2 & H3 & H4 & H5).
      destruct Hs as [(p1' & Hs & ->)|[(p2' & Hs & ->)|(x & y & Hx & Hy & _ & ->)]]; simpl; [..|done].
      + exists D1, D2. eauto 10.
      + exists D1, D2. eauto 10.
  Qed.
  Lemma dead_log {A} (ans : Q → R → Prop) tr (c c' : P A * list T) D :
    schedule_log ans tr c c' → dead c.1 D → dead c'.1 D.
  Proof.
    induction 1 as [c|q r tr p p' l c Hq Hs Hm IH|tr c c' c'' Hs Hm IH]; intros Hp; simpl in *; auto.
    - apply IH. by eapply dead_call.
    - destruct Hs as (act & Hs & _). apply IH. by eapply dead_step.
  Qed.
  Lemma loud_log {A} (ans : Q → R → Prop) (dec : ∀ q r, Decision (bad q r)) tr (c c' : P A * list T) D :
    schedule_log ans tr c c' → loud c.1 D → Exists (λ e, bad e.1 e.2) tr → dead c'.1 D.
  Proof.
    induction 1 as [c|q r tr p p' l c Hq Hs Hm IH|tr c c' c'' Hs Hm IH]; intros Hp Hb; simpl in *.
    - by apply Exists_nil in Hb.
    - destruct (loud_call _ _ _ _ _ Hs Hp) as [H1 H2]. destruct (decide (bad q r)) as [Hbad|Hbad].
      + eapply dead_log; [exact Hm|]. by apply H1.
      + apply IH; [by apply H2|]. apply Exists_cons in Hb as [?|?]; done.
    - destruct Hs as (act & Hs & _). apply IH; [|done]. by eapply loud_step.
  Qed.
  (** The schedule, with any closure that gives the answers it got. *)
  Lemma call_step_as_step {A} (ans : Q → R → Prop) (p p' : P A) q r :
    ans q r → call_step_as p q r p' → step ans p Tau p'.
  Proof.
    intros Ha. revert p'.
    induction p as [A a|A e|A i k IH|A i x k IH|A q' k IH|A B C p1 IH1 p2 IH2 k IH| |];
      intros p' Hs; simpl in *; try done.
    - destruct Hs as [-> ->]. eauto.
    - destruct Hs as [(p1' & Hs & ->)|(p2' & Hs & ->)]; eauto 10.
  Qed.
  Lemma step_mono {A} (ans ans' : Q → R → Prop) (p p' : P A) act :
    (∀ q r, ans q r → ans' q r) → step ans p act p' → step ans' p act p'.
  Proof.
    intros Ha. revert p'.
    induction p as [A a|A e|A i k IH|A i x k IH|A q' k IH|A B C p1 IH1 p2 IH2 k IH| |];
      intros p' Hs; simpl in *; try done.
    - destruct Hs as (r & Hr & -> & ->). eauto.
    - destruct Hs as [(p1' & Hs & ->)|[(p2' & Hs & ->)|(x & y & Hx & Hy & -> & ->)]]; eauto 10.
  Qed.
  Lemma schedule_log_steps {A} (ans ans' : Q → R → Prop) tr (c c' : P A * list T) :
    schedule_log ans tr c c' → (∀ q r, (q, r) ∈ tr → ans' q r) → rtc (stepm ans') c c'.
  Proof.
    induction 1 as [c|q r tr p p' l c Hq Hs Hm IH|tr c c' c'' Hs Hm IH]; intros Ha.
    - apply rtc_refl.
    - eapply rtc_l; [|apply IH; intros; apply Ha; by right].
      exists Tau. split; [|done]. eapply call_step_as_step; [apply Ha; by left|done].
    - eapply rtc_l; [|by apply IH]. destruct Hs as (act & Hs & He). exists act. split; [|done].
      by eapply step_mono; [|exact Hs].
  Qed.
  Lemma schedule_log_app {A} (ans : Q → R → Prop) tr1 tr2 (c1 c2 c3 : P A * list T) :
    schedule_log ans tr1 c1 c2 → schedule_log ans tr2 c2 c3 → schedule_log ans (tr1 ++ tr2) c1 c3.
  Proof.
    intros H1 H2. induction H1 as [c|q r tr p p' l c Hq Hs Hm IH|tr c c' c'' Hs Hm IH]; [done| |].
    - eapply log_call; [exact Hq|exact Hs|auto].
    - eapply log_step; [exact Hs|auto].
  Qed.

  (** The schedule that [run] follows. *)
  Lemma schedule_log_left {A B C} (ans : Q → R → Prop) tr (p1 p1' : P B) (p2 : P C)
      (k : B + exn → C + exn → P A) l l' :
    schedule_log ans tr (p1, l) (p1', l') →
    schedule_log ans tr (Par p1 p2 k, l) (Par p1' p2 k, l').
  Proof.
    intros H. remember (p1, l) as c eqn:Hc. remember (p1', l') as c' eqn:Hc'. revert p1 l p1' l' Hc Hc'.
    induction H as [c|q r tr p p' l c Hq Hs Hm IH|tr c c' c'' Hs Hm IH]; intros q0 l0 q' l0' Hc Hc'; subst.
    - injection Hc' as -> ->. apply log_none.
    - injection Hc as -> ->. eapply log_call; [exact Hq| |by eapply IH]. simpl. left. eauto.
    - destruct c' as [q1 l1]. eapply log_step; [|by eapply IH].
      destruct Hs as (act & Hs & He). exists act. split; [simpl; left; eauto|done].
  Qed.
  Lemma schedule_log_right {A B C} (ans : Q → R → Prop) tr (p1 : P B) (p2 p2' : P C)
      (k : B + exn → C + exn → P A) l l' :
    schedule_log ans tr (p2, l) (p2', l') →
    schedule_log ans tr (Par p1 p2 k, l) (Par p1 p2' k, l').
  Proof.
    intros H. remember (p2, l) as c eqn:Hc. remember (p2', l') as c' eqn:Hc'. revert p2 l p2' l' Hc Hc'.
    induction H as [c|q r tr p p' l c Hq Hs Hm IH|tr c c' c'' Hs Hm IH]; intros q0 l0 q' l0' Hc Hc'; subst.
    - injection Hc' as -> ->. apply log_none.
    - injection Hc as -> ->. eapply log_call; [exact Hq| |by eapply IH]. simpl. right. eauto.
    - destruct c' as [q1 l1]. eapply log_step; [|by eapply IH].
      destruct Hs as (act & Hs & He). exists act. split; [simpl; right; left; eauto|done].
  Qed.
  Lemma run_schedule_log {S A} (ans : Q → R → Prop) (o : S → Q → R * S) (p : P A) :
    (∀ s q, ans q (o s q).1) → ∀ s tr l,
    let '(r, (_, tr'), l') := run (logged o) p (s, tr) l in
    ∃ tr2 p', tr' = tr ++ tr2 ∧ schedule_log ans tr2 (p, l) (p', l') ∧
      match r with
      | Done a => result p' = Some (inl a)
      | Panicked e => result p' = Some (inr e)
      | _ => True
      end.
  Proof.
    intros Ho.
    induction p as [A a|A e|A i g IH|A i x g IH|A q g IH|A B' C p1 IH1 p2 IH2 g IH| |];
      intros s tr l; simpl.
    - exists [], (Ret a). rewrite app_nil_r. repeat split. apply log_none.
    - exists [], (Throw e). rewrite app_nil_r. repeat split. apply log_none.
    - destruct (l !! i) as [x|] eqn:Hx;
        [|exists [], (Read i g); rewrite app_nil_r; repeat split; apply log_none].
      specialize (IH x s tr l). destruct (run _ _ _ _) as [[r [s' tr']] l'].
      destruct IH as (tr2 & p' & Hm & Hc & Hr). exists tr2, p'. split; [done|]. split; [|done].
      eapply log_step; [|exact Hc]. exists (Rd i x). simpl. eauto.
    - destruct (decide (i < length l)) as [Hi|Hi];
        [|exists [], (Write i x g); rewrite app_nil_r; repeat split; apply log_none].
      specialize (IH s tr (<[i:=x]> l)). destruct (run _ _ _ _) as [[r [s' tr']] l'].
      destruct IH as (tr2 & p' & Hm & Hc & Hr). exists tr2, p'. split; [done|]. split; [|done].
      eapply log_step; [|exact Hc]. exists (Wr i x). simpl. eauto.
    - pose proof (Ho s q) as Hq. destruct (o s q) as [a s1] eqn:Hoq. simpl in Hq.
      specialize (IH a s1 (tr ++ [(q, a)]) l). destruct (run _ _ _ _) as [[r [s' tr']] l'].
      destruct IH as (tr2 & p' & Hm & Hc & Hr). rewrite <-app_assoc in Hm. simpl in Hm.
      exists ((q, a) :: tr2), p'. split; [done|]. split; [|done].
      eapply log_call; [exact Hq| |exact Hc]. simpl. eauto.
    - specialize (IH1 s tr l). destruct (run _ p1 _ _) as [[r1 [s1 tr1]] l1].
      destruct IH1 as (m1 & p1' & -> & Hc1 & Hr1).
      pose proof (schedule_log_left ans m1 p1 p1' p2 g l l1 Hc1) as Hp1.
      destruct r1 as [a1|e1| |]; [..|exists m1, (Par p1' p2 g); auto|exists m1, (Par p1' p2 g); auto].
      all: specialize (IH2 s1 (tr ++ m1) l1); destruct (run _ p2 _ _) as [[r2 [s2 tr2]] l2];
        destruct IH2 as (m2 & p2' & -> & Hc2 & Hr2); rewrite <-app_assoc in *;
        pose proof (schedule_log_app ans _ _ _ _ _ Hp1
          (schedule_log_right ans m2 p1' p2 p2' g l1 l2 Hc2)) as Hp2;
        (destruct r2 as [a2|e2| |];
          [..|exists (m1 ++ m2), (Par p1' p2' g); auto
             |exists (m1 ++ m2), (Par p1' p2' g); auto]);
        match goal with |- context [run _ (_ ?x ?y) _ _] =>
          specialize (IH x y s2 (tr ++ m1 ++ m2) l2); destruct (run _ (g x y) _ _) as [[r [s3 tr3]] l3];
          destruct IH as (m3 & p3 & -> & Hc3 & Hr3);
          exists ((m1 ++ m2) ++ m3), p3; split; [by rewrite <-!app_assoc|]; split; [|done];
          eapply schedule_log_app; [exact Hp2|]; eapply log_step; [|exact Hc3];
          exists Tau; simpl; split; [|done]; right; right; exists x, y; auto
        end.
    - exists [], Undef. rewrite app_nil_r. repeat split. apply log_none.
    - exists [], NoFuel. rewrite app_nil_r. repeat split. apply log_none.
  Qed.
End loud.

(** ** Wrappers. *)
Lemma dead_true {T Q R A} (p : prog T Q R A) : dead p (λ _, True).
Proof.
  induction p as [A a|A e|A i k IH|A i x k IH|A q k IH|A B' C p1 IH1 p2 IH2 k IH| |]; simpl; auto.
  left. exists (λ _, True). auto.
Qed.
Section wrap.
  Context {T Q R Q' R' : Type} (h : Q → prog T Q' R' R).
  Lemma dead_with_asks {A} (p : prog T Q R A) D : dead p D → dead (with_asks h p) D.
  Proof.
    revert D.
    induction p as [A a|A e|A i k IH|A i x k IH|A q k IH|A B' C p1 IH1 p2 IH2 k IH| |];
      intros D; simpl; auto.
    - intros Hp. apply (dead_bind _ _ (λ _, True)); [|auto].
      apply dead_true.
    - intros [(D1 & H1 & H2)|(D2 & H1 & H2)]; [left|right]; eauto 10.
  Qed.
End wrap.

Lemma loud_by_compare {T A} (p : cmp_prog T A) D :
  loud none_bad p D → loud none_bad (by_compare p) D.
Proof.
  unfold by_compare. revert D.
  induction p as [A a|A e|A i k IH|A i x k IH|A q k IH|A B' C p1 IH1 p2 IH2 k IH| |];
    intros D; simpl; auto.
  - intros Hp r. unfold none_bad in *. split.
    + intros ->. apply dead_with_asks. by apply Hp.
    + intros Hr. apply IH, Hp. by destruct r as [[]|].
  - intros (D1 & D2 & H1 & H2 & H3 & H4 & H5). exists D1, D2. split; [auto|]. split; [auto|].
    split; [|split]; intros x y; [intros Hx..|]; auto using dead_with_asks.
Qed.
Lemma loud_by_key {T K A} (p : cmp_prog T A) D :
  loud none_bad p D → loud (key_bad (K:=K)) (by_key p) D.
Proof.
  unfold by_key. revert D.
  induction p as [A a|A e|A i k IH|A i x k IH|A q k IH|A B' C p1 IH1 p2 IH2 k IH| |];
    intros D; simpl; auto.
  - intros Hp. destruct q as [a b]. simpl.
    assert (Hq : ∀ h : T * T → prog T (key_question (T:=T) K) (key_answer K) (option bool),
              dead (with_asks h (k None)) D).
    { intros h. apply dead_with_asks. by apply Hp. }
    intros [ka|v|]; (split; intros Hb); simpl in *; try (by apply Hq); try tauto.
    intros [kb|v|]; (split; intros Hb2); simpl in *; try (by apply Hq); try tauto.
    intros [kb'|v|]; (split; intros Hb3); simpl in *; try (by apply Hq); try tauto.
    apply IH. by apply Hp.
  - intros (D1 & D2 & H1 & H2 & H3 & H4 & H5). exists D1, D2. split; [auto|]. split; [auto|].
    split; [|split]; intros x y; [intros Hx..|]; auto using dead_with_asks.
Qed.

Global Opaque dead loud.
Global Opaque quiet silent polite bind on_unwind relocate focus.
