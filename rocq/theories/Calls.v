(** * Calls: bounds for the number of calls of parallel programs.

    [calls p Ψ b]: whatever the memory holds, whatever the closure answers and
    however the tasks are interleaved, [p] makes at most [b] calls, and a value it
    returns satisfies [Ψ]. *)
From Verif Require Export Cost CallSpec MParMerge.
From stdpp Require Import list.

Local Transparent bind on_unwind relocate focus silent costs.
Local Arguments bind {T Q R A B} !p f.
Local Arguments on_unwind {T Q R A} c !p.
Local Arguments relocate {T Q R A} f !p.
Local Arguments silent {T Q R A} !p.
Local Arguments costs {T Q R A} !p Φ B k.

Definition arm {A} (Ψ : A → Prop) (r : A + exn) : Prop :=
  match r with inl a => Ψ a | inr _ => True end.

Section calls.
  Context {T Q R : Type}.
  Notation P A := (prog T Q R A).

  Fixpoint calls {A} (p : P A) (Ψ : A → Prop) (b : nat) : Prop :=
    match p with
    | Ret a => Ψ a
    | Throw _ => True
    | Read i f => ∀ x, calls (f x) Ψ b
    | Write i x f => calls f Ψ b
    | Ask q f => 0 < b ∧ ∀ r, calls (f r) Ψ (b - 1)
    | Par p1 p2 f => ∃ b1 b2 b3 Ψ1 Ψ2, b1 + b2 + b3 ≤ b ∧ calls p1 Ψ1 b1 ∧ calls p2 Ψ2 b2 ∧
        ∀ x y, arm Ψ1 x → arm Ψ2 y → calls (f x y) Ψ b3
    | Undef | NoFuel => True
    end.

  Lemma calls_mono {A} (p : P A) (Ψ Ψ' : A → Prop) b b' :
    calls p Ψ b → b ≤ b' → (∀ a, Ψ a → Ψ' a) → calls p Ψ' b'.
  Proof.
    revert b b'.
    induction p as [A a|A e|A i f IH|A i x f IH|A q f IH|A B' C p1 IH1 p2 IH2 f IH| |];
      intros b b' Hp Hb HΨ; simpl in *; eauto.
    - destruct Hp as [? Hp]. split; [lia|]. intros r. eapply IH; [apply Hp|lia|done].
    - destruct Hp as (b1 & b2 & b3 & Ψ1 & Ψ2 & Hs & H1 & H2 & H3).
      exists b1, b2, b3, Ψ1, Ψ2. repeat (split; [lia || done|]). intros x y Hx Hy. eauto.
  Qed.
  Lemma calls_bind {A A'} (p : P A) (f : A → P A') Ψ Ψ' b1 b2 b :
    calls p Ψ b1 → (∀ a, Ψ a → calls (f a) Ψ' b2) → b1 + b2 ≤ b → calls (bind p f) Ψ' b.
  Proof.
    revert A' f Ψ Ψ' b1 b2 b.
    induction p as [A a|A e|A i g IH|A i x g IH|A q g IH|A B' C p1 IH1 p2 IH2 g IH| |];
      intros A' f Ψ Ψ' b1 b2 b Hp Hf Hb; simpl in *; eauto.
    - eapply calls_mono; [by apply Hf|lia|done].
    - destruct Hp as [? Hp]. split; [lia|]. intros r. eapply IH; [apply Hp|exact Hf|lia].
    - destruct Hp as (c1 & c2 & c3 & Ψ1 & Ψ2 & Hs & H1 & H2 & H3).
      exists c1, c2, (c3 + b2), Ψ1, Ψ2. split; [lia|]. repeat (split; [done|]).
      intros x y Hx Hy. eapply IH; [by apply H3|exact Hf|lia].
  Qed.
  Lemma calls_silent {A} (p : P A) b : silent p → calls p (λ _, True) b.
  Proof.
    induction p as [A a|A e|A i g IH|A i x g IH|A q g IH|A B' C p1 IH1 p2 IH2 g IH| |];
      simpl; auto; done.
  Qed.
  Lemma calls_on_unwind {A} cl (p : P A) Ψ b :
    silent cl → calls p Ψ b → calls (on_unwind cl p) Ψ b.
  Proof.
    intros Hc. revert b.
    induction p as [A a|A e|A i g IH|A i x g IH|A q g IH|A B' C p1 IH1 p2 IH2 g IH| |];
      intros b Hp; simpl in *; auto.
    - eapply (calls_bind _ _ _ _ b 0); [by apply calls_silent|done|lia].
    - destruct Hp as [? Hp]. auto.
    - destruct Hp as (c1 & c2 & c3 & Ψ1 & Ψ2 & Hs & H1 & H2 & H3).
      exists c1, c2, c3, Ψ1, Ψ2. auto 10.
  Qed.
  Lemma calls_relocate {A} g (p : P A) Ψ b : calls p Ψ b → calls (relocate g p) Ψ b.
  Proof.
    revert Ψ b.
    induction p as [A a|A e|A i f IH|A i x f IH|A q f IH|A B' C p1 IH1 p2 IH2 f IH| |];
      intros Ψ b Hp; simpl in *; auto.
    - destruct Hp as [? Hp]. auto.
    - destruct Hp as (c1 & c2 & c3 & Ψ1 & Ψ2 & Hs & H1 & H2 & H3).
      exists c1, c2, c3, Ψ1, Ψ2. auto 10.
  Qed.
  Lemma calls_ret {A} (a : A) (Ψ : A → Prop) b : Ψ a → calls (Ret a : P A) Ψ b.
  Proof. done. Qed.
  Lemma calls_throw {A} e (Ψ : A → Prop) b : calls (Throw e : P A) Ψ b.
  Proof. done. Qed.
  Lemma calls_par {A B C} (p1 : P B) (p2 : P C) (k : B + exn → C + exn → P A) Ψ1 Ψ2 Ψ b1 b2 b3 b :
    calls p1 Ψ1 b1 → calls p2 Ψ2 b2 → (∀ x y, arm Ψ1 x → arm Ψ2 y → calls (k x y) Ψ b3) →
    b1 + b2 + b3 ≤ b → calls (Par p1 p2 k) Ψ b.
  Proof. intros. exists b1, b2, b3, Ψ1, Ψ2. auto. Qed.
  Lemma calls_join {B C} (p1 : P B) (p2 : P C) Ψ1 Ψ2 b1 b2 b :
    calls p1 Ψ1 b1 → calls p2 Ψ2 b2 → b1 + b2 ≤ b →
    calls (rayon_join p1 p2) (λ r, Ψ1 r.1 ∧ Ψ2 r.2) b.
  Proof.
    intros H1 H2 Hb. unfold rayon_join.
    eapply (calls_par _ _ _ Ψ1 Ψ2 _ b1 b2 0); [done|done| |lia].
    intros [x|e] [y|e'] Hx Hy; simpl; auto.
  Qed.

  (** Sequential programs. *)
  Lemma costs_calls {A} (p : P A) Φ B k :
    costs p Φ B k → calls p (λ a, ∃ k', k' ≤ Nat.max B k ∧ Φ a k') (B - k).
  Proof.
    assert (∀ M, Nat.max B k ≤ M → costs p Φ B k → calls p (λ a, ∃ k', k' ≤ M ∧ Φ a k') (B - k)) as H.
    2: { by apply H. }
    intros M. revert k.
    induction p as [A a|A e|A i g IH|A i x g IH|A q g IH|A B' C p1 IH1 p2 IH2 g IH| |];
      intros k HM Hp; simpl in *; eauto; try done.
    - exists k. split; [lia|done].
    - destruct Hp as [? Hp]. split; [lia|]. intros r. replace (B - k - 1) with (B - S k) by lia.
      apply IH; [lia|done].
  Qed.

  (** ** Soundness. *)
  Lemma calls_call {A} (ans : Q → R → Prop) (p p' : P A) Ψ b :
    call_step ans p p' → calls p Ψ b → 0 < b ∧ calls p' Ψ (b - 1).
  Proof.
    revert p' Ψ b.
    induction p as [A a|A e|A i g IH|A i x g IH|A q g IH|A B' C p1 IH1 p2 IH2 g IH| |];
      intros p' Ψ b Hs Hp; simpl in *; try done.
    - destruct Hs as (r & _ & ->), Hp. auto.
    - destruct Hp as (c1 & c2 & c3 & Ψ1 & Ψ2 & Hb & H1 & H2 & H3).
      destruct Hs as [(p1' & Hs & ->)|(p2' & Hs & ->)].
      + destruct (IH1 _ _ _ Hs H1). split; [lia|].
        eapply (calls_par _ _ _ Ψ1 Ψ2 _ (c1 - 1) c2 c3); auto; lia.
      + destruct (IH2 _ _ _ Hs H2). split; [lia|].
        eapply (calls_par _ _ _ Ψ1 Ψ2 _ c1 (c2 - 1) c3); auto; lia.
  Qed.
  Lemma calls_result {A} (p : P A) Ψ b r : calls p Ψ b → result p = Some r → arm Ψ r.
  Proof. destruct p; simpl; intros Hc Hr; try done; by injection Hr as <-. Qed.
  Lemma calls_step {A} (ans : Q → R → Prop) (p p' : P A) act Ψ b :
    step ans p act p' → calls p Ψ b → calls p' Ψ b.
  Proof.
    revert p' Ψ b.
    induction p as [A a|A e|A i g IH|A i x g IH|A q g IH|A B' C p1 IH1 p2 IH2 g IH| |];
      intros p' Ψ b Hs Hp; simpl in *; try done.
    - by destruct Hs as (x & _ & ->).
    - by destruct Hs as (_ & ->).
    - destruct Hs as (r & _ & _ & ->), Hp. eapply calls_mono; [eauto|lia|done].
    - destruct Hp as (c1 & c2 & c3 & Ψ1 & Ψ2 & Hb & H1 & H2 & H3).
      destruct Hs as [(p1' & Hs & ->)|[(p2' & Hs & ->)|(x & y & Hx & Hy & _ & ->)]].
      + eapply (calls_par _ _ _ Ψ1 Ψ2 _ c1 c2 c3); eauto.
      + eapply (calls_par _ _ _ Ψ1 Ψ2 _ c1 c2 c3); eauto.
      + eapply calls_mono; [apply H3; by eapply calls_result|lia|done].
  Qed.
  Lemma calls_schedules {A} (ans : Q → R → Prop) (p : P A) Ψ b m l c :
    calls p Ψ b → calls_made ans m (p, l) c → m ≤ b.
  Proof.
    intros Hp Hm. remember (p, l) as c0 eqn:Hc0.
    assert (calls c0.1 Ψ b) as Hc by (by subst). clear Hp Hc0 p l. revert b Hc.
    induction Hm as [c|m p p' l c Hs Hm IH|m c c' c'' Hs Hm IH]; intros b Hp; simpl in *; [lia| |].
    - eapply calls_call in Hs as [H1 H2]; [|done]. apply IH in H2. lia.
    - destruct Hs as (act & Hs & _). apply IH. by eapply calls_step.
  Qed.
  Lemma calls_run {S A} (o : S → Q → R * S) (p : P A) Ψ b :
    ∀ s tr l, calls p Ψ b →
    match run (logged o) p (s, tr) l with
    | (Done a, (_, tr'), _) => length tr' ≤ length tr + b ∧ Ψ a
    | (_, (_, tr'), _) => length tr' ≤ length tr + b
    end.
  Proof.
    revert b Ψ.
    induction p as [A a|A e|A i g IH|A i x g IH|A q g IH|A B' C p1 IH1 p2 IH2 g IH| |];
      intros b Ψ s tr l Hp; simpl in *; auto with lia.
    - destruct (l !! i) as [x|]; [apply IH, Hp|simpl; lia].
    - destruct (decide _); [apply IH, Hp|simpl; lia].
    - destruct Hp as [Hb Hp]. destruct (o s q) as [r s'].
      specialize (IH r (b - 1) Ψ s' (tr ++ [(q, r)]) l (Hp r)).
      rewrite app_length in IH. simpl in IH.
      destruct (run _ _ _ _) as [[[a|e| |] [s2 tr2]] l2]; [destruct IH; split; [lia|done]|lia..].
    - destruct Hp as (c1 & c2 & c3 & Ψ1 & Ψ2 & Hb & H1 & H2 & H3).
      specialize (IH1 c1 Ψ1 s tr l H1).
      destruct (run _ p1 _ _) as [[[a|e| |] [s1 tr1]] l1]; [..|lia|lia].
      all: specialize (IH2 c2 Ψ2 s1 tr1 l1 H2);
        destruct (run _ p2 _ _) as [[[a2|e2| |] [s2 tr2]] l2]; [..|lia|lia].
      all: match goal with |- context [run _ (_ ?x ?y) _ _] =>
        assert (arm Ψ1 x ∧ arm Ψ2 y) as [Hx Hy] by (simpl; tauto);
        specialize (IH x y c3 Ψ s2 tr2 l2 (H3 x y Hx Hy)) end.
      all: destruct (run _ _ _ _) as [[[a'|e'| |] [s3 tr3]] l3]; [destruct IH; split; [lia|done]|lia..].
  Qed.

  (** The schedule that [run] follows. *)
  Lemma calls_made_app {A} (ans : Q → R → Prop) m1 m2 (c1 c2 c3 : P A * list T) :
    calls_made ans m1 c1 c2 → calls_made ans m2 c2 c3 → calls_made ans (m1 + m2) c1 c3.
  Proof.
    intros H1 H2. induction H1 as [c|m p p' l c Hs Hm IH|m c c' c'' Hs Hm IH]; [done| |].
    - eapply made_call; [exact Hs|auto].
    - eapply made_step; [exact Hs|auto].
  Qed.
  Lemma calls_made_left {A B C} (ans : Q → R → Prop) m (p1 p1' : P B) (p2 : P C)
      (k : B + exn → C + exn → P A) l l' :
    calls_made ans m (p1, l) (p1', l') →
    calls_made ans m (Par p1 p2 k, l) (Par p1' p2 k, l').
  Proof.
    intros H. remember (p1, l) as c eqn:Hc. remember (p1', l') as c' eqn:Hc'. revert p1 l p1' l' Hc Hc'.
    induction H as [c|m p p' l c Hs Hm IH|m c c' c'' Hs Hm IH]; intros q l0 q' l0' Hc Hc'; subst.
    - injection Hc' as -> ->. apply made_none.
    - injection Hc as -> ->. eapply made_call; [|by eapply IH]. simpl. left. eauto.
    - destruct c' as [q1 l1]. eapply made_step; [|by eapply IH].
      destruct Hs as (act & Hs & He). exists act. split; [simpl; left; eauto|done].
  Qed.
  Lemma calls_made_right {A B C} (ans : Q → R → Prop) m (p1 : P B) (p2 p2' : P C)
      (k : B + exn → C + exn → P A) l l' :
    calls_made ans m (p2, l) (p2', l') →
    calls_made ans m (Par p1 p2 k, l) (Par p1 p2' k, l').
  Proof.
    intros H. remember (p2, l) as c eqn:Hc. remember (p2', l') as c' eqn:Hc'. revert p2 l p2' l' Hc Hc'.
    induction H as [c|m p p' l c Hs Hm IH|m c c' c'' Hs Hm IH]; intros q l0 q' l0' Hc Hc'; subst.
    - injection Hc' as -> ->. apply made_none.
    - injection Hc as -> ->. eapply made_call; [|by eapply IH]. simpl. right. eauto.
    - destruct c' as [q1 l1]. eapply made_step; [|by eapply IH].
      destruct Hs as (act & Hs & He). exists act. split; [simpl; right; left; eauto|done].
  Qed.
  Lemma run_calls_made {S A} (ans : Q → R → Prop) (o : S → Q → R * S) (p : P A) :
    (∀ s q, ans q (o s q).1) → ∀ s tr l,
    let '(r, (_, tr'), l') := run (logged o) p (s, tr) l in
    ∃ m p', m + length tr = length tr' ∧ calls_made ans m (p, l) (p', l') ∧
      match r with
      | Done a => result p' = Some (inl a)
      | Panicked e => result p' = Some (inr e)
      | _ => True
      end.
  Proof.
    intros Ho.
    induction p as [A a|A e|A i g IH|A i x g IH|A q g IH|A B' C p1 IH1 p2 IH2 g IH| |];
      intros s tr l; simpl.
    - exists 0, (Ret a). repeat split. apply made_none.
    - exists 0, (Throw e). repeat split. apply made_none.
    - destruct (l !! i) as [x|] eqn:Hx; [|exists 0, (Read i g); repeat split; apply made_none].
      specialize (IH x s tr l). destruct (run _ _ _ _) as [[r [s' tr']] l'].
      destruct IH as (m & p' & Hm & Hc & Hr). exists m, p'. split; [done|]. split; [|done].
      eapply made_step; [|exact Hc]. exists (Rd i x). simpl. eauto.
    - destruct (decide (i < length l)) as [Hi|Hi]; [|exists 0, (Write i x g); repeat split; apply made_none].
      specialize (IH s tr (<[i:=x]> l)). destruct (run _ _ _ _) as [[r [s' tr']] l'].
      destruct IH as (m & p' & Hm & Hc & Hr). exists m, p'. split; [done|]. split; [|done].
      eapply made_step; [|exact Hc]. exists (Wr i x). simpl. eauto.
    - pose proof (Ho s q) as Hq. destruct (o s q) as [a s1] eqn:Hoq. simpl in Hq.
      specialize (IH a s1 (tr ++ [(q, a)]) l). destruct (run _ _ _ _) as [[r [s' tr']] l'].
      destruct IH as (m & p' & Hm & Hc & Hr). rewrite app_length in Hm. simpl in Hm.
      exists (Datatypes.S m), p'. split; [lia|]. split; [|done].
      eapply made_call; [|exact Hc]. simpl. eauto.
    - specialize (IH1 s tr l). destruct (run _ p1 _ _) as [[r1 [s1 tr1]] l1].
      destruct IH1 as (m1 & p1' & Hm1 & Hc1 & Hr1).
      pose proof (calls_made_left ans m1 p1 p1' p2 g l l1 Hc1) as Hp1.
      destruct r1 as [a1|e1| |]; [..|exists m1, (Par p1' p2 g); auto|exists m1, (Par p1' p2 g); auto].
      all: specialize (IH2 s1 tr1 l1); destruct (run _ p2 _ _) as [[r2 [s2 tr2]] l2];
        destruct IH2 as (m2 & p2' & Hm2 & Hc2 & Hr2);
        pose proof (calls_made_app ans _ _ _ _ _ Hp1
          (calls_made_right ans m2 p1' p2 p2' g l1 l2 Hc2)) as Hp2;
        (destruct r2 as [a2|e2| |];
          [..|exists (m1 + m2), (Par p1' p2' g); split; [lia|auto]
             |exists (m1 + m2), (Par p1' p2' g); split; [lia|auto]]);
        match goal with |- context [run _ (_ ?x ?y) _ _] =>
          specialize (IH x y s2 tr2 l2); destruct (run _ (g x y) _ _) as [[r [s3 tr3]] l3];
          destruct IH as (m3 & p3 & Hm3 & Hc3 & Hr3);
          exists (m1 + m2 + m3), p3; split; [lia|]; split; [|done];
          eapply calls_made_app; [exact Hp2|]; eapply made_step; [|exact Hc3];
          exists Tau; simpl; split; [|done]; right; right; exists x, y; auto
        end.
    - exists 0, Undef. repeat split. apply made_none.
    - exists 0, NoFuel. repeat split. apply made_none.
  Qed.
End calls.

(** A wrapper around [compare] makes one call of [compare] per call. *)
Lemma calls_by_compare {T A} (p : cmp_prog T A) Ψ b : calls p Ψ b → calls (by_compare p) Ψ b.
Proof.
  unfold by_compare. revert Ψ b.
  induction p as [A a|A e|A i g IH|A i x g IH|A q g IH|A B' C p1 IH1 p2 IH2 g IH| |];
    intros Ψ b Hp; simpl in *; auto.
  - destruct Hp as [Hb Hp]. split; [done|]. auto.
  - destruct Hp as (c1 & c2 & c3 & Ψ1 & Ψ2 & Hb & H1 & H2 & H3).
    exists c1, c2, c3, Ψ1, Ψ2. auto 10.
Qed.

Global Opaque bind on_unwind relocate focus silent costs calls.
