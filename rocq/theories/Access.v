(** * Access: paying for memory accesses with calls of the closure.

    [pays K p Ψ E b]: started with [b] credits, [p] can pay one credit for each
    read and write, if it earns [K] credits with each call of the closure,
    whatever the memory holds, whatever the closure answers, however the tasks are
    interleaved.  The credits left satisfy [Ψ] on return and [E] on a panic. *)
From Verif Require Export AccessSpec Ghost MParMerge.
From stdpp Require Import list.

Local Transparent bind on_unwind relocate focus with_asks.
Local Arguments bind {T Q R A B} !p f.
Local Arguments on_unwind {T Q R A} c !p.
Local Arguments relocate {T Q R A} f !p.

(** The credits left by a finished task. *)
Definition left_over {A} (Ψ : A → nat → Prop) (E : nat → Prop) (r : A + exn) (b : nat) : Prop :=
  match r with inl a => Ψ a b | inr _ => E b end.

Section pays.
  Context {T Q R : Type} (K : nat).
  Notation P A := (prog T Q R A).

  Fixpoint pays {A} (p : P A) (Ψ : A → nat → Prop) (E : nat → Prop) (b : nat) : Prop :=
    match p with
    | Ret a => Ψ a b
    | Throw _ => E b
    | Read i f => 0 < b ∧ ∀ x, pays (f x) Ψ E (b - 1)
    | Write i x f => 0 < b ∧ pays f Ψ E (b - 1)
    | Ask q f => ∀ r, pays (f r) Ψ E (b + K)
    | Par p1 p2 f => ∃ b1 b2 Ψ1 E1 Ψ2 E2, b1 + b2 ≤ b ∧ pays p1 Ψ1 E1 b1 ∧
        pays p2 Ψ2 E2 b2 ∧
        ∀ x y c1 c2, left_over Ψ1 E1 x c1 → left_over Ψ2 E2 y c2 →
          pays (f x y) Ψ E (b - b1 - b2 + c1 + c2)
    | Undef | NoFuel => True
    end.

  Lemma pays_mono {A} (p : P A) (Ψ Ψ' : A → nat → Prop) (E E' : nat → Prop) b :
    pays p Ψ E b → (∀ a c, Ψ a c → Ψ' a c) → (∀ c, E c → E' c) → pays p Ψ' E' b.
  Proof.
    revert b.
    induction p as [A a|A e|A i f IH|A i x f IH|A q f IH|A B' C p1 IH1 p2 IH2 f IH| |];
      intros b Hp HΨ HE; simpl in *; eauto.
    - destruct Hp as [? Hp]. eauto.
    - destruct Hp as [? Hp]. eauto.
    - destruct Hp as (b1 & b2 & Ψ1 & E1 & Ψ2 & E2 & Hs & H1 & H2 & H3).
      exists b1, b2, Ψ1, E1, Ψ2, E2. repeat (split; [done|]). intros x y c1 c2 Hx Hy. eauto.
  Qed.
  (** More credits. *)
  Lemma pays_more {A} (p : P A) (Ψ Ψ' : A → nat → Prop) (E E' : nat → Prop) b d b' :
    pays p Ψ E b → b + d ≤ b' → (∀ a c c', Ψ a c → c + d ≤ c' → Ψ' a c') →
    (∀ c c', E c → c + d ≤ c' → E' c') → pays p Ψ' E' b'.
  Proof.
    revert b b'.
    induction p as [A a|A e|A i f IH|A i x f IH|A q f IH|A B' C p1 IH1 p2 IH2 f IH| |];
      intros b b' Hp Hb HΨ HE; simpl in *; eauto.
    - destruct Hp as [? Hp]. split; [lia|]. intros x. eapply IH; [apply Hp|lia|done|done].
    - destruct Hp as [? Hp]. split; [lia|]. eapply IH; [apply Hp|lia|done|done].
    - intros r. eapply IH; [apply Hp|lia|done|done].
    - destruct Hp as (b1 & b2 & Ψ1 & E1 & Ψ2 & E2 & Hs & H1 & H2 & H3).
      exists b1, b2, Ψ1, E1, Ψ2, E2. split; [lia|]. repeat (split; [done|]).
      intros x y c1 c2 Hx Hy. eapply IH; [eapply H3; eauto|lia|done|done].
  Qed.
  Lemma pays_bind {A A'} (p : P A) (f : A → P A') Ψ E b :
    pays p (λ a b', pays (f a) Ψ E b') E b → pays (bind p f) Ψ E b.
  Proof.
    revert A' f Ψ E b.
    induction p as [A a|A e|A i g IH|A i x g IH|A q g IH|A B' C p1 IH1 p2 IH2 g IH| |];
      intros A' f Ψ E b Hp; simpl in *; eauto.
    - destruct Hp as [? Hp]. eauto.
    - destruct Hp as [? Hp]. eauto.
    - destruct Hp as (b1 & b2 & Ψ1 & E1 & Ψ2 & E2 & Hs & H1 & H2 & H3).
      exists b1, b2, Ψ1, E1, Ψ2, E2. repeat (split; [done|]). intros x y c1 c2 Hx Hy. eauto.
  Qed.
  Lemma pays_on_unwind {A} cl (p : P A) Ψ E b :
    pays p Ψ (λ b', pays cl (λ _, E) E b') b → pays (on_unwind cl p) Ψ E b.
  Proof.
    revert Ψ E b.
    induction p as [A a|A e|A i g IH|A i x g IH|A q g IH|A B' C p1 IH1 p2 IH2 g IH| |];
      intros Ψ E b Hp; simpl in *; eauto.
    - by apply pays_bind.
    - destruct Hp as [? Hp]. eauto.
    - destruct Hp as [? Hp]. eauto.
    - destruct Hp as (b1 & b2 & Ψ1 & E1 & Ψ2 & E2 & Hs & H1 & H2 & H3).
      exists b1, b2, Ψ1, E1, Ψ2, E2. repeat (split; [done|]). intros x y c1 c2 Hx Hy. eauto.
  Qed.
  Lemma pays_relocate {A} g (p : P A) Ψ E b : pays p Ψ E b → pays (relocate g p) Ψ E b.
  Proof.
    revert Ψ E b.
    induction p as [A a|A e|A i f IH|A i x f IH|A q f IH|A B' C p1 IH1 p2 IH2 f IH| |];
      intros Ψ E b Hp; simpl in *; eauto.
    - destruct Hp as [? Hp]. eauto.
    - destruct Hp as [? Hp]. eauto.
    - destruct Hp as (b1 & b2 & Ψ1 & E1 & Ψ2 & E2 & Hs & H1 & H2 & H3).
      exists b1, b2, Ψ1, E1, Ψ2, E2. split; [done|]. split; [by apply IH1|].
      split; [by apply IH2|]. intros x y c1 c2 Hx Hy. eauto.
  Qed.
  Lemma pays_ret {A} (a : A) (Ψ : A → nat → Prop) E b : Ψ a b → pays (Ret a) Ψ E b.
  Proof. done. Qed.
  Lemma pays_throw {A} e (Ψ : A → nat → Prop) (E : nat → Prop) b : E b → pays (Throw e) Ψ E b.
  Proof. done. Qed.
  Lemma pays_undef {A} (Ψ : A → nat → Prop) E b : pays Undef Ψ E b.
  Proof. done. Qed.
  Lemma pays_nofuel {A} (Ψ : A → nat → Prop) E b : pays NoFuel Ψ E b.
  Proof. done. Qed.
  Lemma pays_ask {A} q (f : R → P A) Ψ E b : (∀ r, pays (f r) Ψ E (b + K)) → pays (Ask q f) Ψ E b.
  Proof. done. Qed.
  Lemma pays_read {A} i (f : T → P A) Ψ E b :
    0 < b → (∀ x, pays (f x) Ψ E (b - 1)) → pays (Read i f) Ψ E b.
  Proof. done. Qed.
  Lemma pays_write {A} i x (f : P A) Ψ E b :
    0 < b → pays f Ψ E (b - 1) → pays (Write i x f) Ψ E b.
  Proof. done. Qed.
  Lemma pays_par {A B C} (p1 : P B) (p2 : P C) (f : B + exn → C + exn → P A) Ψ E
      b1 b2 Ψ1 E1 Ψ2 E2 b :
    b1 + b2 ≤ b → pays p1 Ψ1 E1 b1 → pays p2 Ψ2 E2 b2 →
    (∀ x y c1 c2, left_over Ψ1 E1 x c1 → left_over Ψ2 E2 y c2 →
       pays (f x y) Ψ E (b - b1 - b2 + c1 + c2)) →
    pays (Par p1 p2 f) Ψ E b.
  Proof. intros. exists b1, b2, Ψ1, E1, Ψ2, E2. auto. Qed.
  Lemma pays_join {B C} (p1 : P B) (p2 : P C) (Ψ : B * C → nat → Prop) (E : nat → Prop)
      b1 b2 Ψ1 E1 Ψ2 E2 b :
    b1 + b2 ≤ b → pays p1 Ψ1 E1 b1 → pays p2 Ψ2 E2 b2 →
    (∀ x y c1 c2, Ψ1 x c1 → Ψ2 y c2 → Ψ (x, y) (b - b1 - b2 + c1 + c2)) →
    (∀ c, b ≤ c + b1 + b2 → E c) →
    pays (rayon_join p1 p2) Ψ E b.
  Proof.
    intros Hb H1 H2 HΨ HE. unfold rayon_join. eapply pays_par; [exact Hb|exact H1|exact H2|].
    intros [x|e] [y|e'] c1 c2 Hx Hy; simpl in *; [auto|apply HE; lia..].
  Qed.

  (** ** Soundness: runs. *)
  Lemma pays_run {S A} (o : S → Q → R * S) (p : P A) Ψ E b s tr l :
    pays p Ψ E b →
    let '(r, (s', tr'), l') := run (logged o) p (s, tr) l in
    run o p s l = (r, s', l') ∧
    accesses o p s l + K * length tr ≤ b + K * length tr' ∧
    match arm_result r with
    | Some r => ∃ c, left_over Ψ E r c ∧ accesses o p s l + c + K * length tr ≤ b + K * length tr'
    | None => True
    end.
  Proof.
    revert Ψ E b s tr l.
    induction p as [A a|A e|A i g IH|A i x g IH|A q g IH|A B' C p1 IH1 p2 IH2 g IH| |];
      intros Ψ E b s tr l Hp; cbn [run accesses].
    - simpl. repeat split; [lia|]. exists b. split; [done|lia].
    - simpl. repeat split; [lia|]. exists b. split; [done|lia].
    - simpl in Hp. destruct Hp as [Hb Hp]. destruct (l !! i) as [x|]; [|repeat split; simpl; lia].
      specialize (IH x _ _ _ s tr l (Hp x)).
      destruct (run (logged o) (g x) (s, tr) l) as [[r [s' tr']] l'].
      destruct IH as (H1 & H2 & H3). split; [done|]. split; [lia|].
      destruct (arm_result r); [|done]. destruct H3 as (d & ? & ?). exists d. split; [done|lia].
    - simpl in Hp. destruct Hp as [Hb Hp]. case_decide; [|repeat split; simpl; lia].
      specialize (IH _ _ _ s tr (<[i:=x]> l) Hp).
      destruct (run (logged o) g (s, tr) (<[i:=x]> l)) as [[r [s' tr']] l'].
      destruct IH as (H1 & H2 & H3). split; [done|]. split; [lia|].
      destruct (arm_result r); [|done]. destruct H3 as (d & ? & ?). exists d. split; [done|lia].
    - simpl in Hp. unfold logged at 1. simpl. destruct (o s q) as [r0 s0] eqn:Ho. simpl.
      specialize (IH r0 _ _ _ s0 (tr ++ [(q, r0)]) l (Hp r0)).
      destruct (run (logged o) (g r0) (s0, tr ++ [(q, r0)]) l) as [[r [s' tr']] l'].
      rewrite app_length in IH. simpl in IH.
      destruct IH as (H1 & H2 & H3). split; [done|]. split; [lia|].
      destruct (arm_result r); [|done]. destruct H3 as (d & ? & ?). exists d. split; [done|lia].
    - simpl in Hp. destruct Hp as (b1 & b2 & Ψ1 & E1 & Ψ2 & E2 & Hs & H1 & H2 & H3).
      specialize (IH1 _ _ _ s tr l H1).
      destruct (run (logged o) p1 (s, tr) l) as [[r1 [s1 tr1]] l1].
      destruct IH1 as (Hr1 & Ha1 & Hl1). rewrite Hr1.
      specialize (IH2 _ _ _ s1 tr1 l1 H2).
      destruct r1 as [x1|e1| |]; simpl in *; try (split; [done|]; split; [|done]; lia).
      + destruct (run (logged o) p2 (s1, tr1) l1) as [[r2 [s2 tr2]] l2].
        destruct IH2 as (Hr2 & Ha2 & Hl2). rewrite Hr2.
        destruct Hl1 as (c1 & Hc1 & Hl1).
        destruct r2 as [x2|e2| |]; simpl in *; try (split; [done|]; split; [|done]; lia);
          destruct Hl2 as (c2 & Hc2 & Hl2).
        * specialize (IH (inl x1) (inl x2) _ _ _ s2 tr2 l2 (H3 (inl x1) (inl x2) _ _ Hc1 Hc2)).
          destruct (run (logged o) (g (inl x1) (inl x2)) (s2, tr2) l2) as [[r [s' tr']] l'].
          destruct IH as (G1 & G2 & G3). split; [done|]. split; [lia|].
          destruct (arm_result r); [|done]. destruct G3 as (d & ? & ?). exists d. split; [done|lia].
        * specialize (IH (inl x1) (inr e2) _ _ _ s2 tr2 l2 (H3 (inl x1) (inr e2) _ _ Hc1 Hc2)).
          destruct (run (logged o) (g (inl x1) (inr e2)) (s2, tr2) l2) as [[r [s' tr']] l'].
          destruct IH as (G1 & G2 & G3). split; [done|]. split; [lia|].
          destruct (arm_result r); [|done]. destruct G3 as (d & ? & ?). exists d. split; [done|lia].
      + destruct (run (logged o) p2 (s1, tr1) l1) as [[r2 [s2 tr2]] l2].
        destruct IH2 as (Hr2 & Ha2 & Hl2). rewrite Hr2.
        destruct Hl1 as (c1 & Hc1 & Hl1).
        destruct r2 as [x2|e2| |]; simpl in *; try (split; [done|]; split; [|done]; lia);
          destruct Hl2 as (c2 & Hc2 & Hl2).
        * specialize (IH (inr e1) (inl x2) _ _ _ s2 tr2 l2 (H3 (inr e1) (inl x2) _ _ Hc1 Hc2)).
          destruct (run (logged o) (g (inr e1) (inl x2)) (s2, tr2) l2) as [[r [s' tr']] l'].
          destruct IH as (G1 & G2 & G3). split; [done|]. split; [lia|].
          destruct (arm_result r); [|done]. destruct G3 as (d & ? & ?). exists d. split; [done|lia].
        * specialize (IH (inr e1) (inr e2) _ _ _ s2 tr2 l2 (H3 (inr e1) (inr e2) _ _ Hc1 Hc2)).
          destruct (run (logged o) (g (inr e1) (inr e2)) (s2, tr2) l2) as [[r [s' tr']] l'].
          destruct IH as (G1 & G2 & G3). split; [done|]. split; [lia|].
          destruct (arm_result r); [|done]. destruct G3 as (d & ? & ?). exists d. split; [done|lia].
      + destruct (run o p2 s1 l1) as [[? ?] ?]. split; [done|]. split; [|done]. lia.
      + destruct (run o p2 s1 l1) as [[? ?] ?]. split; [done|]. split; [|done]. lia.
    - simpl. repeat split; lia.
    - simpl. repeat split; lia.
  Qed.

  (** ** Soundness: schedules. *)
  Lemma pays_call {A} (ans : Q → R → Prop) (p p' : P A) Ψ E b :
    call_step ans p p' → pays p Ψ E b → pays p' Ψ E (b + K).
  Proof.
    revert p' Ψ E b.
    induction p as [A a|A e|A i g IH|A i x g IH|A q g IH|A B' C p1 IH1 p2 IH2 g IH| |];
      intros p' Ψ E b Hs Hp; simpl in *; try done.
    - by destruct Hs as (r & _ & ->).
    - destruct Hp as (b1 & b2 & Ψ1 & E1 & Ψ2 & E2 & Hb & H1 & H2 & H3).
      destruct Hs as [(p1' & Hs & ->)|(p2' & Hs & ->)].
      + eapply (pays_par _ _ _ _ _ (b1 + K) b2); eauto; [lia|];
          intros x y c1 c2 Hx Hy; replace (b + K - (b1 + K) - b2) with (b - b1 - b2) by lia; auto.
      + eapply (pays_par _ _ _ _ _ b1 (b2 + K)); eauto; [lia|];
          intros x y c1 c2 Hx Hy; replace (b + K - b1 - (b2 + K)) with (b - b1 - b2) by lia; auto.
  Qed.
  Lemma pays_result {A} (p : P A) Ψ E b r : pays p Ψ E b → result p = Some r → left_over Ψ E r b.
  Proof. destruct p; simpl; intros Hc Hr; try done; by injection Hr as <-. Qed.
  Definition price (act : action T) : nat := match act with Tau => 0 | _ => 1 end.
  Lemma pays_step {A} (p p' : P A) act Ψ E b :
    step (λ _ _, False) p act p' → pays p Ψ E b → price act ≤ b ∧ pays p' Ψ E (b - price act).
  Proof.
    revert p' Ψ E b.
    induction p as [A a|A e|A i g IH|A i x g IH|A q g IH|A B' C p1 IH1 p2 IH2 g IH| |];
      intros p' Ψ E b Hs Hp; simpl in *; try done.
    - destruct Hs as (x & -> & ->), Hp. auto.
    - destruct Hs as (-> & ->), Hp. auto.
    - by destruct Hs as (r & [] & _).
    - destruct Hp as (b1 & b2 & Ψ1 & E1 & Ψ2 & E2 & Hb & H1 & H2 & H3).
      destruct Hs as [(p1' & Hs & ->)|[(p2' & Hs & ->)|(x & y & Hx & Hy & -> & ->)]].
      + destruct (IH1 _ _ _ _ Hs H1). split; [lia|].
        eapply (pays_par _ _ _ _ _ (b1 - price act) b2); eauto; [lia|];
          intros x y c1 c2 Hx Hy; replace (b - price act - (b1 - price act) - b2) with (b - b1 - b2) by lia; auto.
      + destruct (IH2 _ _ _ _ Hs H2). split; [lia|].
        eapply (pays_par _ _ _ _ _ b1 (b2 - price act)); eauto; [lia|];
          intros x y c1 c2 Hx Hy; replace (b - price act - b1 - (b2 - price act)) with (b - b1 - b2) by lia; auto.
      + split; [simpl; lia|]. simpl.
        replace (b - 0) with (b - b1 - b2 + b1 + b2) by lia.
        apply H3; eapply pays_result; eauto.
  Qed.
  Lemma pays_schedule {A} (ans : Q → R → Prop) (p : P A) Ψ E b l a m c :
    schedule_counts ans a m (p, l) c → pays p Ψ E b → a ≤ b + K * m.
  Proof.
    intros Hs. remember (p, l) as c0 eqn:Hc. revert p l b Hc.
    induction Hs as [|? ? ? ? ? ? Hc ? IH|? ? ? ? ? ? ? ? Hc ? ? IH|? ? ? ? ? ? ? ? Hc ? ? IH|? ? ? ? ? ? Hc ? IH];
      intros p0 l0 b Heq Hp; [lia|injection Heq as -> ->..].
    - specialize (IH _ _ _ eq_refl (pays_call _ _ _ _ _ _ Hc Hp)). lia.
    - destruct (pays_step _ _ _ _ _ _ Hc Hp) as [? Hp']. simpl in *.
      specialize (IH _ _ _ eq_refl Hp'). lia.
    - destruct (pays_step _ _ _ _ _ _ Hc Hp) as [? Hp']. simpl in *.
      specialize (IH _ _ _ eq_refl Hp'). lia.
    - destruct (pays_step _ _ _ _ _ _ Hc Hp) as [? Hp']. simpl in *.
      specialize (IH _ _ _ eq_refl Hp'). lia.
  Qed.
End pays.

(** ** The primitives. *)
Section prims.
  Context {T Q R : Type} (K : nat).
  Notation P A := (prog T Q R A).

  Lemma pays_uget n i (Ψ : T → nat → Prop) E b :
    0 < b → (∀ x, Ψ x (b - 1)) → pays K (uget n i : P T) Ψ E b.
  Proof. intros. unfold uget. destruct (i <? n); simpl; auto. Qed.
  Lemma pays_get n i (Ψ : T → nat → Prop) (E : nat → Prop) b :
    0 < b → (∀ x, Ψ x (b - 1)) → E b → pays K (get n i : P T) Ψ E b.
  Proof. intros. unfold get. destruct (i <? n); simpl; auto. Qed.
  Lemma pays_uput n i x (Ψ : unit → nat → Prop) E b :
    0 < b → Ψ tt (b - 1) → pays K (uput n i x : P unit) Ψ E b.
  Proof. intros. unfold uput. destruct (i <? n); simpl; auto. Qed.
  Lemma pays_put n i x (Ψ : unit → nat → Prop) (E : nat → Prop) b :
    0 < b → Ψ tt (b - 1) → E b → pays K (put n i x : P unit) Ψ E b.
  Proof. intros. unfold put. destruct (i <? n); simpl; auto. Qed.
  Lemma pays_uswap n i j (Ψ : unit → nat → Prop) E b :
    4 ≤ b → Ψ tt (b - 4) → pays K (uswap n i j : P unit) Ψ E b.
  Proof.
    intros. unfold uswap.
    apply pays_bind, pays_uget; [lia|]. intros x. apply pays_bind, pays_uget; [lia|]. intros y.
    apply pays_bind, pays_uput; [lia|]. apply pays_uput; [lia|].
    by replace (b - 1 - 1 - 1 - 1) with (b - 4) by lia.
  Qed.
  Lemma pays_swap n i j (Ψ : unit → nat → Prop) (E : nat → Prop) b :
    4 ≤ b → Ψ tt (b - 4) → E b → pays K (swap n i j : P unit) Ψ E b.
  Proof. intros. unfold swap. destruct (_ && _); [by apply pays_uswap|done]. Qed.
  Lemma pays_focus {A} off (p : P A) Ψ E b : pays K p Ψ E b → pays K (focus off p) Ψ E b.
  Proof. apply pays_relocate. Qed.
  Lemma pays_slice {A} n i j (p : nat → P A) Ψ (E : nat → Prop) b :
    (i ≤ j → j ≤ n → pays K (p (j - i)) Ψ E b) → E b → pays K (slice n i j p) Ψ E b.
  Proof.
    intros Hp HE. unfold slice. destruct (Nat.leb_spec i j), (Nat.leb_spec j n); simpl; try done.
    apply pays_focus. auto.
  Qed.
  Lemma pays_usub i j (Ψ : nat → nat → Prop) (E : nat → Prop) b :
    (j ≤ i → Ψ (i - j) b) → E b → pays K (usub i j : P nat) Ψ E b.
  Proof. intros. unfold usub. destruct (Nat.leb_spec j i); simpl; auto. Qed.
  Lemma pays_width i j (Ψ : nat → nat → Prop) (E : nat → Prop) b :
    (i ≤ j → Ψ (j - i) b) → E b → pays K (width i j : P nat) Ψ E b.
  Proof. apply pays_usub. Qed.
  Lemma pays_nonoverlapping i j (Ψ : unit → nat → Prop) (E : nat → Prop) b :
    Ψ tt b → pays K (nonoverlapping i j : P unit) Ψ E b.
  Proof. intros. unfold nonoverlapping. by destruct (_ =? _). Qed.
  Lemma pays_nonoverlapping_if (t : bool) i j (Ψ : unit → nat → Prop) (E : nat → Prop) b :
    Ψ tt b → pays K (if t then nonoverlapping i j else Ret tt : P unit) Ψ E b.
  Proof. intros. destruct t; [by apply pays_nonoverlapping|by apply pays_ret]. Qed.
  Lemma pays_dassert c t (Ψ : unit → nat → Prop) (E : nat → Prop) b :
    Ψ tt b → E b → pays K (dassert c t : P unit) Ψ E b.
  Proof. intros. unfold dassert. by destruct (_ && _). Qed.
  Lemma pays_assert t (Ψ : unit → nat → Prop) (E : nat → Prop) b :
    (t = true → Ψ tt b) → E b → pays K (assert t : P unit) Ψ E b.
  Proof. intros. unfold assert. destruct t; simpl; auto. Qed.

  (** Loops: an invariant of the counter and the credits. *)
  Lemma pays_for_up a cnt (body : nat → P unit) (I : nat → nat → Prop) (E : nat → Prop) b :
    I 0 b → (∀ i b, i < cnt → I i b → pays K (body (a + i)) (λ _, I (S i)) E b) →
    pays K (for_up a cnt body) (λ _, I cnt) E b.
  Proof.
    revert a b I. induction cnt as [|k IH]; intros a b I HI Hbody; [done|].
    cbn [for_up]. apply pays_bind.
    eapply pays_mono; [replace a with (a + 0) by lia; apply Hbody; [lia|exact HI]| |auto].
    simpl. intros _ b' Hb. apply (IH (S a) b' (λ i, I (S i))); [done|].
    intros i b0 Hi Hb0. replace (S a + i) with (a + S i) by lia. apply Hbody; [lia|done].
  Qed.
  Lemma pays_for_down a cnt (body : nat → P unit) (I : nat → nat → Prop) (E : nat → Prop) b :
    I cnt b → (∀ i b, i < cnt → I (S i) b → pays K (body (a + i)) (λ _, I i) E b) →
    pays K (for_down a cnt body) (λ _, I 0) E b.
  Proof.
    revert b. induction cnt as [|k IH]; intros b HI Hbody; [done|].
    cbn [for_down]. apply pays_bind.
    eapply pays_mono; [apply Hbody; [lia|exact HI]| |auto].
    simpl. intros _ b' Hb. apply IH; [done|]. intros i b0 Hi. apply Hbody. lia.
  Qed.
End prims.

Lemma pays_is_less {T} K (x y : T) (Ψ : bool → nat → Prop) (E : nat → Prop) b :
  (∀ r, Ψ r (b + K)) → E (b + K) → pays K (is_less x y) Ψ E b.
Proof. intros HΨ HE [[]|]; simpl; auto. Qed.

(** A wrapper closure that calls the user's closure. *)
Section wrapper.
  Context {T Q R Q' R' : Type} (K : nat) (h : Q → prog T Q' R' R).
  Definition free : nat → Prop := λ _, True.

  Lemma pays_with_asks {A} (p : prog T Q R A) b :
    (∀ q (Ψ : R → nat → Prop) E b, (∀ r b', b + K ≤ b' → Ψ r b') → pays K (h q) Ψ E b) →
    ∀ (Ψ Ψ' : A → nat → Prop) (E E' : nat → Prop), 
    (∀ a c c', Ψ a c → c ≤ c' → Ψ' a c') → (∀ c c', E c → c ≤ c' → E' c') →
    ∀ b', b ≤ b' → pays K p Ψ E b → pays K (with_asks h p) Ψ' E' b'.
  Proof.
    intros Hh. revert b.
    induction p as [A a|A e|A i g IH|A i x g IH|A q g IH|A B' C p1 IH1 p2 IH2 g IH| |];
      intros b Ψ Ψ' E E' HΨ HE b' Hb Hp; simpl in *; eauto.
    - destruct Hp as [? Hp]. split; [lia|]. intros x. eapply IH; [exact HΨ|exact HE| |apply Hp]. lia.
    - destruct Hp as [? Hp]. split; [lia|]. eapply IH; [exact HΨ|exact HE| |apply Hp]. lia.
    - apply pays_bind, Hh. intros r c Hc. eapply IH; [exact HΨ|exact HE| |apply Hp]. lia.
    - destruct Hp as (b1 & b2 & Ψ1 & E1 & Ψ2 & E2 & Hs & H1 & H2 & H3).
      exists b1, b2, (λ a c, ∃ c0, c0 ≤ c ∧ Ψ1 a c0), (λ c, ∃ c0, c0 ≤ c ∧ E1 c0),
        (λ a c, ∃ c0, c0 ≤ c ∧ Ψ2 a c0), (λ c, ∃ c0, c0 ≤ c ∧ E2 c0).
      split; [lia|]. split; [|split].
      + eapply IH1; [| | |exact H1]; [| |lia]; simpl; eauto.
      + eapply IH2; [| | |exact H2]; [| |lia]; simpl; eauto.
      + intros x y c1 c2 Hx Hy.
        assert (∃ d1, d1 ≤ c1 ∧ left_over Ψ1 E1 x d1) as (d1 & ? & Hx') by (by destruct x).
        assert (∃ d2, d2 ≤ c2 ∧ left_over Ψ2 E2 y d2) as (d2 & ? & Hy') by (by destruct y).
        eapply IH; [exact HΨ|exact HE| |by eapply H3]. lia.
  Qed.
End wrapper.

Global Opaque pays.
