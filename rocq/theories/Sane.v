(** * Sane: runs in which no task panics badly, and programs that compute with words.

    [wp] (Prog.v) forgets the panic of the right task of [rayon::join] where both tasks
    panic.  [sane] is [wp] with the condition that no task at all panics badly, i.e. by an
    index out of bounds or by an overflow.  [treads φ p q] is [tracks φ p q] (Word.v) also
    for the tasks of [Par]: [p] does the same as [q] unless [q] ends badly.  A program [p]
    that treads a sane [q] behaves as [q], in every schedule. *)
From Verif Require Export Word Interleave Subst Polite MPar.
From stdpp Require Import list relations.
From Coq Require Import NArith.

Local Transparent wp bind on_unwind relocate focus fp.
Local Arguments wp {T Q R A} ans !p Φ E l.
Local Arguments bind {T Q R A B} !p f.
Local Arguments relocate {T Q R A} f !p.
Local Arguments with_asks {T Q R Q' R'} h {A} !p.

Section sane.
  Context {T Q R : Type}.
  Notation P A := (prog T Q R A).

  Fixpoint sane {A} (ans : Q → R → Prop) (p : P A)
    (Φ : A → list T → Prop) (E : exn → list T → Prop) (l : list T) {struct p} : Prop :=
    match p with
    | Ret a => Φ a l
    | Throw e => ¬ bad e ∧ E e l
    | Read i k => match l !! i with Some x => sane ans (k x) Φ E l | None => False end
    | Write i x k => i < length l ∧ sane ans k Φ E (<[i:=x]> l)
    | Ask q k => ∀ r, ans q r → sane ans (k r) Φ E l
    | Par p1 p2 k =>
        sane ans p1
          (λ b l1, sane ans p2 (λ c l2, sane ans (k (inl b) (inl c)) Φ E l2)
                               (λ e l2, sane ans (k (inl b) (inr e)) Φ E l2) l1)
          (λ e1 l1, sane ans p2 (λ c l2, sane ans (k (inr e1) (inl c)) Φ E l2)
                                (λ e l2, sane ans (k (inr e1) (inr e)) Φ E l2) l1) l
    | Undef => False
    | NoFuel => False
    end.

  (** ** Rules *)
  Lemma sane_mono {A} (ans : Q → R → Prop) (p : P A) :
    ∀ (Φ Φ' : A → list T → Prop) (E E' : exn → list T → Prop) l,
    sane ans p Φ E l →
    (∀ a l', length l' = length l → Φ a l' → Φ' a l') →
    (∀ e l', length l' = length l → E e l' → E' e l') →
    sane ans p Φ' E' l.
  Proof.
    induction p as [A a|A e|A i k IH|A i x k IH|A q k IH|A B C p1 IH1 p2 IH2 k IH| |];
      intros Φ Φ' E E' l H HΦ HE; simpl in *; auto.
    - destruct H. auto.
    - destruct (l !! i) as [x|]; [|done]. eauto.
    - destruct H as [Hi H]. split; [done|].
      eapply IH; [exact H| |]; intros ? ? Hl; [apply HΦ|apply HE]; by rewrite insert_length in Hl.
    - intros r Hr. eauto.
    - eapply IH1; [exact H| |]; simpl; intros b l1 Hl1 H2;
        (eapply IH2; [exact H2| |]; simpl; intros c l2 Hl2 Hk;
         (eapply IH; [exact Hk| |]; intros ? ? Hl; [apply HΦ|apply HE]; congruence)).
  Qed.
  Lemma sane_wp {A} ans (p : P A) : ∀ Φ E l, sane ans p Φ E l → wp ans p Φ E l.
  Proof.
    induction p as [A a|A e|A i k IH|A i x k IH|A q k IH|A B C p1 IH1 p2 IH2 k IH| |];
      intros Φ E l H; simpl in *; auto.
    - by destruct H.
    - destruct (l !! i); auto.
    - destruct H. auto.
    - eapply wp_mono; [apply IH1, H| |]; simpl; intros b l1 _ H2;
        (eapply wp_mono; [apply IH2, H2| |]; simpl; auto).
  Qed.
  (** What [wp] says about a sane program. *)
  Lemma sane_both {A} ans (p : P A) : ∀ (Φ1 Φ2 : A → list T → Prop) (E1 E2 : exn → list T → Prop) l,
    sane ans p Φ1 E1 l → wp ans p Φ2 E2 l →
    sane ans p (λ a l', Φ1 a l' ∧ Φ2 a l') (λ e l', E1 e l' ∧ E2 e l') l.
  Proof.
    induction p as [A a|A e|A i k IH|A i x k IH|A q k IH|A B C p1 IH1 p2 IH2 k IH| |];
      intros Φ1 Φ2 E1 E2 l H1 H2; simpl in *; auto.
    - destruct H1. auto.
    - destruct (l !! i) as [x|]; [|done]. eauto.
    - destruct H1, H2. split; [done|]. eauto.
    - eapply sane_mono; [eapply IH1; [exact H1|exact H2]| |]; simpl; intros b l1 Hl1 [G1 G2];
        (eapply sane_mono; [eapply IH2; [exact G1|exact G2]| |]; simpl;
         intros c l2 Hl2 [? ?]; eapply IH; eauto).
  Qed.
  Lemma sane_bind {A B} ans (p : P A) (f : A → P B) :
    ∀ Φ E l, sane ans p (λ a l', sane ans (f a) Φ E l') E l → sane ans (bind p f) Φ E l.
  Proof.
    revert B f.
    induction p as [A a|A e|A i k IH|A i x k IH|A q k IH|A B C p1 IH1 p2 IH2 k IH| |];
      intros B' f Φ E l H; simpl in *; auto.
    - destruct (l !! i) as [x|]; [|done]. eauto.
    - destruct H. split; [done|]. eauto.
    - eapply sane_mono; [exact H| |]; simpl; intros b l1 Hl1 H2;
        (eapply sane_mono; [exact H2| |]; simpl; intros c l2 Hl2 Hk; eauto).
  Qed.
  Lemma sane_focus_app {A} ans (p : P A) pre post :
    ∀ (Φ : A → list T → Prop) (E : exn → list T → Prop) m,
    sane ans p (λ a m', length m' = length m → Φ a (pre ++ m' ++ post))
             (λ e m', length m' = length m → E e (pre ++ m' ++ post)) m →
    sane ans (focus (length pre) p) Φ E (pre ++ m ++ post).
  Proof.
    unfold focus.
    induction p as [A a|A e|A i k IH|A i x k IH|A q k IH|A B C p1 IH1 p2 IH2 k IH| |];
      intros Φ E m H; simpl in *; auto.
    - destruct H. auto.
    - destruct (m !! i) as [x|] eqn:Hi; [|done].
      assert (Hlt : i < length m) by (by eapply lookup_lt_Some).
      rewrite lookup_app_r by lia. replace (length pre + i - length pre) with i by lia.
      rewrite lookup_app_l, Hi by lia. auto.
    - destruct H as [Hi H]. rewrite !app_length. split; [lia|].
      rewrite insert_app_r, insert_app_l by lia. apply IH.
      eapply sane_mono; [exact H| |]; intros ? ? _ Hk ?; apply Hk; by rewrite insert_length in *.
    - apply IH1. eapply sane_mono; [exact H| |]; simpl; intros b m1 Hm1 H2 _;
        (apply IH2; eapply sane_mono; [exact H2| |]; simpl; intros d m2 Hm2 Hk _;
         (apply IH; eapply sane_mono; [exact Hk| |]; simpl; intros ? m3 _ Hf Hm3; apply Hf; congruence)).
  Qed.
  Lemma sane_slice_app {A} ans n a b (p : nat → P A) (Φ : A → list T → Prop) (Ex : exn → list T → Prop) l1 l2 l3 :
    a = length l1 → b = a + length l2 → b ≤ n →
    sane ans (p (length l2))
      (λ r m, length m = length l2 → Φ r (l1 ++ m ++ l3))
      (λ e m, length m = length l2 → Ex e (l1 ++ m ++ l3)) l2 →
    sane ans (slice n a b p) Φ Ex (l1 ++ l2 ++ l3).
  Proof.
    intros -> -> Hbn H. unfold slice.
    rewrite (proj2 (Nat.leb_le _ _)), (proj2 (Nat.leb_le _ n) Hbn) by lia. simpl.
    replace (length l1 + length l2 - length l1) with (length l2) by lia. by apply sane_focus_app.
  Qed.
  (** A view of the array, of whose elements nothing is said. *)
  Lemma sane_slice {A} ans n a b (p : nat → P A) l :
    n = length l → a ≤ b → b ≤ n →
    (∀ m, length m = b - a → sane ans (p (b - a)) (λ _ _, True) (λ _ _, True) m) →
    sane ans (slice n a b p) (λ _ l', length l' = n) (λ _ l', length l' = n) l.
  Proof.
    intros Hn Ha Hb H.
    assert (Hl : l = take a l ++ take (b - a) (drop a l) ++ drop b l).
    { rewrite <-(take_drop a l) at 1. f_equal. rewrite <-(take_drop (b - a) (drop a l)) at 1. f_equal.
      rewrite drop_drop. f_equal. lia. }
    assert (H1 : length (take a l) = a) by (rewrite take_length; lia).
    assert (H2 : length (take (b - a) (drop a l)) = b - a) by (rewrite take_length, drop_length; lia).
    rewrite Hl. apply sane_slice_app; [done|lia|done|]. rewrite H2.
    eapply sane_mono; [by apply H| |]; intros ? m _ _ Hm; rewrite !app_length, drop_length; lia.
  Qed.
  Lemma sane_not_bad {A} ans (p : P A) : ∀ Φ E l,
    sane ans p Φ E l → sane ans p Φ (λ e l', ¬ bad e ∧ E e l') l.
  Proof.
    induction p as [A a|A e|A i k IH|A i x k IH|A q k IH|A B C p1 IH1 p2 IH2 k IH| |];
      intros Φ E l H; simpl in *; auto.
    - tauto.
    - destruct (l !! i); auto.
    - destruct H. auto.
    - eapply sane_mono; [exact H| |]; simpl; intros b l1 _ H2;
        (eapply sane_mono; [exact H2| |]; simpl; auto).
  Qed.
  Lemma sane_join {B C} ans (p1 : P B) (p2 : P C) Φ E l :
    sane ans p1 (λ b l1, sane ans p2 (λ c l2, Φ (b, c) l2) E l1)
                (λ e l1, sane ans p2 (λ _ l2, E e l2) (λ _ l2, E e l2) l1) l →
    sane ans (rayon_join p1 p2) Φ E l.
  Proof.
    intros H. unfold rayon_join. cbn. eapply sane_mono; [apply sane_not_bad, H| |]; cbn.
    - intros b l1 _ H2. eapply sane_mono; [apply sane_not_bad, H2| |]; cbn; auto.
    - intros e l1 _ [He H2]. eapply sane_mono; [exact H2| |]; cbn; auto.
  Qed.

  (** A program without [Par] none of whose results is a bad panic. *)
  Fixpoint alone {A} (p : P A) : Prop :=
    match p with
    | Ret _ | Throw _ | Undef | NoFuel => True
    | Read _ k => ∀ x, alone (k x)
    | Write _ _ k => alone k
    | Ask _ k => ∀ r, alone (k r)
    | Par _ _ _ => False
    end.
  Lemma sane_alone {A} ans (p : P A) : ∀ Φ E l,
    alone p → wp ans p Φ E l → (∀ e l', E e l' → ¬ bad e) → sane ans p Φ E l.
  Proof.
    induction p as [A a|A e|A i k IH|A i x k IH|A q k IH|A B C p1 IH1 p2 IH2 k IH| |];
      intros Φ E l Ha H HE; simpl in *; eauto.
    - destruct (l !! i); [|done]. eauto.
    - destruct H. eauto.
    - done.
  Qed.
  Lemma alone_bind {A B} (p : P A) (f : A → P B) : alone p → (∀ a, alone (f a)) → alone (bind p f).
  Proof.
    intros Hp Hf. induction p as [A a|A e|A i k IH|A i x k IH|A q k IH|A B' C p1 IH1 p2 IH2 k IH| |];
      simpl in *; auto.
  Qed.

  (** ** Schedules *)
  Lemma sane_frame {A} ans F (p : P A) act :
    fp F p → (∀ i, touches act i → F i → False) →
    ∀ (Φ Φ' : A → list T → Prop) (E E' : exn → list T → Prop) l l',
    effect act l l' → sane ans p Φ E l →
    (∀ a m m', effect act m m' → Φ a m → Φ' a m') →
    (∀ e m m', effect act m m' → E e m → E' e m') →
    sane ans p Φ' E' l'.
  Proof.
    intros Hfp Ht.
    assert (Hgen : ∀ G : nat → Prop, (∀ i, G i → F i) → fp G p →
      ∀ (Φ Φ' : A → list T → Prop) (E E' : exn → list T → Prop) l l',
      effect act l l' → sane ans p Φ E l →
      (∀ a m m', effect act m m' → Φ a m → Φ' a m') →
      (∀ e m m', effect act m m' → E e m → E' e m') → sane ans p Φ' E' l');
      [|by eapply Hgen].
    clear Hfp.
    induction p as [A a|A e|A i k IH|A i x k IH|A q k IH|A B C p1 IH1 p2 IH2 k IH| |];
      intros G HG Hfp Φ Φ' E E' l l' Hef Hwp HΦ HE; simpl in *; try done.
    - by eapply HΦ.
    - destruct Hwp. split; [done|]. by eapply HE.
    - destruct Hfp as [HF Hk].
      assert (l' !! i = l !! i) as ->.
      { destruct act as [|j y|j y]; simpl in *; [by subst|by destruct Hef as [_ ->]|].
        destruct Hef as [_ ->]. rewrite list_lookup_insert_ne; [done|]. intros ->. eauto. }
      destruct (l !! i); [|done]. eauto.
    - destruct Hfp as [HF Hk], Hwp as [Hi Hwp].
      split; [by rewrite (effect_length _ _ _ Hef)|].
      eapply (IH G HG Hk); [|exact Hwp|done|done].
      destruct act as [|j y|j y]; simpl in *.
      + by subst.
      + destruct Hef as [Hj ->]. split; [|done]. rewrite list_lookup_insert_ne; [done|]. intros ->. eauto.
      + destruct Hef as [Hj ->]. split; [by rewrite insert_length|].
        rewrite list_insert_commute; [done|]. intros ->. eauto.
    - intros r Hr. eapply (IH r G HG (Hfp r)); eauto.
    - destruct Hfp as [(F1 & F2 & H1 & H2 & Hd & Hp1 & Hp2) Hk].
      eapply (IH1 F1); [eauto|done|exact Hef|exact Hwp| |]; intros b m m' Hm Hwp2; simpl in *;
        (eapply (IH2 F2); [eauto|done|exact Hm|exact Hwp2| |]; intros c m2 m2' Hm2 Hk2; simpl in *;
         eapply (IH _ _ G HG); eauto).
  Qed.
  Lemma sane_result {A} ans (p : P A) r Φ E l :
    result p = Some r → sane ans p Φ E l → match r with inl a => Φ a l | inr e => E e l end.
  Proof. destruct p; simpl; intros [= <-]; tauto. Qed.
  Lemma sane_step {A} ans F (p : P A) act p' :
    fp F p → step ans p act p' → ∀ Φ E l l', effect act l l' →
    sane ans p Φ E l → sane ans p' Φ E l'.
  Proof.
    revert F act p'.
    induction p as [A a|A e|A i k IH|A i x k IH|A q k IH|A B C p1 IH1 p2 IH2 k IH| |];
      intros F act p' Hfp Hs Φ E l l' Hef Hwp; simpl in *; try done.
    - destruct Hs as (x & -> & ->). simpl in Hef. destruct Hef as [Hx ->]. by rewrite Hx in Hwp.
    - destruct Hs as (-> & ->). simpl in Hef. destruct Hef as [Hx ->]. by destruct Hwp.
    - destruct Hs as (r & Hr & -> & ->). simpl in Hef. subst. eauto.
    - destruct Hfp as [(F1 & F2 & H1 & H2 & Hd & Hp1 & Hp2) Hk].
      destruct Hs as [(p1' & Hs & ->)|[(p2' & Hs & ->)|(b & c & Hb & Hc & -> & ->)]].
      + simpl. eapply IH1; eauto.
      + simpl. eapply (sane_frame ans F1 p1 act Hp1); [|exact Hef|exact Hwp| |].
        * intros i Hi. destruct (fp_step _ _ _ _ _ Hp2 Hs) as [_ HF2]. eauto.
        * intros b m m' Hm Hwp2. simpl in *. eapply (IH2 _ _ _ Hp2 Hs); eauto.
        * intros b m m' Hm Hwp2. simpl in *. eapply (IH2 _ _ _ Hp2 Hs); eauto.
      + simpl in Hef. subst.
        apply (sane_result _ _ _ _ _ _ Hb) in Hwp. destruct b as [b|e];
          apply (sane_result _ _ _ _ _ _ Hc) in Hwp; by destruct c.
  Qed.

  (** ** [treads] *)
  Inductive treads {A : Type} (φ : A → Prop) : P A → P A → Prop :=
  | treads_ret a : φ a → treads φ (Ret a) (Ret a)
  | treads_throw e : treads φ (Throw e) (Throw e)
  | treads_read i k k' : (∀ x, treads φ (k x) (k' x)) → treads φ (Read i k) (Read i k')
  | treads_write i x k k' : treads φ k k' → treads φ (Write i x k) (Write i x k')
  | treads_ask q k k' : (∀ r, treads φ (k r) (k' r)) → treads φ (Ask q k) (Ask q k')
  | treads_par B C (ψ : B → Prop) (ξ : C → Prop) (p1 q1 : P B) (p2 q2 : P C) k k' :
      treads ψ p1 q1 → treads ξ p2 q2 →
      (∀ b d, (∀ x, b = inl x → ψ x) → (∀ y, d = inl y → ξ y) → treads φ (k b d) (k' b d)) →
      treads φ (Par p1 p2 k) (Par q1 q2 k')
  | treads_doomed p q : doomed q → treads φ p q.

  Lemma treads_refl {A} (φ : A → Prop) p : (∀ a, φ a) → treads φ p p.
  Proof.
    induction p as [| | | | |A B C p1 IH1 p2 IH2 k IH| |]; intros Hφ;
      try (constructor; auto; fail); try (apply treads_doomed; constructor; fail).
    eapply treads_par; [by apply (IH1 (λ _, True))|by apply (IH2 (λ _, True))|]. intros. by apply IH.
  Qed.
  Lemma tracks_treads {A} (φ : A → Prop) (p q : P A) : tracks φ p q → treads φ p q.
  Proof.
    intros H. induction H; try (econstructor; eauto; fail).
    eapply treads_par; [by apply (treads_refl (λ _, True))|by apply (treads_refl (λ _, True))|]. auto.
  Qed.
  Lemma treads_mono {A} (φ ψ : A → Prop) p q : treads φ p q → (∀ a, φ a → ψ a) → treads ψ p q.
  Proof. intros H. revert ψ. induction H; intros ψ' Hi; econstructor; eauto. Qed.
  Lemma treads_bind {A B} (φ : A → Prop) (ψ : B → Prop) p q (f g : A → P B) :
    treads φ p q → (∀ a, φ a → treads ψ (f a) (g a)) → treads ψ (bind p f) (bind q g).
  Proof.
    intros H Hf. induction H; cbn [bind]; [by apply Hf|try (econstructor; eauto; fail)..].
    by apply treads_doomed, doomed_bind.
  Qed.
  Lemma treads_relocate {A} (φ : A → Prop) h p q : treads φ p q → treads φ (relocate h p) (relocate h q).
  Proof.
    intros H. induction H; cbn [relocate]; try (econstructor; eauto; fail).
    by apply treads_doomed, doomed_relocate.
  Qed.
  Lemma treads_slice {A} (φ : A → Prop) n a b (p q : nat → P A) :
    (a ≤ b → b ≤ n → treads φ (p (b - a)) (q (b - a))) → treads φ (slice n a b p) (slice n a b q).
  Proof.
    intros H. unfold slice. destruct (_ && _) eqn:E; [|constructor].
    apply andb_prop in E as [?%Nat.leb_le ?%Nat.leb_le]. unfold focus. apply treads_relocate; auto.
  Qed.
  Lemma treads_join {B C} (ψ : B → Prop) (ξ : C → Prop) (p1 q1 : P B) (p2 q2 : P C) :
    treads ψ p1 q1 → treads ξ p2 q2 →
    treads (λ r, ψ r.1 ∧ ξ r.2) (rayon_join p1 p2) (rayon_join q1 q2).
  Proof.
    intros H1 H2. unfold rayon_join. eapply treads_par; [exact H1|exact H2|].
    intros [b|e] [d|e'] Hb Hd; constructor; auto.
  Qed.

  (** A sane program is not doomed. *)
  Lemma wp_inhabited {A} ans (p : P A) : (∀ q, ∃ r, ans q r) → ∀ Φ E l,
    wp ans p Φ E l → ∃ l', (∃ a, Φ a l') ∨ (∃ e, E e l').
  Proof.
    intros total.
    induction p as [A a|A e|A i k IH|A i x k IH|A q k IH|A B C p1 IH1 p2 IH2 k IH| |];
      intros Φ E l H; simpl in *; try done; eauto.
    - destruct (l !! i); [|done]. eauto.
    - destruct H. eauto.
    - destruct (total q) as [r Hr]. eauto.
    - destruct (IH1 _ _ _ H) as (l1 & [[b H1]|[e H1]]);
        destruct (IH2 _ _ _ H1) as (l2 & [[d H2]|[e' H2]]); eauto.
  Qed.
  Lemma sane_not_doomed {A} ans (p : P A) : (∀ q, ∃ r, ans q r) → doomed p → ∀ Φ E l, ¬ sane ans p Φ E l.
  Proof.
    intros total H. induction H as [e He| | |i k _ IH|i x k _ IH|q k _ IH|B C p1 p2 k _ IH];
      intros Φ E l Hs; simpl in *; try done.
    - tauto.
    - destruct (l !! i); [|done]. by eapply IH.
    - destruct Hs. by eapply IH.
    - destruct (total q) as [r Hr]. by eapply IH, Hs.
    - apply sane_wp in Hs. apply (wp_inhabited _ _ total) in Hs as (l1 & [[b H1]|[e H1]]);
        apply sane_wp in H1; apply (wp_inhabited _ _ total) in H1 as (l2 & [[d H2]|[e' H2]]);
        by eapply IH.
  Qed.

  (** A sane run of [q] is a run of [p]. *)
  Lemma treads_run {S A} (o : S → Q → R * S) φ (p q : P A) : treads φ p q → ∀ Φ E s l,
    sane (λ _ _, True) q Φ E l →
    run o p s l = run o q s l ∧
    match (run o q s l).1.1 with
    | Done a => φ a ∧ Φ a (run o q s l).2
    | Panicked e => ¬ bad e ∧ E e (run o q s l).2
    | _ => False
    end.
  Proof.
    intros H. induction H as [A φ a Ha|A φ e|A φ i k k' _ IH|A φ i x k k' _ IH|A φ qu k k' _ IH
      |A φ B C ψ ξ p1 q1 p2 q2 k k' _ IH1 _ IH2 _ IH|A φ p q Hd]; intros Φ E s l Hs; simpl in *.
    - done.
    - done.
    - destruct (l !! i); [|done]. by apply IH.
    - destruct Hs. destruct (decide _); [|done]. by apply IH.
    - destruct (o s qu). apply IH. auto.
    - destruct (IH1 _ _ s _ Hs) as [-> H1]. destruct (run o q1 s l) as [[[b|e| |] s1] l1]; simpl in *; try done.
      + destruct H1 as [Hb H1]. destruct (IH2 _ _ s1 _ H1) as [-> H2].
        destruct (run o q2 s1 l1) as [[[d|e| |] s2] l2]; simpl in *; try done; destruct H2 as [Hd H2].
        * apply IH; [intros ? [= <-]; done..|done].
        * apply IH; [intros ? [= <-]; done|done|done].
      + destruct H1 as [Hb H1]. destruct (IH2 _ _ s1 _ H1) as [-> H2].
        destruct (run o q2 s1 l1) as [[[d|e'| |] s2] l2]; simpl in *; try done; destruct H2 as [Hd H2].
        * apply IH; [done|intros ? [= <-]; done|done].
        * by apply IH.
    - exfalso. eapply (sane_not_doomed (λ _ _, True)); [|exact Hd|exact Hs].
      intros qu. destruct (o s qu) as [r _]. by exists r.
  Qed.

  Section schedules.
    Context (ans : Q → R → Prop) (total : ∀ q, ∃ r, ans q r).

    (** The tasks of a sane program are sane. *)
    Lemma sane_right {A B C} (p1 : P B) (p2 : P C) (k : _ → _ → P A) Φ E l :
      sane ans (Par p1 p2 k) Φ E l → ∃ Φ2 E2 l2, sane ans p2 Φ2 E2 l2.
    Proof.
      intros H. simpl in H. apply sane_wp in H. apply (wp_inhabited _ _ total) in H as (l1 & [[b H1]|[e H1]]); eauto.
    Qed.
    Lemma treads_result {A} (φ : A → Prop) (p q : P A) Φ E l r : treads φ p q → sane ans q Φ E l →
      result p = Some r → result q = Some r ∧ ∀ a, r = inl a → φ a.
    Proof.
      intros H Hs Hr. destruct H; simpl in *; try done.
      - split; [done|]. intros ? ->. by injection Hr as ->.
      - split; [done|]. intros ? ->. done.
      - exfalso. by eapply sane_not_doomed.
    Qed.
    Lemma treads_step {A} (φ : A → Prop) (p q p' : P A) act : treads φ p q → ∀ Φ E l,
      sane ans q Φ E l → step ans p act p' → ∃ q', step ans q act q' ∧ treads φ p' q'.
    Proof.
      intros H. revert act p'. induction H as [A φ a Ha|A φ e|A φ i k k' H _|A φ i x k k' H _|A φ qu k k' H _
        |A φ B C ψ ξ p1 q1 p2 q2 k k' H1 IH1 H2 IH2 H _|A φ p q Hd]; intros act p' Φ E l Hsn.
      - done.
      - done.
      - simpl. intros (x & -> & ->). eauto.
      - simpl. intros (-> & ->). eauto.
      - simpl. intros (r & ? & -> & ->). eauto 10.
      - destruct (sane_right _ _ _ _ _ _ Hsn) as (Φ2 & E2 & l2 & Hsn2). simpl in *.
        intros [(p1' & Hs & ->)|[(p2' & Hs & ->)|(b & d & Hb & Hd & -> & ->)]].
        + destruct (IH1 _ _ _ _ _ Hsn Hs) as (q1' & ? & ?). exists (Par q1' q2 k'). split; [eauto|].
          by eapply treads_par.
        + destruct (IH2 _ _ _ _ _ Hsn2 Hs) as (q2' & ? & ?). exists (Par q1 q2' k'). split; [eauto|].
          by eapply treads_par.
        + destruct (treads_result _ _ _ _ _ _ _ H1 Hsn Hb) as [E1 R1],
            (treads_result _ _ _ _ _ _ _ H2 Hsn2 Hd) as [E2' R2].
          exists (k' b d). split; [|by apply H].
          right. right. by exists b, d.
      - exfalso. by eapply sane_not_doomed.
    Qed.
    Lemma treads_wrong {A} (φ : A → Prop) (p q : P A) l : treads φ p q → ∀ Φ E m,
      sane ans q Φ E m → wrong p l → wrong q l.
    Proof.
      intros H. induction H as [A φ a Ha|A φ e|A φ i k k' H _|A φ i x k k' H _|A φ qu k k' H _
        |A φ B C ψ ξ p1 q1 p2 q2 k k' H1 IH1 H2 IH2 H _|A φ p q Hd]; intros Φ E m Hsn; try done.
      - destruct (sane_right _ _ _ _ _ _ Hsn) as (Φ2 & E2 & l2 & Hsn2). simpl in *.
        intros [?|?]; [left|right]; eauto.
      - exfalso. by eapply sane_not_doomed.
    Qed.
    Lemma treads_race {A} (φ : A → Prop) (p q : P A) : treads φ p q → ∀ Φ E m,
      sane ans q Φ E m → race ans p → race ans q.
    Proof.
      intros H. induction H as [A φ a Ha|A φ e|A φ i k k' H _|A φ i x k k' H _|A φ qu k k' H _
        |A φ B C ψ ξ p1 q1 p2 q2 k k' H1 IH1 H2 IH2 H _|A φ p q Hd]; intros Φ E m Hsn; try done.
      - destruct (sane_right _ _ _ _ _ _ Hsn) as (Φ2 & E2 & l2 & Hsn2). simpl in *.
        intros [?|[?|(a1 & p1' & a2 & p2' & S1 & S2 & ?)]]; [left; eauto|right; left; eauto|right; right].
        destruct (treads_step _ _ _ _ _ H1 _ _ _ Hsn S1) as (? & ? & _).
        destruct (treads_step _ _ _ _ _ H2 _ _ _ Hsn2 S2) as (? & ? & _). eauto 10.
      - exfalso. by eapply sane_not_doomed.
    Qed.
    (** An interleaving of the tasks of [p] is one of those of [q], with the same memory. *)
    Lemma treads_steps {A} (φ : A → Prop) F (p q p' : P A) Φ E l l' :
      treads φ p q → fp F q → sane ans q Φ E l → rtc (stepm ans) (p, l) (p', l') →
      ∃ q', rtc (stepm ans) (q, l) (q', l') ∧ treads φ p' q' ∧ fp F q' ∧ sane ans q' Φ E l'.
    Proof.
      intros H Hf Hsn Hs. remember (p, l) as x eqn:Ex. remember (p', l') as y eqn:Ey.
      revert p q l H Hf Hsn Ex.
      induction Hs as [|x z y (act & Hs & He) _ IH]; intros p q l H Hf Hsn ->.
      - injection Ey as <- <-. eauto using rtc_refl.
      - destruct z as [p2 l2]. simpl in *.
        destruct (treads_step _ _ _ _ _ H _ _ _ Hsn Hs) as (q2 & Hs2 & H2).
        destruct (IH Ey p2 q2 l2 H2) as (q' & ? & ?); [|by eapply sane_step|done|].
        + exact (proj1 (fp_step _ _ _ _ _ Hf Hs2)).
        + exists q'. split; [|done]. eapply rtc_l; [|done]. by exists act.
    Qed.
    Lemma treads_schedules {A} (φ : A → Prop) F (p q : P A) Φ E Φ' E' l :
      treads φ p q → fp F q → sane ans q Φ' E' l →
      every_schedule ans q l Φ E → every_schedule ans p l Φ E.
    Proof.
      intros H Hf Hsn Hq.
      assert (Hnw : ∀ p' l', rtc (stepm ans) (p, l) (p', l') → ¬ wrong p' l').
      { intros p' l' Hs Hw. destruct (treads_steps _ _ _ _ _ _ _ _ _ H Hf Hsn Hs) as (q' & Hs' & H' & Hf' & Hsn').
        apply (es_safe _ _ _ _ _ Hq _ _ Hs'). by eapply treads_wrong. }
      split.
      - apply stepm_wf.
      - done.
      - intros p' l' Hs Hw. destruct (treads_steps _ _ _ _ _ _ _ _ _ H Hf Hsn Hs) as (q' & Hs' & H' & Hf' & Hsn').
        apply (es_race_free _ _ _ _ _ Hq _ _ Hs'). by eapply treads_race.
      - intros p' l' Hs. by apply not_wrong_step, Hnw.
      - intros a l' Hs. destruct (treads_steps _ _ _ _ _ _ _ _ _ H Hf Hsn Hs) as (q' & Hs' & H' & Hf' & Hsn').
        destruct (treads_result _ _ _ _ _ _ (inl a) H' Hsn' eq_refl) as [Hr _].
        destruct q'; simpl in Hr; try done. injection Hr as ->. by apply (es_done _ _ _ _ _ Hq).
      - intros e l' Hs. destruct (treads_steps _ _ _ _ _ _ _ _ _ H Hf Hsn Hs) as (q' & Hs' & H' & Hf' & Hsn').
        destruct (treads_result _ _ _ _ _ _ (inr e) H' Hsn' eq_refl) as [Hr _].
        destruct q'; simpl in Hr; try done. injection Hr as ->. by apply (es_panic _ _ _ _ _ Hq).
    Qed.
  End schedules.
End sane.

Section asks.
  Context {T Q R Q' R' : Type} (t : Q' → prog T Q R R').
  Lemma treads_with_asks {A} (φ : A → Prop) (p q : prog T Q' R' A) :
    (∀ qu B (f : R' → prog T Q R B), (∀ r, doomed (f r)) → doomed (bind (t qu) f)) →
    treads φ p q → treads φ (with_asks t p) (with_asks t q).
  Proof.
    intros Ht H. induction H; cbn [with_asks]; try (econstructor; eauto; fail).
    - eapply (treads_bind (λ _, True)); [by apply treads_refl|]. auto.
    - apply treads_doomed. induction H; cbn [with_asks]; try (constructor; auto; fail). by apply Ht.
  Qed.
  Lemma sane_with_asks {A} (ans : Q' → R' → Prop) (ans' : Q → R → Prop) (p : prog T Q' R' A) :
    (∀ q (Φ : R' → list T → Prop) E l,
       (∀ r, ans q r → Φ r l) → sane ans' (t q) Φ E l) →
    ∀ Φ E l, sane ans p Φ E l → sane ans' (with_asks t p) Φ E l.
  Proof.
    intros Hh.
    induction p as [A a|A e|A i k IH|A i x k IH|A q k IH|A B C p1 IH1 p2 IH2 k IH| |];
      intros Φ E l Hwp; simpl in *; auto.
    - destruct (l !! i) as [x|]; [|done]. eauto.
    - destruct Hwp. split; [done|]. eauto.
    - apply sane_bind, Hh. eauto.
    - eapply IH1, sane_mono; [exact Hwp| |]; intros b l1 _ Hwp2;
        (eapply IH2, sane_mono; [exact Hwp2| |]; intros d l2 _ Hk; eauto).
  Qed.
End asks.
