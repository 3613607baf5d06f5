(** * Ghost: a program logic that also tracks the calls of the user's closures.

    [wpg ans p Φ E g l] is [wp] with a ghost state [g : G] that is updated at each
    call: closures answer question [q] in ghost state [g] with [r] and move to
    ghost state [g'] only if [ans g q r g'].  Instances: [G := list (Q * R)] (the
    log of all calls), [G := nat] (the number of calls), [G := unit]. *)
From Verif Require Export Top.
From stdpp Require Import list.

Local Transparent wp bind on_unwind relocate focus.
Local Arguments wp {T Q R A} ans !p Φ E l.
Local Arguments bind {T Q R A B} !p f.
Local Arguments on_unwind {T Q R A} c !p.
Local Arguments relocate {T Q R A} f !p.

Section ghost.
  Context {T Q R G : Type}.

  Fixpoint wpg {A} (ans : G → Q → R → G → Prop) (p : prog T Q R A)
    (Φ : A → G → list T → Prop) (E : exn → G → list T → Prop) (g : G) (l : list T)
    {struct p} : Prop :=
    match p with
    | Ret a => Φ a g l
    | Throw e => E e g l
    | Read i k => match l !! i with Some x => wpg ans (k x) Φ E g l | None => False end
    | Write i x k => i < length l ∧ wpg ans k Φ E g (<[i:=x]> l)
    | Ask q k => ∀ r g', ans g q r g' → wpg ans (k r) Φ E g' l
    | Par p1 p2 k =>
        wpg ans p1
          (λ b g1 l1, wpg ans p2 (λ c g2 l2, wpg ans (k (inl b) (inl c)) Φ E g2 l2)
                                 (λ e g2 l2, wpg ans (k (inl b) (inr e)) Φ E g2 l2) g1 l1)
          (λ e1 g1 l1, wpg ans p2 (λ c g2 l2, wpg ans (k (inr e1) (inl c)) Φ E g2 l2)
                                  (λ e g2 l2, wpg ans (k (inr e1) (inr e)) Φ E g2 l2) g1 l1) g l
    | Undef => False
    | NoFuel => False
    end.

  Lemma wpg_mono {A} ans (p : prog T Q R A) :
    ∀ (Φ Φ' : A → G → list T → Prop) (E E' : exn → G → list T → Prop) g l,
    wpg ans p Φ E g l →
    (∀ a g' l', length l' = length l → Φ a g' l' → Φ' a g' l') →
    (∀ e g' l', length l' = length l → E e g' l' → E' e g' l') →
    wpg ans p Φ' E' g l.
  Proof.
    induction p as [A a|A e|A i k IH|A i x k IH|A q k IH|A B C p1 IH1 p2 IH2 k IH| |];
      intros Φ Φ' E E' g l Hwp HΦ HE; simpl in *; auto.
    - destruct (l !! i) as [x|]; [|done]. eauto.
    - destruct Hwp as [Hi Hwp]. split; [done|].
      eapply IH; [exact Hwp| |]; intros ? ? ? Hl; [apply HΦ|apply HE];
        by rewrite insert_length in Hl.
    - intros r g' Hr. eauto.
    - eapply IH1; [exact Hwp| |]; simpl; intros b g1 l1 Hl1 Hwp2;
        (eapply IH2; [exact Hwp2| |]; simpl; intros c g2 l2 Hl2 Hk;
         (eapply IH; [exact Hk| |]; intros ? ? ? Hl; [apply HΦ|apply HE]; congruence)).
  Qed.

  Lemma wpg_bind {A B} ans (p : prog T Q R A) (f : A → prog T Q R B) :
    ∀ Φ E g l,
    wpg ans p (λ a g' l', wpg ans (f a) Φ E g' l') E g l → wpg ans (bind p f) Φ E g l.
  Proof.
    revert B f.
    induction p as [A a|A e|A i k IH|A i x k IH|A q k IH|A B C p1 IH1 p2 IH2 k IH| |];
      intros B' f Φ E g l Hwp; simpl in *; auto.
    - destruct (l !! i) as [x|]; [|done]. eauto.
    - destruct Hwp. split; [done|]. eauto.
    - eapply wpg_mono; [exact Hwp| |]; simpl; intros b g1 l1 Hl1 Hwp2;
        (eapply wpg_mono; [exact Hwp2| |]; simpl; intros c g2 l2 Hl2 Hk; eauto).
  Qed.

  Lemma wpg_on_unwind {A} ans (c : prog T Q R unit) (p : prog T Q R A) :
    ∀ Φ E g l,
    wpg ans p Φ (λ e g' l', wpg ans c (λ _ g'' l'', E e g'' l'') E g' l') g l →
    wpg ans (on_unwind c p) Φ E g l.
  Proof.
    induction p as [A a|A e|A i k IH|A i x k IH|A q k IH|A B C p1 IH1 p2 IH2 k IH| |];
      intros Φ E g l Hwp; simpl in *; auto.
    - by apply wpg_bind.
    - destruct (l !! i) as [x|]; [|done]. eauto.
    - destruct Hwp. split; [done|]. eauto.
    - eapply wpg_mono; [exact Hwp| |]; simpl; intros b g1 l1 Hl1 Hwp2;
        (eapply wpg_mono; [exact Hwp2| |]; simpl; intros d g2 l2 Hl2 Hk; eauto).
  Qed.

  Lemma wpg_focus_app {A} ans (p : prog T Q R A) pre post :
    ∀ (Φ : A → G → list T → Prop) (E : exn → G → list T → Prop) g m,
    wpg ans p (λ a g' m', length m' = length m → Φ a g' (pre ++ m' ++ post))
              (λ e g' m', length m' = length m → E e g' (pre ++ m' ++ post)) g m →
    wpg ans (focus (length pre) p) Φ E g (pre ++ m ++ post).
  Proof.
    unfold focus.
    induction p as [A a|A e|A i k IH|A i x k IH|A q k IH|A B C p1 IH1 p2 IH2 k IH| |];
      intros Φ E g m Hwp; simpl in *; auto.
    - destruct (m !! i) as [x|] eqn:Hi; [|done].
      assert (Hlt : i < length m) by (by eapply lookup_lt_Some).
      rewrite lookup_app_r by lia.
      replace (length pre + i - length pre) with i by lia.
      rewrite lookup_app_l by done. rewrite Hi. eauto.
    - destruct Hwp as [Hi Hwp]. rewrite !app_length. split; [lia|].
      rewrite insert_app_r, insert_app_l by done.
      apply IH. eapply wpg_mono; [exact Hwp| |]; simpl;
        intros ? ? ? Hl ? Hl'; rewrite insert_length in *; auto.
    - eapply IH1, wpg_mono; [exact Hwp| |]; simpl; intros b g1 m1 Hl1 Hwp2 _;
        (eapply IH2, wpg_mono; [exact Hwp2| |]; simpl; intros d g2 m2 Hl2 Hk _;
         (eapply IH, wpg_mono; [exact Hk| |]; simpl; intros ? ? m3 Hl3 Hm3 _; apply Hm3; congruence)).
  Qed.

  (** Soundness: [α s g] relates the closure's real state to the ghost state. *)
  Lemma wpg_run {S A} (α : S → G → Prop) ans (o : S → Q → R * S) (p : prog T Q R A) :
    (∀ s g q, α s g → ∃ g', ans g q (o s q).1 g' ∧ α (o s q).2 g') →
    ∀ Φ E s g l, α s g → wpg ans p Φ E g l →
    match run o p s l with
    | (Done a, s', l') => ∃ g', α s' g' ∧ Φ a g' l'
    | (Panicked e, s', l') => ∃ g', α s' g' ∧ E e g' l'
    | (Undefined, _, _) | (Diverged, _, _) => False
    end.
  Proof.
    intros Ho.
    induction p as [A a|A e|A i k IH|A i x k IH|A q k IH|A B C p1 IH1 p2 IH2 k IH| |];
      intros Φ E s g l Hα Hwp; simpl in *; eauto.
    - destruct (l !! i) as [x|]; [|done]. exact (IH x Φ E s g l Hα Hwp).
    - destruct Hwp as [Hi Hwp]. rewrite decide_True by done. exact (IH Φ E s g _ Hα Hwp).
    - destruct (Ho s g q Hα) as (g' & Ha & Hα').
      destruct (o s q) as [r s']. exact (IH r Φ E s' g' l Hα' (Hwp r g' Ha)).
    - specialize (IH1 _ _ s g l Hα Hwp). simpl in IH1.
      destruct (run o p1 s l) as [[[b|e1| |] s1] l1]; simpl in *; try done;
        destruct IH1 as (g1 & Hα1 & IH1);
        specialize (IH2 _ _ s1 g1 l1 Hα1 IH1); simpl in IH2;
        destruct (run o p2 s1 l1) as [[[c|e2| |] s2] l2]; simpl in *; try done;
        destruct IH2 as (g2 & Hα2 & IH2);
        match goal with |- context [k ?b ?c] => exact (IH b c Φ E s2 g2 l2 Hα2 IH2) end.
  Qed.

  (** Facts proved with [wp] can be added. *)
  Lemma wpg_wp {A} (ansg : G → Q → R → G → Prop) (ans : Q → R → Prop) (p : prog T Q R A) :
    (∀ g q r g', ansg g q r g' → ans q r) →
    ∀ (Φ : A → G → list T → Prop) (E : exn → G → list T → Prop)
      (Φ' : A → list T → Prop) (E' : exn → list T → Prop) g l,
    wp ans p Φ' E' l → wpg ansg p Φ E g l →
    wpg ansg p (λ a g' l', Φ a g' l' ∧ Φ' a l') (λ e g' l', E e g' l' ∧ E' e l') g l.
  Proof.
    intros Ha.
    induction p as [A a|A e|A i k IH|A i x k IH|A q k IH|A B C p1 IH1 p2 IH2 k IH| |];
      intros Φ E Φ' E' g l Hwp Hwpg; simpl in *; auto.
    - destruct (l !! i) as [x|]; [|done]. eauto.
    - destruct Hwp, Hwpg. split; [done|]. eauto.
    - intros r g' Hr. eauto.
    - eapply wpg_mono; [eapply IH1; [exact Hwp|exact Hwpg]| |]; simpl;
        intros b g1 l1 Hl1 [H2 H1];
        (eapply wpg_mono; [eapply IH2; [exact H1|exact H2]| |]; simpl;
         intros c g2 l2 Hl2 [? ?]; eapply IH; eauto).
  Qed.
End ghost.

Section rules.
  Context {T Q R G : Type} (ans : G → Q → R → G → Prop).
  Implicit Types (l : list T) (g : G) (Ex : exn → G → list T → Prop).
  Notation P A := (prog T Q R A).

  Lemma wpg_ret {A} (a : A) (Φ : A → G → list T → Prop) Ex g l :
    Φ a g l → wpg ans (Ret a) Φ Ex g l.
  Proof. done. Qed.
  Lemma wpg_throw {A} e (Φ : A → G → list T → Prop) Ex g l :
    Ex e g l → wpg ans (Throw e) Φ Ex g l.
  Proof. done. Qed.
  Lemma wpg_ask {A} q (k : R → P A) (Φ : A → G → list T → Prop) Ex g l :
    (∀ r g', ans g q r g' → wpg ans (k r) Φ Ex g' l) → wpg ans (Ask q k) Φ Ex g l.
  Proof. done. Qed.
  Lemma wpg_uget n i (Φ : T → G → list T → Prop) Ex g l :
    i < n → n ≤ length l → (∀ x, l !! i = Some x → Φ x g l) →
    wpg ans (uget (Q:=Q) (R:=R) n i) Φ Ex g l.
  Proof.
    intros Hi Hn H. unfold uget. rewrite (proj2 (Nat.ltb_lt i n) Hi). simpl.
    destruct (lookup_lt_is_Some_2 l i) as [x Hx]; [lia|]. rewrite Hx. by apply H.
  Qed.
  Lemma wpg_get n i (Φ : T → G → list T → Prop) Ex g l :
    i < n → n ≤ length l → (∀ x, l !! i = Some x → Φ x g l) →
    wpg ans (get (Q:=Q) (R:=R) n i) Φ Ex g l.
  Proof.
    intros Hi Hn H. unfold get. rewrite (proj2 (Nat.ltb_lt i n) Hi). simpl.
    destruct (lookup_lt_is_Some_2 l i) as [x Hx]; [lia|]. rewrite Hx. by apply H.
  Qed.
  Lemma wpg_uput n i x (Φ : unit → G → list T → Prop) Ex g l :
    i < n → n ≤ length l → Φ tt g (<[i:=x]> l) →
    wpg ans (uput (Q:=Q) (R:=R) n i x) Φ Ex g l.
  Proof.
    intros Hi Hn H. unfold uput. rewrite (proj2 (Nat.ltb_lt i n) Hi). split; [lia|done].
  Qed.
  Lemma wpg_uswap n i j (Φ : unit → G → list T → Prop) Ex g l :
    i < n → j < n → n ≤ length l → Φ tt g (swapl i j l) →
    wpg ans (uswap (Q:=Q) (R:=R) n i j) Φ Ex g l.
  Proof.
    intros Hi Hj Hn H. unfold uswap.
    apply wpg_bind, wpg_uget; [done..|]. intros x Hx.
    apply wpg_bind, wpg_uget; [done..|]. intros y Hy.
    apply wpg_bind, wpg_uput; [done..|].
    apply wpg_uput; [done|by rewrite insert_length|].
    unfold swapl in H. by rewrite Hx, Hy in H.
  Qed.
  Lemma wpg_swap n i j (Φ : unit → G → list T → Prop) Ex g l :
    i < n → j < n → n ≤ length l → Φ tt g (swapl i j l) →
    wpg ans (swap (Q:=Q) (R:=R) n i j) Φ Ex g l.
  Proof.
    intros Hi Hj Hn H. unfold swap.
    rewrite (proj2 (Nat.ltb_lt i n) Hi), (proj2 (Nat.ltb_lt j n) Hj).
    by apply wpg_uswap.
  Qed.
  Lemma wpg_usub a b (Φ : nat → G → list T → Prop) Ex g l :
    b ≤ a → Φ (a - b) g l → wpg ans (usub (T:=T) (Q:=Q) (R:=R) a b) Φ Ex g l.
  Proof. intros H ?. unfold usub. by rewrite (proj2 (Nat.leb_le b a) H). Qed.
  Lemma wpg_dassert c b (Φ : unit → G → list T → Prop) Ex g l :
    b = true → Φ tt g l → wpg ans (dassert (T:=T) (Q:=Q) (R:=R) c b) Φ Ex g l.
  Proof. intros -> ?. unfold dassert. rewrite andb_false_r. done. Qed.
  Lemma wpg_assert b (Φ : unit → G → list T → Prop) Ex g l :
    b = true → Φ tt g l → wpg ans (assert (T:=T) (Q:=Q) (R:=R) b) Φ Ex g l.
  Proof. by intros ->. Qed.
  Lemma wpg_slice_app {A} n a b (p : nat → P A) (Φ : A → G → list T → Prop) Ex g l1 l2 l3 :
    a = length l1 → b = a + length l2 → b ≤ n →
    wpg ans (p (length l2))
      (λ r g' m, length m = length l2 → Φ r g' (l1 ++ m ++ l3))
      (λ e g' m, length m = length l2 → Ex e g' (l1 ++ m ++ l3)) g l2 →
    wpg ans (slice n a b p) Φ Ex g (l1 ++ l2 ++ l3).
  Proof.
    intros -> -> Hbn H. unfold slice.
    rewrite (proj2 (Nat.leb_le _ _)), (proj2 (Nat.leb_le _ n) Hbn) by lia. simpl.
    replace (length l1 + length l2 - length l1) with (length l2) by lia.
    by apply wpg_focus_app.
  Qed.
  Lemma wpg_slice {A} n a b (p : nat → P A) (Φ : A → G → list T → Prop) Ex g l :
    a ≤ b → b ≤ n → n ≤ length l →
    wpg ans (p (b - a))
      (λ r g' m, length m = b - a → Φ r g' (take a l ++ m ++ drop b l))
      (λ e g' m, length m = b - a → Ex e g' (take a l ++ m ++ drop b l))
      g (take (b - a) (drop a l)) →
    wpg ans (slice n a b p) Φ Ex g l.
  Proof.
    intros Hab Hbn Hn H.
    assert (Hl : l = take a l ++ take (b - a) (drop a l) ++ drop b l).
    { replace b with (a + (b - a)) at 2 by lia. apply take_drop_mid. lia. }
    rewrite Hl at 1.
    apply wpg_slice_app.
    - rewrite take_length. lia.
    - rewrite sub_length; lia.
    - done.
    - rewrite sub_length by lia. done.
  Qed.
  Lemma wpg_for_up a cnt (body : nat → P unit) (I : nat → G → list T → Prop) Ex g l :
    I a g l →
    (∀ i g' m, a ≤ i < a + cnt → I i g' m → wpg ans (body i) (λ _ g'' m', I (S i) g'' m') Ex g' m) →
    wpg ans (for_up a cnt body) (λ _ g' m, I (a + cnt) g' m) Ex g l.
  Proof.
    revert a g l. induction cnt as [|cnt IH]; intros a g l Ha Hbody; simpl.
    - by rewrite Nat.add_0_r.
    - apply wpg_bind. eapply wpg_mono; [apply Hbody; [lia|done]| |auto].
      intros ? g' m Hm Hi; simpl in Hi. replace (a + S cnt) with (S a + cnt) by lia.
      apply IH; [done|]. intros i g'' m' Hi'. apply Hbody. lia.
  Qed.
End rules.

Lemma wpg_is_less {T G} (ans : G → T * T → option bool → G → Prop) a b
    (Φ : bool → G → list T → Prop) (Ex : exn → G → list T → Prop) g l :
  (∀ r g', ans g (a, b) (Some r) g' → Φ r g' l) →
  (∀ g', ans g (a, b) None g' → Ex UserPanic g' l) →
  wpg ans (is_less a b) Φ Ex g l.
Proof. intros H1 H2. unfold is_less. intros [r|] g' Hr; simpl; auto. Qed.

Lemma wp_ask {T Q R A} (ans : Q → R → Prop) q (k : R → prog T Q R A) (Φ : A → list T → Prop)
    (Ex : exn → list T → Prop) l :
  (∀ r, ans q r → wp ans (k r) Φ Ex l) → wp ans (Ask q k) Φ Ex l.
Proof. done. Qed.

Global Opaque wp bind on_unwind relocate focus.
Global Opaque wpg.

Ltac wpg_apply H := eapply wpg_mono; [apply H| |].

(** ** Logging the calls. *)
Section logged.
  Context {T Q R : Type}.

  (** The closure [o], which also keeps a log of its calls and answers. *)
  Definition logged {S} (o : S → Q → R * S) :
      S * list (Q * R) → Q → R * (S * list (Q * R)) :=
    λ '(s, tr) q, let '(r, s') := o s q in (r, (s', tr ++ [(q, r)])).

  (** Ghost transition of the log; the answers are restricted by [ok]. *)
  Definition log_ans (ok : Q → R → Prop) (tr : list (Q * R)) (q : Q) (r : R)
      (tr' : list (Q * R)) : Prop :=
    ok q r ∧ tr' = tr ++ [(q, r)].

  Lemma wpg_run_logged {S A} (ok : Q → R → Prop) (o : S → Q → R * S) (p : prog T Q R A) Φ E s l :
    (∀ s q, ok q (o s q).1) →
    wpg (log_ans ok) p Φ E [] l →
    match run (logged o) p (s, []) l with
    | (Done a, (_, tr), l') => Φ a tr l'
    | (Panicked e, (_, tr), l') => E e tr l'
    | (Undefined, _, _) | (Diverged, _, _) => False
    end.
  Proof.
    intros Ho Hwp.
    pose proof (wpg_run (λ (st : S * list (Q * R)) g, st.2 = g) (log_ans ok) (logged o) p)
      as Hrun.
    specialize (Hrun ltac:(intros [s' tr] g q <-; simpl; specialize (Ho s' q);
      destruct (o s' q) as [r s'']; simpl in *; eexists; split; [split; [exact Ho|reflexivity]|done])).
    specialize (Hrun Φ E (s, []) [] l eq_refl Hwp).
    destruct (run (logged o) p (s, []) l) as [[[a|e| |] [s' tr]] l']; try done;
      by destruct Hrun as (g' & <- & ?).
  Qed.

  (** Logging changes nothing else. *)
  Lemma run_logged {S A} (o : S → Q → R * S) (p : prog T Q R A) s tr l :
    run o p s l =
      let '(r, (s', _), l') := run (logged o) p (s, tr) l in (r, s', l').
  Proof.
    revert s tr l.
    induction p as [A a|A e|A i k IH|A i x k IH|A q k IH|A B C p1 IH1 p2 IH2 k IH| |];
      intros s tr l; simpl; try done.
    - destruct (l !! i); [|done]. apply IH.
    - case_decide; [|done]. apply IH.
    - destruct (o s q) as [r s']. apply IH.
    - rewrite (IH1 s tr l). destruct (run (logged o) p1 (s, tr) l) as [[[b|e1| |] [s1 tr1]] l1]; try done;
        rewrite (IH2 s1 tr1 l1);
        destruct (run (logged o) p2 (s1, tr1) l1) as [[[d|e2| |] [s2 tr2]] l2]; try done; apply IH.
  Qed.
End logged.
