(** * Word: [usize] arithmetic, and a relation between programs that compute with words
    and the programs of the model, which compute with natural numbers. *)
From Verif Require Export Ops.
From stdpp Require Import list.
From Coq Require Import NArith.

(** ** [usize] of the build [c]. *)
(** [usize::MAX + 1]. *)
Definition words (c : cfg) : N := if wide c then (2 ^ 64)%N else (2 ^ 32)%N.

Section arith.
  Context {T Q R : Type} (c : cfg).
  Notation P A := (prog T Q R A).

  (** [a + b]: panics on overflow if compiled with overflow checks, else wraps. *)
  Definition uadd (a b : nat) : P nat :=
    let m := (N.of_nat a + N.of_nat b)%N in
    if (m <? words c)%N then Ret (a + b)
    else if ovf c then Throw OverflowPanic else Ret (N.to_nat (m mod words c)).
  (** [a * b]. *)
  Definition umul (a b : nat) : P nat :=
    let m := (N.of_nat a * N.of_nat b)%N in
    if (m <? words c)%N then Ret (a * b)
    else if ovf c then Throw OverflowPanic else Ret (N.to_nat (m mod words c)).
  (** [a - b]. *)
  Definition wsub (a b : nat) : P nat :=
    if b <=? a then Ret (a - b)
    else if ovf c then Throw OverflowPanic else Ret (N.to_nat (N.of_nat a + words c - N.of_nat b)).
End arith.
Global Arguments uadd : simpl never.
Global Arguments umul : simpl never.
Global Arguments wsub : simpl never.

(** An array of [n] elements: ndarray allows at most [isize::MAX], i.e. [2^63 - 1] or
    [2^31 - 1]. *)
Definition allowed (c : cfg) (n : nat) : Prop := (2 * N.of_nat n < words c)%N.

Lemma words_ge c : (2 ^ 32 ≤ words c)%N.
Proof. unfold words. by destruct (wide c). Qed.
Lemma allowed_le c m n : allowed c n → m ≤ n → allowed c m.
Proof. unfold allowed. lia. Qed.

(** ** Programs that end badly whatever is read and answered. *)
Definition bad (e : exn) : Prop := e = IndexPanic ∨ e = OverflowPanic.

Section rel.
  Local Transparent bind relocate on_unwind focus.
  Context {T Q R : Type}.
  Notation P A := (prog T Q R A).

  Inductive doomed {A : Type} : P A → Prop :=
  | doomed_throw e : bad e → doomed (Throw e)
  | doomed_undef : doomed Undef
  | doomed_fuel : doomed NoFuel
  | doomed_read i k : (∀ x, doomed (k x)) → doomed (Read i k)
  | doomed_write i x k : doomed k → doomed (Write i x k)
  | doomed_ask q k : (∀ r, doomed (k r)) → doomed (Ask q k)
  | doomed_par B C (p1 : P B) (p2 : P C) k : (∀ b d, doomed (k b d)) → doomed (Par p1 p2 k).

  (** [p] does the same as [q] unless [q] ends badly; where [q] returns [a], so does [p],
      and [φ a]. *)
  Inductive tracks {A : Type} (φ : A → Prop) : P A → P A → Prop :=
  | tracks_ret a : φ a → tracks φ (Ret a) (Ret a)
  | tracks_throw e : tracks φ (Throw e) (Throw e)
  | tracks_read i k k' : (∀ x, tracks φ (k x) (k' x)) → tracks φ (Read i k) (Read i k')
  | tracks_write i x k k' : tracks φ k k' → tracks φ (Write i x k) (Write i x k')
  | tracks_ask q k k' : (∀ r, tracks φ (k r) (k' r)) → tracks φ (Ask q k) (Ask q k')
  | tracks_par B C (p1 : P B) (p2 : P C) k k' :
      (∀ b d, tracks φ (k b d) (k' b d)) → tracks φ (Par p1 p2 k) (Par p1 p2 k')
  | tracks_doomed p q : doomed q → tracks φ p q.

  Definition good {A} (r : outcome A) : Prop :=
    match r with Done _ => True | Panicked e => ¬ bad e | _ => False end.

  Lemma doomed_run {S A} (o : S → Q → R * S) (q : P A) s l : doomed q → ¬ good (run o q s l).1.1.
  Proof.
    intros H. revert s l. induction H; intros s l; simpl; try tauto.
    - destruct (l !! i); [auto|tauto].
    - destruct (decide _); [auto|tauto].
    - destruct (o s q); auto.
    - destruct (run o p1 s l) as [[[]?]?]; try tauto;
        destruct (run o p2 _ _) as [[[]?]?]; auto.
  Qed.
  Lemma tracks_run {S A} (o : S → Q → R * S) φ (p q : P A) s l :
    tracks φ p q → good (run o q s l).1.1 → run o p s l = run o q s l.
  Proof.
    intros H. revert s l. induction H; intros s l Hg; simpl in *; try done.
    - destruct (l !! i); auto.
    - destruct (decide _); auto.
    - destruct (o s q); auto.
    - destruct (run o p1 s l) as [[[]?]?]; try done;
        destruct (run o p2 _ _) as [[[]?]?]; auto.
    - by apply doomed_run in Hg.
  Qed.

  Lemma doomed_bind {A B} (q : P A) (f : A → P B) : doomed q → doomed (bind q f).
  Proof. intros H. induction H; cbn [bind]; constructor; auto. Qed.
  Lemma doomed_relocate {A} g (q : P A) : doomed q → doomed (relocate g q).
  Proof. intros H. induction H; cbn [relocate]; constructor; auto. Qed.

  Lemma tracks_bind {A B} (φ : A → Prop) (ψ : B → Prop) p q (f g : A → P B) :
    tracks φ p q → (∀ a, φ a → tracks ψ (f a) (g a)) → tracks ψ (bind p f) (bind q g).
  Proof.
    intros H Hf. induction H; cbn [bind]; [by apply Hf|constructor; auto..|].
    by apply tracks_doomed, doomed_bind.
  Qed.
  Lemma tracks_bind_assoc {A B C} (φ : A → Prop) (ψ : C → Prop) p q (g : A → P B) (f : B → P C) h :
    tracks φ p q → (∀ a, φ a → tracks ψ (bind (g a) f) (h a)) →
    tracks ψ (bind (bind p g) f) (bind q h).
  Proof.
    intros H Hf. induction H; cbn [bind]; [by apply Hf|constructor; auto..|].
    by apply tracks_doomed, doomed_bind.
  Qed.
  Lemma tracks_bind_ret {A B} (φ : A → Prop) (ψ : B → Prop) p a (f : A → P B) q :
    tracks φ p (Ret a) → (φ a → tracks ψ (f a) q) → tracks ψ (bind p f) q.
  Proof.
    intros H Hf. inversion H; subst; cbn [bind]; [by apply Hf|].
    by match goal with H : doomed (Ret _) |- _ => inversion H end.
  Qed.
  Lemma tracks_relocate {A} (φ : A → Prop) h p q : tracks φ p q → tracks φ (relocate h p) (relocate h q).
  Proof.
    intros H. induction H; cbn [relocate]; [constructor; auto..|].
    by apply tracks_doomed, doomed_relocate.
  Qed.
  Lemma tracks_mono {A} (φ ψ : A → Prop) p q : tracks φ p q → (∀ a, φ a → ψ a) → tracks ψ p q.
  Proof. intros H Hi. induction H; constructor; auto. Qed.
  Lemma tracks_refl {A} (φ : A → Prop) p : (∀ a, φ a) → tracks φ p p.
  Proof. intros H. induction p; try (constructor; auto; fail); apply tracks_doomed; constructor. Qed.

  (** Destructors that ask nothing and panic only badly. *)
  Inductive mild {A : Type} : P A → Prop :=
  | mild_ret a : mild (Ret a)
  | mild_undef : mild Undef
  | mild_throw e : bad e → mild (Throw e)
  | mild_fuel : mild NoFuel
  | mild_read i k : (∀ x, mild (k x)) → mild (Read i k)
  | mild_write i x k : mild k → mild (Write i x k).
  Lemma mild_doomed {A B} (d : P B) e : mild d → bad e → doomed (bind d (λ _, @Throw T Q R A e)).
  Proof. intros H He. induction H; cbn [bind]; constructor; auto. Qed.
  Lemma mild_bind {A B} (d : P A) (f : A → P B) : mild d → (∀ a, mild (f a)) → mild (bind d f).
  Proof. intros H Hf. induction H; cbn [bind]; [by apply Hf|constructor; auto..]. Qed.
  Lemma tracks_on_unwind {A} (φ : A → Prop) d d' p q :
    mild d' → tracks (λ _, True) d d' → tracks φ p q → tracks φ (on_unwind d p) (on_unwind d' q).
  Proof.
    intros Hs Hd H. induction H; cbn [on_unwind]; [constructor; auto| |constructor; auto..|].
    - eapply tracks_bind; [exact Hd|]. intros. constructor.
    - apply tracks_doomed. induction H; cbn [on_unwind];
        [by apply mild_doomed|constructor; auto..].
  Qed.

  (** ** Primitives *)
  Lemma tracks_uget n i : tracks (λ _, i < n) (uget (T:=T) (Q:=Q) (R:=R) n i) (uget n i).
  Proof. unfold uget. destruct (Nat.ltb_spec i n); repeat constructor; done. Qed.
  Lemma tracks_get n i : tracks (λ _, i < n) (get (T:=T) (Q:=Q) (R:=R) n i) (get n i).
  Proof. unfold get. destruct (Nat.ltb_spec i n); repeat constructor; done. Qed.
  Lemma tracks_uput n i x : tracks (λ _, i < n) (uput (T:=T) (Q:=Q) (R:=R) n i x) (uput n i x).
  Proof. unfold uput. destruct (Nat.ltb_spec i n); repeat constructor; done. Qed.
  Lemma tracks_put n i x : tracks (λ _, i < n) (put (T:=T) (Q:=Q) (R:=R) n i x) (put n i x).
  Proof. unfold put. destruct (Nat.ltb_spec i n); repeat constructor; done. Qed.
  Lemma tracks_uswap n i j : tracks (λ _, i < n ∧ j < n) (uswap (T:=T) (Q:=Q) (R:=R) n i j) (uswap n i j).
  Proof.
    unfold uswap. eapply tracks_bind; [apply tracks_uget|]. intros x ?.
    eapply tracks_bind; [apply tracks_uget|]. intros y ?.
    eapply tracks_bind; [apply tracks_uput|]. intros ? ?. eapply tracks_mono; [apply tracks_uput|auto].
  Qed.
  Lemma tracks_swap n i j : tracks (λ _, i < n ∧ j < n) (swap (T:=T) (Q:=Q) (R:=R) n i j) (swap n i j).
  Proof.
    unfold swap. destruct (_ && _); [apply tracks_uswap|]. apply tracks_throw.
  Qed.
  Lemma tracks_slice {A} (φ : A → Prop) n a b (p q : nat → P A) :
    (a ≤ b → b ≤ n → tracks φ (p (b - a)) (q (b - a))) → tracks φ (slice n a b p) (slice n a b q).
  Proof.
    intros H. unfold slice. destruct (_ && _) eqn:E; [|constructor].
    apply andb_prop in E as [?%Nat.leb_le ?%Nat.leb_le]. unfold focus. apply tracks_relocate; auto.
  Qed.
  (** A view that exists is not longer than the array. *)
  Lemma tracks_slice_post {A} (φ : A → Prop) n a b (p q : nat → P A) :
    (a ≤ b → b ≤ n → tracks φ (p (b - a)) (q (b - a))) →
    tracks (λ r, φ r ∧ a ≤ b ∧ b ≤ n) (slice n a b p) (slice n a b q).
  Proof.
    intros H. unfold slice. destruct (_ && _) eqn:E; [|constructor].
    apply andb_prop in E as [?%Nat.leb_le ?%Nat.leb_le]. unfold focus. apply tracks_relocate.
    eapply tracks_mono; [by apply H|]. auto.
  Qed.
  Lemma tracks_assert b : tracks (λ _, b = true) (assert (T:=T) (Q:=Q) (R:=R) b) (assert b).
  Proof. unfold assert. destruct b; by constructor. Qed.
  Lemma tracks_dassert c b : tracks (λ _, True) (dassert (T:=T) (Q:=Q) (R:=R) c b) (dassert c b).
  Proof. by apply tracks_refl. Qed.
  Lemma tracks_for_up a cnt (f g : nat → P unit) :
    (∀ i, a ≤ i → i < a + cnt → tracks (λ _, True) (f i) (g i)) →
    tracks (λ _, True) (for_up a cnt f) (for_up a cnt g).
  Proof.
    revert a. induction cnt as [|k IH]; intros a H; simpl; [by constructor|].
    eapply tracks_bind; [apply H; lia|]. intros _ _. apply IH. intros. apply H; lia.
  Qed.
  Lemma tracks_for_down a cnt (f g : nat → P unit) :
    (∀ i, a ≤ i → i < a + cnt → tracks (λ _, True) (f i) (g i)) →
    tracks (λ _, True) (for_down a cnt f) (for_down a cnt g).
  Proof.
    induction cnt as [|k IH]; intros H; simpl; [by constructor|].
    eapply tracks_bind; [apply H; lia|]. intros _ _. apply IH. intros. apply H; lia.
  Qed.

  Lemma doomed_get {A} n i (f : T → P A) : n ≤ i → doomed (bind (get n i) f).
  Proof.
    intros. apply doomed_bind. unfold get. rewrite (proj2 (Nat.ltb_ge _ _)) by done.
    constructor. by left.
  Qed.
  Lemma doomed_uget {A} n i (f : T → P A) : n ≤ i → doomed (bind (uget n i) f).
  Proof.
    intros. apply doomed_bind. unfold uget. rewrite (proj2 (Nat.ltb_ge _ _)) by done. constructor.
  Qed.
  Lemma doomed_swap n i j : n ≤ i ∨ n ≤ j → doomed (swap (T:=T) (Q:=Q) (R:=R) n i j).
  Proof.
    intros H. unfold swap. destruct (_ && _) eqn:E; [|constructor; by left].
    apply andb_prop in E as [?%Nat.ltb_lt ?%Nat.ltb_lt]. lia.
  Qed.
  Lemma doomed_uswap n i j : n ≤ i ∨ n ≤ j → doomed (uswap (T:=T) (Q:=Q) (R:=R) n i j).
  Proof.
    intros H. unfold uswap. destruct (decide (n ≤ i)); [by apply doomed_uget|].
    unfold uget at 1. rewrite (proj2 (Nat.ltb_lt _ _)) by lia. cbn [bind]. constructor. intros x.
    cbn [bind]. apply doomed_uget. lia.
  Qed.
  Lemma doomed_slice {A} n a b (q : nat → P A) : b < a ∨ n < b → doomed (slice n a b q).
  Proof.
    intros H. unfold slice. destruct (_ && _) eqn:E; [|constructor; by left].
    apply andb_prop in E as [?%Nat.leb_le ?%Nat.leb_le]. lia.
  Qed.
  Lemma doomed_usub {A} a b (f : nat → P A) : a < b → doomed (bind (usub a b) f).
  Proof.
    intros. apply doomed_bind. unfold usub. rewrite (proj2 (Nat.leb_gt _ _)) by done.
    constructor. by right.
  Qed.
  Lemma doomed_usub_then {A} a b (f : nat → P A) : (∀ r, doomed (f r)) → doomed (bind (usub a b) f).
  Proof.
    intros H. destruct (decide (b ≤ a)); [|apply doomed_usub; lia].
    unfold usub. rewrite (proj2 (Nat.leb_le _ _)) by done. apply H.
  Qed.
  Lemma usub_ok {A} a b (f : nat → P A) : b ≤ a → bind (usub a b) f = f (a - b).
  Proof. intros H. unfold usub. by rewrite (proj2 (Nat.leb_le _ _)). Qed.

  Lemma bind_of_ret {A B} (a : A) (f : A → P B) : bind (Ret a) f = f a.
  Proof. done. Qed.
  Lemma mild_for_up a cnt f : (∀ i, mild (f i)) → mild (for_up a cnt f).
  Proof.
    intros H. revert a. induction cnt as [|k IH]; intros a; simpl; [constructor|].
    apply mild_bind; auto.
  Qed.
  Lemma mild_put n i x : mild (put n i x).
  Proof. unfold put. destruct (_ <? _); repeat constructor. Qed.
  Lemma mild_uput n i x : mild (uput n i x).
  Proof. unfold uput. destruct (_ <? _); repeat constructor. Qed.

  (** ** Arithmetic *)
  Context (c : cfg).
  Lemma tracks_wsub a b : tracks (λ r, r = a - b ∧ b ≤ a) (wsub (T:=T) (Q:=Q) (R:=R) c a b) (usub a b).
  Proof.
    unfold wsub, usub. destruct (Nat.leb_spec b a); [by constructor|].
    apply tracks_doomed. constructor. by right.
  Qed.
  Lemma wsub_ok {A} a b (f : nat → P A) : b ≤ a → bind (wsub c a b) f = f (a - b).
  Proof. intros H. unfold wsub. by rewrite (proj2 (Nat.leb_le _ _)). Qed.
  Lemma uadd_ok {A} a b (f : nat → P A) :
    (N.of_nat a + N.of_nat b < words c)%N → bind (uadd c a b) f = f (a + b).
  Proof. intros H. unfold uadd. by rewrite (proj2 (N.ltb_lt _ _)). Qed.
  Lemma umul_ok {A} a b (f : nat → P A) :
    (N.of_nat a * N.of_nat b < words c)%N → bind (umul c a b) f = f (a * b).
  Proof. intros H. unfold umul. by rewrite (proj2 (N.ltb_lt _ _)). Qed.
  Lemma unwind_uadd_ok {A} d a b (f : nat → P A) :
    (N.of_nat a + N.of_nat b < words c)%N → bind (on_unwind d (uadd c a b)) f = f (a + b).
  Proof. intros H. unfold uadd. by rewrite (proj2 (N.ltb_lt _ _)). Qed.
  Lemma unwind_wsub_ok {A} d a b (f : nat → P A) :
    b ≤ a → bind (on_unwind d (wsub c a b)) f = f (a - b).
  Proof. intros H. unfold wsub. by rewrite (proj2 (Nat.leb_le _ _)). Qed.
  Lemma tracks_uadd {A} (φ : A → Prop) a b (f : nat → P A) q :
    ((N.of_nat a + N.of_nat b < words c)%N → tracks φ (f (a + b)) q) →
    ((words c ≤ N.of_nat a + N.of_nat b)%N → doomed q) → tracks φ (bind (uadd c a b) f) q.
  Proof.
    intros H1 H2. destruct (decide (N.of_nat a + N.of_nat b < words c)%N).
    - rewrite uadd_ok; auto.
    - apply tracks_doomed, H2. lia.
  Qed.
End rel.
Global Opaque bind on_unwind relocate focus.
