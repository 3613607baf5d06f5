(** * Views: running a program on the elements a view addresses.

    [relocate f p] accesses address [f i] where [p] accesses position [i].  For an
    injective [f] it acts on these addresses as [p] does on an array of its own
    and touches no other address. *)
From Verif Require Export WpOps.
From stdpp Require Import list.

Local Transparent wp bind on_unwind relocate focus.
Local Arguments wp {T Q R A} ans !p Φ E l.
Local Arguments bind {T Q R A B} !p f.
Local Arguments on_unwind {T Q R A} c !p.
Local Arguments relocate {T Q R A} f !p.

Section views.
  Context {T Q R : Type} (ans : Q → R → Prop).
  Implicit Types (l m : list T).

  (** [l] is [l0] with the [length m] addresses [f 0], [f 1], ... set to the
      elements of [m]. *)
  Record scattered (f : nat → nat) l0 m l : Prop := {
    sc_length : length l = length l0;
    sc_in i : i < length m → l !! f i = m !! i;
    sc_out j : (∀ i, i < length m → j ≠ f i) → l !! j = l0 !! j
  }.

  Lemma scattered_mono f l0 l1 m0 m1 l :
    scattered f l0 m0 l1 → length m1 = length m0 → scattered f l1 m1 l → scattered f l0 m1 l.
  Proof.
    intros H1 Hm H2. split.
    - rewrite (sc_length _ _ _ _ H2). apply H1.
    - apply H2.
    - intros j Hj. rewrite (sc_out _ _ _ _ H2) by done. apply H1. intros i Hi. apply Hj. lia.
  Qed.

  Lemma wp_relocate {A} (f : nat → nat) (p : prog T Q R A) (Φ : A → list T → Prop)
      (E : exn → list T → Prop) l0 l m :
    (∀ i j, i < length m → j < length m → f i = f j → i = j) →
    (∀ i, i < length m → f i < length l0) →
    scattered f l0 m l →
    wp ans p (λ a m', ∀ l', length m' = length m → scattered f l0 m' l' → Φ a l')
             (λ e m', ∀ l', length m' = length m → scattered f l0 m' l' → E e l') m →
    wp ans (relocate f p) Φ E l.
  Proof.
    revert Φ E l0 l m.
    induction p as [A a|A e|A i k IH|A i x k IH|A q k IH|A B C p1 IH1 p2 IH2 k IH| |];
      intros Φ E l0 l m Hinj Hb Hsc Hwp; simpl in *.
    - by apply Hwp.
    - by apply Hwp.
    - destruct (m !! i) as [x|] eqn:Hx; [|done].
      assert (Hi : i < length m) by (by eapply lookup_lt_Some).
      rewrite (sc_in _ _ _ _ Hsc) by done. rewrite Hx. eauto.
    - destruct Hwp as [Hi Hwp]. split; [rewrite (sc_length _ _ _ _ Hsc); auto|].
      apply (IH _ _ l0 _ (<[i:=x]> m)).
      + by rewrite insert_length.
      + by rewrite insert_length.
      + split.
        * rewrite insert_length. apply Hsc.
        * rewrite insert_length. intros j Hj. destruct (decide (j = i)) as [->|Hne].
          -- rewrite !list_lookup_insert; [done|done|].
             rewrite (sc_length _ _ _ _ Hsc). auto.
          -- rewrite !list_lookup_insert_ne; [by apply Hsc|done|].
             intros Heq. apply Hne. symmetry. by apply Hinj.
        * rewrite insert_length. intros j Hj. rewrite list_lookup_insert_ne; [by apply Hsc|].
          intros Heq. by apply (Hj i Hi).
      + eapply wp_mono; [exact Hwp| |]; simpl; intros a m' Hm' H l' Hl'; apply H;
          rewrite insert_length in *; done.
    - intros r Hr. eapply IH; eauto.
    - assert (HK : ∀ b d m2 l2, length m2 = length m → scattered f l0 m2 l2 →
        wp ans (k b d) (λ a m', ∀ l', length m' = length m → scattered f l0 m' l' → Φ a l')
          (λ e m', ∀ l', length m' = length m → scattered f l0 m' l' → E e l') m2 →
        wp ans (relocate f (k b d)) Φ E l2).
      { intros b d m2 l2 Hm2 Hsc2 H. apply (IH b d Φ E l0 l2 m2);
          [by rewrite Hm2|by rewrite Hm2|exact Hsc2|by rewrite Hm2]. }
      apply (IH1 _ _ l0 l m Hinj Hb Hsc).
      eapply wp_mono; [exact Hwp| |]; simpl; intros b m1 Hm1 Hwp1 l1 _ Hsc1;
        (apply (IH2 _ _ l0 l1 m1); [by rewrite Hm1|by rewrite Hm1|exact Hsc1|]);
         (eapply wp_mono; [exact Hwp1| |]; simpl; intros d m2 Hm2 Hwp2 l2 _ Hsc2;
          (apply (HK _ _ m2); [congruence|exact Hsc2|exact Hwp2])).
    - done.
    - done.
  Qed.
End views.
