(** * WpOps: proof rules for the primitives of Ops.v, and list facts. *)
From Verif Require Export Order.

(** ** Swapping two positions of a list. *)
Definition swapl {T} (i j : nat) (l : list T) : list T :=
  match l !! i, l !! j with
  | Some x, Some y => <[j:=x]> (<[i:=y]> l)
  | _, _ => l
  end.

Section lists.
  Context {T : Type}.
  Implicit Types (l : list T).

  Lemma swapl_length i j l : length (swapl i j l) = length l.
  Proof. unfold swapl. repeat case_match; rewrite ?insert_length; done. Qed.

  Lemma lookup_swapl i j l k :
    i < length l → j < length l →
    swapl i j l !! k =
      if decide (k = i) then l !! j else if decide (k = j) then l !! i else l !! k.
  Proof.
    intros Hi Hj. unfold swapl.
    destruct (lookup_lt_is_Some_2 l i Hi) as [x Hx].
    destruct (lookup_lt_is_Some_2 l j Hj) as [y Hy].
    rewrite Hx, Hy.
    destruct (decide (k = j)) as [->|Hkj].
    - rewrite list_lookup_insert by (rewrite insert_length; done).
      destruct (decide (j = i)); congruence.
    - rewrite list_lookup_insert_ne by done.
      destruct (decide (k = i)) as [->|Hki].
      + by rewrite list_lookup_insert.
      + by rewrite list_lookup_insert_ne.
  Qed.

  Lemma swapl_perm i j l : i < length l → j < length l → swapl i j l ≡ₚ l.
  Proof.
    intros Hi Hj. apply Permutation_inj. split; [apply swapl_length|].
    exists (λ k, if decide (k = i) then j else if decide (k = j) then i else k). split.
    - intros a b. repeat case_decide; lia.
    - intros k. rewrite lookup_swapl by done. by repeat case_decide.
  Qed.

  Lemma swapl_app_l i j l1 l2 :
    i < length l1 → j < length l1 → swapl i j (l1 ++ l2) = swapl i j l1 ++ l2.
  Proof.
    intros. unfold swapl. rewrite !lookup_app_l by done.
    destruct (l1 !! i), (l1 !! j); try done.
    rewrite insert_app_l by done. rewrite insert_app_l by (by rewrite insert_length). done.
  Qed.

  (** Replace the subrange of length [length m] at [off]. *)
  Lemma take_drop_mid l off n :
    off + n ≤ length l → l = take off l ++ take n (drop off l) ++ drop (off + n) l.
  Proof.
    intros. rewrite <-(take_drop off l) at 1. f_equal.
    rewrite <-(take_drop n (drop off l)) at 1. f_equal. by rewrite drop_drop.
  Qed.

  Lemma perm_mid l off n m :
    off + n ≤ length l → m ≡ₚ take n (drop off l) →
    take off l ++ m ++ drop (off + n) l ≡ₚ l.
  Proof. intros Hlen Hm. rewrite Hm. by rewrite <-take_drop_mid. Qed.

  Lemma lookup_mid l off n m k :
    off + n ≤ length l → length m = n →
    (take off l ++ m ++ drop (off + n) l) !! k =
      if decide (off ≤ k < off + n) then m !! (k - off) else l !! k.
  Proof.
    intros Hlen Hm.
    assert (Hto : length (take off l) = off) by (rewrite take_length; lia).
    case_decide.
    - rewrite lookup_app_r by lia. rewrite lookup_app_l by lia. by rewrite Hto.
    - destruct (decide (k < off)).
      + rewrite lookup_app_l by lia. by rewrite lookup_take by lia.
      + rewrite lookup_app_r by lia. rewrite lookup_app_r by lia.
        rewrite lookup_drop. f_equal. lia.
  Qed.
  Lemma lookup_sub l off n k :
    take n (drop off l) !! k = if decide (k < n) then l !! (off + k) else None.
  Proof.
    case_decide.
    - by rewrite lookup_take, lookup_drop by done.
    - by rewrite lookup_take_ge by lia.
  Qed.
  Lemma sub_length l off n : off + n ≤ length l → length (take n (drop off l)) = n.
  Proof. intros. rewrite take_length, drop_length. lia. Qed.

  Lemma drop_eq_ge i j l m : i ≤ j → drop i m = drop i l → drop j m = drop j l.
  Proof.
    intros Hij H. replace j with (i + (j - i)) by lia. by rewrite <-!drop_drop, H.
  Qed.
  Lemma take_eq_le i j l m : i ≤ j → take j m = take j l → take i m = take i l.
  Proof.
    intros Hij H. rewrite <-(Nat.min_l i j) by lia. by rewrite <-!take_take, H.
  Qed.

  Lemma insert_middle (A : list T) g B x :
    <[length A := x]> (A ++ g :: B) = A ++ x :: B.
  Proof.
    rewrite <-(Nat.add_0_r (length A)) at 1. by rewrite insert_app_r.
  Qed.
  Lemma lookup_middle (A : list T) g B : (A ++ g :: B) !! length A = Some g.
  Proof. rewrite lookup_app_r by lia. by rewrite Nat.sub_diag. Qed.
End lists.

(** ** Rules for the primitives. *)
Section rules.
  Context {T Q R : Type} (ans : Q → R → Prop).
  Implicit Types (l : list T) (Ex : exn → list T → Prop).
  Notation P A := (prog T Q R A).

  Lemma wp_uget n i (Φ : T → list T → Prop) Ex l :
    i < n → n ≤ length l → (∀ x, l !! i = Some x → Φ x l) →
    wp ans (uget (Q:=Q) (R:=R) n i) Φ Ex l.
  Proof.
    intros Hi Hn H. unfold uget. rewrite (proj2 (Nat.ltb_lt i n) Hi). unfold wp.
    destruct (lookup_lt_is_Some_2 l i) as [x Hx]; [lia|]. rewrite Hx. by apply H.
  Qed.
  Lemma wp_get n i (Φ : T → list T → Prop) Ex l :
    i < n → n ≤ length l → (∀ x, l !! i = Some x → Φ x l) →
    wp ans (get (Q:=Q) (R:=R) n i) Φ Ex l.
  Proof.
    intros Hi Hn H. unfold get. rewrite (proj2 (Nat.ltb_lt i n) Hi). unfold wp.
    destruct (lookup_lt_is_Some_2 l i) as [x Hx]; [lia|]. rewrite Hx. by apply H.
  Qed.
  Lemma wp_uput n i x (Φ : unit → list T → Prop) Ex l :
    i < n → n ≤ length l → Φ tt (<[i:=x]> l) →
    wp ans (uput (Q:=Q) (R:=R) n i x) Φ Ex l.
  Proof.
    intros Hi Hn H. unfold uput. rewrite (proj2 (Nat.ltb_lt i n) Hi). 
    split; [lia|done].
  Qed.
  Lemma wp_put n i x (Φ : unit → list T → Prop) Ex l :
    i < n → n ≤ length l → Φ tt (<[i:=x]> l) →
    wp ans (put (Q:=Q) (R:=R) n i x) Φ Ex l.
  Proof.
    intros Hi Hn H. unfold put. rewrite (proj2 (Nat.ltb_lt i n) Hi). 
    split; [lia|done].
  Qed.
  Lemma wp_uswap n i j (Φ : unit → list T → Prop) Ex l :
    i < n → j < n → n ≤ length l → Φ tt (swapl i j l) →
    wp ans (uswap (Q:=Q) (R:=R) n i j) Φ Ex l.
  Proof.
    intros Hi Hj Hn H. unfold uswap.
    apply wp_bind, wp_uget; [done..|]. intros x Hx.
    apply wp_bind, wp_uget; [done..|]. intros y Hy.
    apply wp_bind, wp_uput; [done..|].
    apply wp_uput; [done|by rewrite insert_length|].
    unfold swapl in H. by rewrite Hx, Hy in H.
  Qed.
  Lemma wp_swap n i j (Φ : unit → list T → Prop) Ex l :
    i < n → j < n → n ≤ length l → Φ tt (swapl i j l) →
    wp ans (swap (Q:=Q) (R:=R) n i j) Φ Ex l.
  Proof.
    intros Hi Hj Hn H. unfold swap.
    rewrite (proj2 (Nat.ltb_lt i n) Hi), (proj2 (Nat.ltb_lt j n) Hj).
    by apply wp_uswap.
  Qed.
  Lemma wp_usub a b (Φ : nat → list T → Prop) Ex l :
    b ≤ a → Φ (a - b) l → wp ans (usub (T:=T) (Q:=Q) (R:=R) a b) Φ Ex l.
  Proof. intros H ?. unfold usub. by rewrite (proj2 (Nat.leb_le b a) H). Qed.
  Lemma wp_nonoverlapping a b (Φ : unit → list T → Prop) Ex l :
    a ≠ b → Φ tt l → wp ans (nonoverlapping a b : P unit) Φ Ex l.
  Proof. intros Hne H. unfold nonoverlapping. by rewrite (proj2 (Nat.eqb_neq _ _) Hne). Qed.
  Lemma wp_dassert c b (Φ : unit → list T → Prop) Ex l :
    b = true → Φ tt l → wp ans (dassert (T:=T) (Q:=Q) (R:=R) c b) Φ Ex l.
  Proof. intros -> ?. unfold dassert. rewrite andb_false_r. done. Qed.
  Lemma wp_assert b (Φ : unit → list T → Prop) Ex l :
    b = true → Φ tt l → wp ans (assert (T:=T) (Q:=Q) (R:=R) b) Φ Ex l.
  Proof. by intros ->. Qed.

  Lemma wp_slice {A} n a b (p : nat → P A) (Φ : A → list T → Prop) Ex l :
    a ≤ b → b ≤ n → n ≤ length l →
    wp ans (p (b - a))
      (λ r m, length m = b - a → Φ r (take a l ++ m ++ drop b l))
      (λ e m, length m = b - a → Ex e (take a l ++ m ++ drop b l))
      (take (b - a) (drop a l)) →
    wp ans (slice n a b p) Φ Ex l.
  Proof.
    intros Hab Hbn Hn H. unfold slice.
    rewrite (proj2 (Nat.leb_le a b) Hab), (proj2 (Nat.leb_le b n) Hbn). simpl.
    apply wp_focus with (n := b - a); [lia|].
    replace (a + (b - a)) with b by lia. done.
  Qed.
  (** A slice that is only taken for its bounds check. *)
  Lemma wp_slice_check n a b (Φ : unit → list T → Prop) Ex l :
    a ≤ b → b ≤ n → n ≤ length l → Φ tt l →
    wp ans (slice (T:=T) (Q:=Q) (R:=R) n a b (λ _, Ret tt)) Φ Ex l.
  Proof.
    intros Hab Hbn Hn H. unfold slice.
    rewrite (proj2 (Nat.leb_le a b) Hab), (proj2 (Nat.leb_le b n) Hbn). done.
  Qed.
  Lemma wp_slice_app {A} n a b (p : nat → P A) (Φ : A → list T → Prop) Ex l1 l2 l3 :
    a = length l1 → b = a + length l2 → b ≤ n →
    wp ans (p (length l2))
      (λ r m, length m = length l2 → Φ r (l1 ++ m ++ l3))
      (λ e m, length m = length l2 → Ex e (l1 ++ m ++ l3)) l2 →
    wp ans (slice n a b p) Φ Ex (l1 ++ l2 ++ l3).
  Proof.
    intros -> -> Hbn H. unfold slice.
    rewrite (proj2 (Nat.leb_le _ _)), (proj2 (Nat.leb_le _ n) Hbn) by lia. simpl.
    replace (length l1 + length l2 - length l1) with (length l2) by lia.
    by apply wp_focus_app.
  Qed.

  Lemma wp_for_up a cnt (body : nat → P unit) (I : nat → list T → Prop) Ex l :
    I a l →
    (∀ i m, a ≤ i < a + cnt → I i m → wp ans (body i) (λ _ m', I (S i) m') Ex m) →
    wp ans (for_up a cnt body) (λ _ m, I (a + cnt) m) Ex l.
  Proof.
    revert a l. induction cnt as [|cnt IH]; intros a l Ha Hbody; simpl.
    - by rewrite Nat.add_0_r.
    - apply wp_bind. eapply wp_mono; [apply Hbody; [lia|done]| |auto].
      intros ? m Hm Hi; simpl in Hi. replace (a + S cnt) with (S a + cnt) by lia.
      apply IH; [done|]. intros i m' Hi'. apply Hbody. lia.
  Qed.
  Lemma wp_for_down a cnt (body : nat → P unit) (I : nat → list T → Prop) Ex l :
    I (a + cnt) l →
    (∀ i m, a ≤ i < a + cnt → I (S i) m → wp ans (body i) (λ _ m', I i m') Ex m) →
    wp ans (for_down a cnt body) (λ _ m, I a m) Ex l.
  Proof.
    revert l. induction cnt as [|cnt IH]; intros l Ha Hbody; simpl.
    - by rewrite Nat.add_0_r in Ha.
    - apply wp_bind. eapply wp_mono; [apply Hbody; [lia|]| |auto].
      + by replace (S (a + cnt)) with (a + S cnt) by lia.
      + intros ? m Hm Hi; simpl in Hi. apply IH; [done|]. intros i m' Hi'. apply Hbody. lia.
  Qed.
End rules.

Section rules_cmp.
  Context {T : Type} (ans : T * T → option bool → Prop).
  Implicit Types (l : list T) (Ex : exn → list T → Prop).

  Lemma wp_is_less a b (Φ : bool → list T → Prop) Ex l :
    (∀ r, ans (a, b) (Some r) → Φ r l) →
    (ans (a, b) None → Ex UserPanic l) →
    wp ans (is_less a b) Φ Ex l.
  Proof. intros H1 H2. unfold is_less, wp. intros [r|] Hr; auto. Qed.

  (** ... within the scope of a value whose destructor is [cl]. *)
  Lemma wp_is_less_guard cl a b (Φ : bool → list T → Prop) Ex l :
    (∀ r, ans (a, b) (Some r) → Φ r l) →
    (ans (a, b) None → wp ans cl (λ _ l', Ex UserPanic l') Ex l) →
    wp ans (on_unwind cl (is_less a b)) Φ Ex l.
  Proof. intros. by apply wp_on_unwind, wp_is_less. Qed.

  Lemma upanic_intro a b l0 l : ans (a, b) None → l ≡ₚ l0 → upanic ans l0 UserPanic l.
  Proof. intros H1 H2. repeat split; eauto. Qed.
  Lemma upanic_perm l0 l1 e l : upanic ans l0 e l → l0 ≡ₚ l1 → upanic ans l1 e l.
  Proof. intros (?&?&H) Hp. repeat split; auto. by rewrite H. Qed.
End rules_cmp.

Lemma wp_Par {T Q R A B C} (ans : Q → R → Prop) (p1 : prog T Q R B) (p2 : prog T Q R C)
    (k : B + exn → C + exn → prog T Q R A) (Φ : A → list T → Prop) (E : exn → list T → Prop) l :
  wp ans p1
    (λ b l1, wp ans p2 (λ c l2, wp ans (k (inl b) (inl c)) Φ E l2)
                       (λ e l2, wp ans (k (inl b) (inr e)) Φ E l2) l1)
    (λ e1 l1, wp ans p2 (λ c l2, wp ans (k (inr e1) (inl c)) Φ E l2)
                        (λ e l2, wp ans (k (inr e1) (inr e)) Φ E l2) l1) l →
  wp ans (Par p1 p2 k) Φ E l.
Proof. done. Qed.
Global Opaque wp bind on_unwind relocate focus.

Ltac wp_apply H := eapply wp_mono; [apply H| |].
