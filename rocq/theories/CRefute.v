(** * A comparator that makes the unstable sort quadratic.

    [lt3] is a pure relation (not a strict weak order: [2] is less than itself).
    On [0..0 1 2..2] the first partitioning is balanced and its pivot is [1]; from
    then on [recurse] sees a slice of [2]s with predecessor [1], which it takes
    for equal to the pivot, and [partition_equal] removes only one element each
    time (src/quick_sort.rs:94-103 leaves [limit] alone on this path). *)
From Verif Require Export CQuick.
From stdpp Require Import list.

Definition lt3 (a b : nat) : bool :=
  match a, b with 0, 1 => true | 2, 2 => true | _, _ => false end.
Definition bad_list (k : nat) : list nat := replicate (2 * k) 0 ++ 1 :: replicate (2 * k + 1) 2.

Local Transparent wp wpg.
Local Arguments wpg {T Q R G A} ans !p Φ E g l.
Local Arguments wp {T Q R A} ans !p Φ E l.

(** Nothing is ever subtracted from the number of calls. *)
Lemma wpg_grow {T Q R A} (ans : Q → R → Prop) (p : prog T Q R A) :
  ∀ Φ E k g l, k ≤ g → wp ans p Φ E l →
  wpg (cnt_ans ans) p (λ a g' l', k ≤ g' ∧ Φ a l') (λ e g' l', k ≤ g' ∧ E e l') g l.
Proof.
  induction p as [A a|A e|A i f IH|A i x f IH|A q f IH|A B' C p1 IH1 p2 IH2 f IH| |];
    intros Φ E k g l Hg Hwp; simpl in *; auto.
  - destruct (l !! i) as [x|]; [|done]. auto.
  - destruct Hwp. auto.
  - intros r g' [Hr ->]. apply IH; auto.
  - eapply wpg_mono; [apply (IH1 _ _ k g l Hg Hwp)| |]; simpl; intros b g1 l1 Hl1 [Hk1 H1];
      (eapply wpg_mono; [apply (IH2 _ _ k g1 l1 Hk1 H1)| |]; simpl; intros c g2 l2 Hl2 [Hk2 H2];
       by apply IH).
Qed.

Lemma wpg_slice_check {T Q R G} (ans : G → Q → R → G → Prop) n a b
    (Φ : unit → G → list T → Prop) (E : exn → G → list T → Prop) g l :
  a ≤ b → b ≤ n → n ≤ length l → Φ tt g l →
  wpg ans (slice (T:=T) (Q:=Q) (R:=R) n a b (λ _, Ret tt)) Φ E g l.
Proof.
  intros Hab Hbn Hn H. apply wpg_slice; [done..|]. apply wpg_ret. intros _.
  replace b with (a + (b - a)) at 2 by lia. by rewrite <-take_drop_mid by lia.
Qed.
Global Opaque wp wpg.

Section refute.
  Context (c : cfg).
  Notation ok := (cnt_ans (ans_lt lt3)).
  Notation E0 := (λ (_ : exn) (_ : nat) (_ : list nat), False).

  Lemma no_upanic (l : list nat) e l' : upanic (ans_lt lt3) l e l' → False.
  Proof. intros (_ & (q & Hq) & _). done. Qed.
  Lemma wpg_call {A} (p : cmp_prog nat A) Φ (l0 l : list nat) (Ψ : A → nat → list nat → Prop) k :
    wp (ans_lt lt3) p Φ (upanic (ans_lt lt3) l0) l →
    (∀ a g l', length l' = length l → k ≤ g → Φ a l' → Ψ a g l') →
    wpg ok p Ψ E0 k l.
  Proof.
    intros Hwp H. eapply wpg_mono; [by apply (wpg_grow _ p Φ (upanic (ans_lt lt3) l0) k k l)| |]; simpl.
    - intros a g l' Hl [? ?]. auto.
    - intros e g l' _ [_ Hu]. by eapply no_upanic.
  Qed.
  Lemma wpg_lt3 a b (Φ : bool → nat → list nat → Prop) k l :
    Φ (lt3 a b) (S k) l → wpg ok (is_less a b) Φ E0 k l.
  Proof.
    intros H. apply wpg_is_less; [intros r g' [[= ->] ->]; done|intros g' [[=] _]].
  Qed.
  Lemma rep_lookup m (x y : nat) i : replicate m x !! i = Some y → y = x ∧ i < m.
  Proof. apply lookup_replicate. Qed.
  Lemma rep_perm m (x : nat) l : l ≡ₚ replicate m x → l = replicate m x.
  Proof. intros. symmetry. by apply replicate_Permutation. Qed.

  Lemma wpg_guard {A} g (p : cmp_prog nat A) Φ k l :
    wpg ok p Φ E0 k l → wpg ok (on_unwind g p) Φ E0 k l.
  Proof. intros H. apply wpg_on_unwind. eapply wpg_mono; [exact H|auto|done]. Qed.

  Lemma wpg_slice0 {A} n a b (p : nat → cmp_prog nat A) (Φ : A → nat → list nat → Prop) g l1 l2 l3 :
    a = length l1 → b = a + length l2 → b ≤ n →
    wpg ok (p (length l2)) (λ r g' m, length m = length l2 → Φ r g' (l1 ++ m ++ l3)) E0 g l2 →
    wpg ok (slice n a b p) Φ E0 g (l1 ++ l2 ++ l3).
  Proof.
    intros. apply wpg_slice_app; [done..|]. eapply wpg_mono; [eassumption|auto|done].
  Qed.

  (** ** A slice of [2]s. *)
  Lemma swapl_replicate m (x : nat) i j : swapl i j (replicate m x) = replicate m x.
  Proof.
    unfold swapl. destruct (replicate m x !! i) as [a|] eqn:Ha; [|done].
    destruct (replicate m x !! j) as [b|] eqn:Hb; [|done].
    apply rep_lookup in Ha as [-> _], Hb as [-> _]. by rewrite !insert_replicate.
  Qed.

  Lemma insertion_steps_twos steps m k :
    20 < m →
    wpg ok (partial_insertion_steps c steps m 1)
      (λ b g l', b = false ∧ k ≤ g ∧ l' = replicate m 2) E0 k (replicate m 2).
  Proof.
    intros Hm. revert k. induction steps as [|st IH]; intros k; cbn [partial_insertion_steps].
    { by apply wpg_ret. }
    apply wpg_bind. cbn [find_unsorted]. destruct (Nat.ltb_spec 1 m); [|lia].
    apply wpg_bind, wpg_usub; [lia|].
    apply wpg_bind, wpg_uget; [lia|by rewrite replicate_length|]. intros x [-> _]%rep_lookup.
    apply wpg_bind, wpg_uget; [lia|by rewrite replicate_length|]. intros y [-> _]%rep_lookup.
    apply wpg_bind, wpg_lt3. simpl. apply wpg_ret.
    destruct (Nat.eqb_spec 1 m); [lia|].
    destruct (m <? SHORTEST_SHIFTING); [apply wpg_ret; auto|].
    apply wpg_bind, wpg_usub; [lia|].
    apply wpg_bind, wpg_swap; [lia|lia|by rewrite replicate_length|].
    rewrite swapl_replicate. apply wpg_bind, wpg_ret.
    wpg_apply (IH (S k)); [|done].
    intros b g l' _ (? & ? & ?). repeat split; [done|lia|done].
  Qed.

  Lemma scan_r_twos fuel m r k :
    0 < r → r < fuel → r ≤ m →
    wpg ok (pe_scan_r fuel m 2 0 r)
      (λ r' g l', r' = 0 ∧ k + (r - 1) ≤ g ∧ l' = replicate m 2) E0 k (replicate m 2).
  Proof.
    revert r k. induction fuel as [|f IH]; intros r k Hr Hf Hm; [lia|]. cbn [pe_scan_r].
    apply wpg_bind, wpg_usub; [lia|]. destruct (Nat.leb_spec (r - 1) 0).
    { apply wpg_ret. repeat split; lia. }
    apply wpg_bind, wpg_uget; [lia|by rewrite replicate_length|]. intros x [-> _]%rep_lookup.
    apply wpg_bind, wpg_lt3. simpl.
    wpg_apply (IH (r - 1) (S k)); [lia|lia|lia| |done].
    intros r' g l' _ (? & ? & ?). repeat split; [done|lia|done].
  Qed.
  Lemma partition_equal_twos m pivot k :
    20 < m → pivot < m →
    wpg ok (partition_equal m pivot)
      (λ mid g l', mid = 1 ∧ k + (m - 2) ≤ g ∧ l' = replicate m 2) E0 k (replicate m 2).
  Proof.
    intros Hm Hp. unfold partition_equal.
    apply wpg_bind, wpg_swap; [lia|lia|by rewrite replicate_length|]. rewrite swapl_replicate.
    apply wpg_bind, wpg_slice_check; [lia|lia|by rewrite replicate_length|].
    apply wpg_bind, wpg_get; [lia|by rewrite replicate_length|]. intros x [-> _]%rep_lookup.
    apply wpg_bind, wpg_guard. cbv zeta. destruct (Nat.eqb_spec (m - 1) 0); [lia|].
    assert (Hsp : replicate m 2 = [2] ++ replicate (m - 1) 2 ++ []).
    { rewrite app_nil_r. by replace m with (S (m - 1)) at 1 by lia. }
    apply wpg_bind. rewrite Hsp at 1.
    apply wpg_slice0; [done|rewrite replicate_length; lia|done|].
    rewrite replicate_length. cbn [pe_loop]. apply wpg_bind. cbn [pe_scan_l].
    destruct (Nat.ltb_spec 0 (m - 1)); [|lia].
    apply wpg_bind, wpg_uget; [lia|by rewrite replicate_length|]. intros x [-> _]%rep_lookup.
    apply wpg_bind, wpg_lt3. simpl. apply wpg_ret. apply wpg_bind.
    wpg_apply (scan_r_twos (S (m - 1)) (m - 1) (m - 1) (S k)); [lia|lia|lia| |done].
    intros r' g l' _ (-> & Hg & ->). simpl. apply wpg_ret. intros _. apply wpg_ret.
    apply wpg_bind, wpg_uput; [lia|simpl; rewrite app_length, replicate_length; simpl; lia|].
    apply wpg_ret. repeat split; [lia|]. simpl. rewrite app_nil_r.
    change (2 :: replicate (m - 1) 2) with (replicate (S (m - 1)) 2). f_equal. lia.
  Qed.

  Fixpoint low (m : nat) : nat :=
    match m with 0 => 0 | S m' => if S m' <=? 20 then 0 else (m' - 1) + low m' end.

  Lemma recurse_twos d fuel m limit wp k :
    m < fuel → limit ≠ 0 →
    wpg ok (qs_recurse c (S d) fuel m (Some 1) limit true wp)
      (λ _ g _, k + low m ≤ g) E0 k (replicate m 2).
  Proof.
    revert m wp k. induction fuel as [|f IH]; intros m wp k Hf Hl; [lia|].
    assert (Hlen : m = length (replicate m 2)) by (by rewrite replicate_length).
    rewrite qs_recurse_unfold. unfold QS_MAX_INSERTION. destruct (Nat.leb_spec m 20) as [Hs|Hs].
    { assert (low m = 0) as ->.
      { destruct m; [done|]. cbn [low]. by rewrite (proj2 (Nat.leb_le _ _) Hs). }
      destruct (Nat.leb_spec 2 m); [|apply wpg_ret; lia].
      eapply wpg_call; [by apply (insertion_sort_shift_left_spec c (ans_lt lt3) m 1); [|lia]|].
      intros; lia. }
    destruct (Nat.eqb_spec limit 0); [done|].
    apply wpg_bind, wpg_ret. apply wpg_bind.
    eapply wpg_call; [apply (choose_pivot_spec (ans_lt lt3) m); [done|lia]|].
    intros [pivot likely] k1 l1 _ Hk1 [->%rep_perm Hpiv].
    apply wpg_bind.
    eapply (wpg_mono _ _ (λ b g l', b = false ∧ k1 ≤ g ∧ l' = replicate m 2) _ E0); [| |done].
    { destruct (true && wp && likely); [by apply insertion_steps_twos|by apply wpg_ret]. }
    intros b k2 l2 _ (-> & Hk2 & ->).
    apply wpg_bind.
    apply wpg_bind, wpg_get; [lia|lia|]. intros x [-> _]%rep_lookup.
    apply wpg_bind, wpg_lt3, wpg_ret. simpl.
    apply wpg_bind. wpg_apply (partition_equal_twos m pivot (S k2)); [done|done| |done].
    intros mid g l' _ (-> & Hg & ->).
    assert (Hsp : replicate m 2 = [2] ++ replicate (m - 1) 2 ++ []).
    { rewrite app_nil_r. by replace m with (S (m - 1)) at 1 by lia. }
    rewrite Hsp at 1.
    apply wpg_slice0; [done|rewrite replicate_length; lia|done|]. rewrite replicate_length.
    wpg_apply (IH (m - 1) wp g); [lia|done| |done].
    cbv beta. intros [] g' l' _ Hg' _.
    destruct m as [|m]; [lia|]. cbn [low]. rewrite Nat.sub_succ, Nat.sub_0_r in Hg'.
    destruct (Nat.leb_spec (S m) 20); lia.
  Qed.

  (** ** The first partitioning. *)
  Context (k : nat) (Hk : 13 ≤ k).
  Notation n := (4 * k + 2).

  Definition val (i : nat) : nat := if i <? 2 * k then 0 else if i =? 2 * k then 1 else 2.
  Lemma bad_length : length (bad_list k) = n.
  Proof. unfold bad_list. rewrite app_length. cbn. rewrite !replicate_length. lia. Qed.
  Lemma bad_lookup i x : bad_list k !! i = Some x → x = val i.
  Proof.
    unfold bad_list, val. intros H. destruct (Nat.ltb_spec i (2 * k)) as [Hi|Hi].
    - rewrite lookup_app_l in H by (by rewrite replicate_length). by apply rep_lookup in H as [-> _].
    - rewrite lookup_app_r in H by (by rewrite replicate_length). rewrite replicate_length in H.
      destruct (Nat.eqb_spec i (2 * k)) as [->|Hne].
      + rewrite Nat.sub_diag in H. by injection H as <-.
      + replace (i - 2 * k) with (S (i - 2 * k - 1)) in H by lia. simpl in H.
        by apply rep_lookup in H as [-> _].
  Qed.
  Lemma val0 i : i < 2 * k → val i = 0.
  Proof. intros. unfold val. by rewrite (proj2 (Nat.ltb_lt _ _)). Qed.
  Lemma val1 : val (2 * k) = 1.
  Proof. unfold val. by rewrite Nat.ltb_irrefl, Nat.eqb_refl. Qed.
  Lemma val2 i : 2 * k < i → val i = 2.
  Proof.
    intros. unfold val. destruct (Nat.ltb_spec i (2 * k)); [lia|].
    destruct (Nat.eqb_spec i (2 * k)); [lia|done].
  Qed.
  Lemma sort2_bad a b s (Φ : nat * nat * nat → nat → list nat → Prop) g :
    a < n → b < n →
    Φ (if lt3 (val b) (val a) then (b, a, S s) else (a, b, s)) (S g) (bad_list k) →
    wpg ok (sort2 n a b s) Φ E0 g (bad_list k).
  Proof.
    intros Ha Hb H. unfold sort2.
    apply wpg_bind, wpg_uget; [lia|by rewrite bad_length|]. intros x ->%bad_lookup.
    apply wpg_bind, wpg_uget; [lia|by rewrite bad_length|]. intros y ->%bad_lookup.
    apply wpg_bind, wpg_lt3, wpg_ret. by destruct (lt3 _ _).
  Qed.
  Lemma choose_pivot_bad g :
    wpg ok (choose_pivot n) (λ p g' l', p = (2 * k, false) ∧ g ≤ g' ∧ l' = bad_list k) E0 g (bad_list k).
  Proof.
    unfold choose_pivot, SHORTEST_MEDIAN_OF_MEDIANS. cbv zeta.
    assert (Hq : n / 4 = k).
    { symmetry. apply (Nat.div_unique _ 4 k 2); lia. }
    rewrite Hq. replace (k * 2) with (2 * k) by lia. replace (k * 3) with (3 * k) by lia.
    apply wpg_bind. destruct (Nat.leb_spec 8 n); [|lia]. apply wpg_bind.
    destruct (Nat.leb_spec 50 n); [|lia].
    unfold sort_adjacent, sort3.
    (* around k *)
    apply wpg_bind, wpg_bind, wpg_usub; [lia|].
    apply wpg_bind, wpg_bind, sort2_bad; [lia|lia|]. rewrite !val0 by lia. cbv beta iota delta [lt3].
    apply wpg_bind, sort2_bad; [lia|lia|]. rewrite !val0 by lia. cbv beta iota delta [lt3].
    apply wpg_bind, sort2_bad; [lia|lia|]. rewrite !val0 by lia. cbv beta iota delta [lt3].
    apply wpg_ret, wpg_ret.
    (* around 2k *)
    apply wpg_bind, wpg_bind, wpg_usub; [lia|].
    apply wpg_bind, wpg_bind, sort2_bad; [lia|lia|].
    rewrite (val0 (_ - 1)), val1 by lia. cbv beta iota delta [lt3].
    apply wpg_bind, sort2_bad; [lia|lia|]. rewrite (val2 (_ + 1)), val1 by lia. cbv beta iota delta [lt3].
    apply wpg_bind, sort2_bad; [lia|lia|]. rewrite (val0 (_ - 1)), val1 by lia. cbv beta iota delta [lt3].
    apply wpg_ret, wpg_ret.
    (* around 3k *)
    apply wpg_bind, wpg_bind, wpg_usub; [lia|].
    apply wpg_bind, wpg_bind, sort2_bad; [lia|lia|]. rewrite !val2 by lia. cbv beta iota delta [lt3].
    apply wpg_bind, sort2_bad; [lia|lia|]. rewrite !val2 by lia. cbv beta iota delta [lt3].
    apply wpg_bind, sort2_bad; [lia|lia|]. rewrite !val2 by lia. cbv beta iota delta [lt3].
    apply wpg_ret, wpg_ret, wpg_ret.
    (* the median of these *)
    apply wpg_bind, wpg_bind, sort2_bad; [lia|lia|]. rewrite val1, (val0 k) by lia. cbv beta iota delta [lt3].
    apply wpg_bind, sort2_bad; [lia|lia|]. rewrite val1, (val2 (3 * k)) by lia. cbv beta iota delta [lt3].
    apply wpg_bind, sort2_bad; [lia|lia|]. rewrite val1, (val0 k) by lia. cbv beta iota delta [lt3].
    apply wpg_ret, wpg_ret, wpg_ret. split; [done|]. split; [lia|done].
  Qed.

  Lemma swapl_ends (x y : nat) A B :
    swapl 0 (S (length A)) (x :: A ++ y :: B) = y :: A ++ x :: B.
  Proof.
    unfold swapl. simpl. rewrite lookup_app_r, Nat.sub_diag by done. simpl. f_equal.
    replace (length A) with (length A + 0) by lia. by rewrite insert_app_r.
  Qed.
  Definition bad_tail : list nat := replicate (2 * k) 0 ++ replicate (2 * k + 1) 2.
  Lemma zeros_l : replicate (2 * k) 0 = 0 :: replicate (2 * k - 1) 0.
  Proof. by replace (2 * k) with (S (2 * k - 1)) at 1 by lia. Qed.
  Lemma zeros_r : replicate (2 * k) 0 = replicate (2 * k - 1) 0 ++ [0].
  Proof. replace (2 * k) with ((2 * k - 1) + 1) at 1 by lia. by rewrite replicate_add. Qed.
  Lemma bad_swap : swapl 0 (2 * k) (bad_list k) = 1 :: bad_tail.
  Proof.
    pose proof (swapl_ends 0 1 (replicate (2 * k - 1) 0) (replicate (2 * k + 1) 2)) as H.
    rewrite replicate_length in H. replace (S (2 * k - 1)) with (2 * k) in H by lia.
    unfold bad_list. rewrite zeros_l. cbn [app]. rewrite H.
    unfold bad_tail. by rewrite zeros_r, <-app_assoc.
  Qed.
  Lemma bad_swap_back : swapl 0 (2 * k) (1 :: bad_tail) = bad_list k.
  Proof.
    pose proof (swapl_ends 1 0 (replicate (2 * k - 1) 0) (replicate (2 * k + 1) 2)) as H.
    rewrite replicate_length in H. replace (S (2 * k - 1)) with (2 * k) in H by lia.
    unfold bad_tail. rewrite zeros_r, <-app_assoc. cbn [app]. rewrite H.
    unfold bad_list. by rewrite zeros_l.
  Qed.
  Lemma tail_length : length bad_tail = 4 * k + 1.
  Proof. unfold bad_tail. rewrite app_length, !replicate_length. lia. Qed.
  Lemma tail_lookup i x : bad_tail !! i = Some x → x = if i <? 2 * k then 0 else 2.
  Proof.
    unfold bad_tail. intros H. destruct (Nat.ltb_spec i (2 * k)).
    - rewrite lookup_app_l in H by (by rewrite replicate_length). by apply rep_lookup in H as [-> _].
    - rewrite lookup_app_r in H by (by rewrite replicate_length). by apply rep_lookup in H as [-> _].
  Qed.
  Lemma scan_l_bad fuel l g :
    l ≤ 2 * k → 2 * k < fuel + l →
    wpg ok (pt_scan_l fuel (4 * k + 1) 1 l (4 * k + 1))
      (λ l' g' m, l' = 2 * k ∧ g ≤ g' ∧ m = bad_tail) E0 g bad_tail.
  Proof.
    revert l g. induction fuel as [|f IH]; intros l g Hl Hf; [lia|]. cbn [pt_scan_l].
    destruct (Nat.ltb_spec l (4 * k + 1)); [|lia].
    apply wpg_bind, wpg_uget; [lia|by rewrite tail_length|]. intros x ->%tail_lookup.
    apply wpg_bind, wpg_lt3. destruct (Nat.ltb_spec l (2 * k)); cbv beta iota delta [lt3].
    - wpg_apply (IH (S l) (S g)); [lia|lia| |done]. intros l' g' m _ (? & ? & ?).
      repeat split; [done|lia|done].
    - apply wpg_ret. repeat split; lia.
  Qed.
  Lemma scan_r_bad fuel r g :
    2 * k ≤ r → r ≤ 4 * k + 1 → r < fuel + 2 * k →
    wpg ok (pt_scan_r fuel (4 * k + 1) 1 (2 * k) r)
      (λ r' g' m, r' = 2 * k ∧ g ≤ g' ∧ m = bad_tail) E0 g bad_tail.
  Proof.
    revert r g. induction fuel as [|f IH]; intros r g Hl Hr Hf; [lia|]. cbn [pt_scan_r].
    destruct (Nat.ltb_spec (2 * k) r); [|apply wpg_ret; repeat split; lia].
    apply wpg_bind, wpg_usub; [lia|].
    apply wpg_bind, wpg_uget; [lia|by rewrite tail_length|]. intros x ->%tail_lookup.
    apply wpg_bind, wpg_lt3. destruct (Nat.ltb_spec (r - 1) (2 * k)); [lia|].
    cbv beta iota delta [lt3].
    wpg_apply (IH (r - 1) (S g)); [lia|lia|lia| |done]. intros l' g' m _ (? & ? & ?).
    repeat split; [done|lia|done].
  Qed.
  Lemma partition_bad g :
    wpg ok (MPartition.partition c n (2 * k))
      (λ p g' l', p = (2 * k, true) ∧ g ≤ g' ∧ l' = bad_list k) E0 g (bad_list k).
  Proof.
    unfold MPartition.partition.
    apply wpg_bind, wpg_swap; [lia|lia|by rewrite bad_length|]. rewrite bad_swap.
    assert (Hlen : n ≤ length (1 :: bad_tail)) by (cbn [length]; rewrite tail_length; lia).
    apply wpg_bind, wpg_slice_check; [lia|lia|done|].
    apply wpg_bind, wpg_get; [lia|done|]. intros x [= <-].
    apply wpg_bind, wpg_guard.
    change (1 :: bad_tail) with ([1] ++ bad_tail). rewrite <-(app_nil_r bad_tail).
    apply wpg_slice0; [done|rewrite tail_length; simpl; lia|lia|]. rewrite tail_length.
    apply wpg_bind. wpg_apply (scan_l_bad (S (4 * k + 1)) 0 g); [lia|lia| |done].
    intros l g1 m _ (-> & Hg1 & ->).
    apply wpg_bind. wpg_apply (scan_r_bad (S (4 * k + 1)) (4 * k + 1) g1); [lia|lia|lia| |done].
    intros r g2 m _ (-> & Hg2 & ->).
    apply wpg_bind.
    replace bad_tail with (replicate (2 * k) 0 ++ [] ++ replicate (2 * k + 1) 2) at 1 by done.
    apply wpg_slice0; [by rewrite replicate_length|simpl; lia|lia|]. simpl length.
    unfold partition_in_blocks. rewrite Nat.eqb_refl. apply wpg_ret. intros _.
    apply wpg_ret. intros _. rewrite Nat.add_0_r, Nat.leb_refl.
    cbn [app]. rewrite app_nil_r. fold bad_tail.
    apply wpg_bind, wpg_uput; [lia|done|]. cbn [insert list_insert].
    apply wpg_bind, wpg_swap; [lia|lia|done|]. rewrite bad_swap_back.
    apply wpg_ret. repeat split; lia.
  Qed.

  Lemma quick_sort_bad :
    zst c = false →
    wpg ok (quick_sort c n) (λ _ g _, low (2 * k + 1) ≤ g) E0 0 (bad_list k).
  Proof.
    intros Hz. unfold quick_sort. rewrite Hz.
    pose proof (bit_length_spec n) as Hbl. set (d := bit_length n) in *.
    rewrite qs_recurse_unfold. unfold QS_MAX_INSERTION.
    destruct (Nat.leb_spec n 20); [lia|]. destruct (Nat.eqb_spec d 0) as [Hd|Hd].
    { rewrite Hd in Hbl. simpl in Hbl. lia. }
    apply wpg_bind, wpg_ret. apply wpg_bind.
    wpg_apply (choose_pivot_bad 0); [|done]. intros p g1 l1 _ (-> & Hg1 & ->).
    rewrite andb_false_r. apply wpg_bind, wpg_ret. apply wpg_bind, wpg_ret.
    apply wpg_bind. wpg_apply (partition_bad g1); [|done]. intros p g2 l2 _ (-> & Hg2 & ->).
    apply wpg_bind, wpg_usub; [lia|].
    apply wpg_bind.
    eapply (wpg_mono _ _ (λ _ g l', g = g2 ∧ l' = bad_list k) _ E0); [| |done].
    { assert (Hb : bad_list k = replicate (2 * k) 0 ++ (1 :: replicate (2 * k + 1) 2) ++ [])
        by (by rewrite app_nil_r).
      rewrite Hb at 1.
      apply wpg_slice0; [by rewrite replicate_length|cbn [length]; rewrite replicate_length; lia|lia|].
      apply wpg_slice_check; [lia|cbn [length]; lia|done|]. intros _. by rewrite <-Hb. }
    intros [] g3 l3 _ [-> ->].
    apply wpg_bind, wpg_get; [lia|by rewrite bad_length|]. intros x ->%bad_lookup. rewrite val1.
    destruct (Nat.ltb_spec (2 * k) (n - (2 * k + 1))); [|lia].
    assert (Hwb : (n / 8 <=? Nat.min (2 * k) (n - 2 * k)) = true).
    { apply Nat.leb_le. pose proof (Nat.mul_div_le n 8). lia. }
    rewrite Hwb.
    apply wpg_bind. unfold bad_list.
    change (replicate (2 * k) 0 ++ 1 :: replicate (2 * k + 1) 2)
      with ([] ++ replicate (2 * k) 0 ++ 1 :: replicate (2 * k + 1) 2).
    apply wpg_slice0; [done|rewrite replicate_length; simpl; lia|lia|]. rewrite replicate_length.
    assert (Hd' : 2 ^ d = 2 * 2 ^ (d - 1)).
    { replace d with (S (d - 1)) at 1 by lia. by rewrite Nat.pow_succ_r'. }
    eapply wpg_call.
    { apply (qs_recurse_spec c (ans_lt lt3)); [by rewrite replicate_length|lia|lia|lia|done]. }
    intros [] g3 l' _ Hg3 [->%rep_perm _] _.
    replace ([] ++ replicate (2 * k) 0 ++ 1 :: replicate (2 * k + 1) 2)
      with ((replicate (2 * k) 0 ++ [1]) ++ replicate (2 * k + 1) 2 ++ [])
      by (rewrite app_nil_r, <-app_assoc; done).
    apply wpg_slice0; [rewrite app_length, replicate_length; done|
      rewrite replicate_length; lia|lia|]. rewrite replicate_length.
    wpg_apply (recurse_twos d n (2 * k + 1) d true g3); [lia|done| |done].
    cbv beta. intros; lia.
  Qed.
End refute.

Lemma low_bound m : (m - 20) * (m - 20) ≤ 2 * low m.
Proof.
  induction m as [|m IH]; [simpl; lia|]. cbn [low]. destruct (Nat.leb_spec (S m) 20).
  - replace (S m - 20) with 0 by lia. lia.
  - replace (S m - 20) with (S (m - 20)) by lia. lia.
Qed.

Definition cmp3 (a b : nat) : comparison := if lt3 a b then Lt else Gt.

Lemma bad_calls (c : cfg) (k : nat) :
  zst c = false → 13 ≤ k →
  let '(_, (_, tr), _) :=
    run (logged (pure_compare cmp3)) (sort_unstable_by c (length (bad_list k))) (tt, []) (bad_list k) in
  (2 * k - 19) * (2 * k - 19) ≤ 2 * length tr.
Proof.
  intros Hz Hk. rewrite bad_length by done.
  pose proof (wpg_run_compare (ans_lt lt3) (pure_compare cmp3) (quick_sort c (4 * k + 2)) (λ _ g _, low (2 * k + 1) ≤ g)
    (λ _ _ _, False) tt
    (bad_list k)) as H.
  specialize (H ltac:(intros s q; rewrite less_of_pure_compare; destruct q as [a b];
    unfold pure_less, is_lt, cmp3, ans_lt; simpl; by destruct (lt3 a b))
    (quick_sort_bad c k Hk Hz)).
  unfold sort_unstable_by. destruct (run _ _ _ _) as [[[a|e| |] [s' tr]] l']; try done.
  pose proof (low_bound (2 * k + 1)). replace (2 * k - 19) with (2 * k + 1 - 20) by lia. lia.
Qed.

Lemma sort_unstable_by_superlinear (c : cfg) (C : nat) :
  zst c = false →
  ∃ l : list nat,
    let '(_, (_, tr), _) :=
      run (logged (pure_compare cmp3)) (sort_unstable_by c (length l)) (tt, []) l in
    C * length l * (Nat.log2 (length l) + 1) < length tr.
Proof.
  intros Hz. set (j := 2 * C + 10). set (k := 2 ^ j).
  assert (HC : C < 2 ^ C) by (apply Nat.pow_gt_lin_r; lia).
  set (X := 2 ^ C) in *.
  assert (Hk : k = X * X * 1024).
  { unfold k, j. rewrite !Nat.pow_add_r. f_equal. replace (2 * C) with (C + C) by lia.
    apply Nat.pow_add_r. }
  exists (bad_list k).
  assert (HX : 1 * 1 ≤ X * X) by (apply Nat.mul_le_mono; lia).
  assert (H13 : 19 ≤ k) by lia.
  pose proof (bad_calls c k Hz ltac:(lia)) as H.
  destruct (run _ _ _ _) as [[r [s tr]] l'].
  rewrite bad_length by lia.
  assert (Hlog : Nat.log2 (4 * k + 2) = j + 2).
  { apply Nat.log2_unique; [lia|]. rewrite Nat.pow_succ_r', Nat.pow_add_r. fold k.
    change (2 ^ 2) with 4. lia. }
  rewrite Hlog. set (t := length tr) in *. clearbody k t. clear Hlog.
  assert (H1 : k * k ≤ 2 * t) by (etransitivity; [|exact H]; apply Nat.mul_le_mono; lia).
  assert (H2 : C * (j + 2 + 1) ≤ X * (13 * X)) by (apply Nat.mul_le_mono; unfold j; lia).
  assert (H3 : C * (4 * k + 2) * (j + 2 + 1) ≤ 5 * k * (13 * (X * X))).
  { transitivity ((4 * k + 2) * (C * (j + 2 + 1))); [lia|].
    apply Nat.mul_le_mono; [lia|]. lia. }
  assert (H4 : k * k = 1024 * (k * (X * X))) by (rewrite Hk at 2; lia).
  assert (H5 : 19 * 1 ≤ k * (X * X)) by (apply Nat.mul_le_mono; lia).
  lia.
Qed.
