(** * TDebugPos: the positions of equal elements.

    A partition that takes away one element only leaves another one of the candidates
    for the pivot in place, equal to the pivot.  [break_patterns] moves it, for most
    lengths, to a position where it is no candidate, so the next partition takes away
    more.  This is what makes the selection safe for up to 37 elements. *)
From Verif Require Export TDebugOrder.
From stdpp Require Import list.

(** ** [break_patterns] as a function on lists *)
Section shuffle.
  Context {T : Type} (w : bool) (n : nat).

  Definition other_of (seed : N) : nat :=
    let o := N.to_nat (N.land seed (2 ^ N.log2_up (N.of_nat n) - 1)) in
    if n <=? o then o - n else o.
  Fixpoint shuffle_loop (pos i cnt : nat) (seed : N) (l : list T) : list T :=
    match cnt with
    | 0 => l
    | S k =>
        let seed := gen_usize w seed in
        shuffle_loop pos (S i) k seed (swapl (pos - 1 + i) (other_of seed) l)
    end.
  Definition shuffle (l : list T) : list T :=
    if 8 <=? n then shuffle_loop (n / 4 * 2) 0 3 (N.of_nat n) l else l.
End shuffle.

Lemma swapl_fmap {T U} (f : T → U) i j (l : list T) : f <$> swapl i j l = swapl i j (f <$> l).
Proof.
  unfold swapl. rewrite !list_lookup_fmap. destruct (l !! i), (l !! j); simpl; try done.
  by rewrite !list_fmap_insert.
Qed.
Lemma shuffle_loop_fmap {T U} (f : T → U) w n pos i cnt seed (l : list T) :
  f <$> shuffle_loop w n pos i cnt seed l = shuffle_loop w n pos i cnt seed (f <$> l).
Proof.
  revert i seed l. induction cnt as [|k IH]; intros i seed l; [done|].
  cbn [shuffle_loop]. rewrite IH. by rewrite swapl_fmap.
Qed.
Lemma shuffle_fmap {T U} (f : T → U) w n (l : list T) : f <$> shuffle w n l = shuffle w n (f <$> l).
Proof. unfold shuffle. destruct (8 <=? n); [|done]. apply shuffle_loop_fmap. Qed.
(** Where the elements go. *)
Lemma shuffle_lookup {T} w n (l : list T) i :
  length l = n → shuffle w n l !! i = shuffle w n (seq 0 n) !! i ≫= (l !!.).
Proof.
  intros Hn. assert (Some <$> shuffle w n l = (l !!.) <$> shuffle w n (seq 0 n)) as H.
  { rewrite !shuffle_fmap. f_equal. apply list_eq. intros j. rewrite !list_lookup_fmap.
    destruct (decide (j < n)) as [Hj|Hj].
    - rewrite lookup_seq_lt by done. simpl. destruct (lookup_lt_is_Some_2 l j) as [x Hx]; [lia|].
      by rewrite Hx.
    - rewrite lookup_seq_ge by lia. simpl. by rewrite lookup_ge_None_2 by lia. }
  apply (f_equal (.!! i)) in H. rewrite !list_lookup_fmap in H.
  destruct (shuffle w n l !! i), (shuffle w n (seq 0 n) !! i); simpl in *; congruence.
Qed.

Lemma other_of_lt n seed : 1 < n → other_of n seed < n.
Proof.
  intros Hn1. unfold other_of. set (o := N.to_nat _).
  assert (Ho : o < 2 * n).
  { unfold o. pose proof (N.log2_up_spec (N.of_nat n)) as [H1 H2]; [lia|].
    set (e := N.log2_up (N.of_nat n)) in *.
    assert (He : (0 < e)%N) by (apply N.log2_up_pos; lia).
    assert (H3 : (2 ^ e = 2 * 2 ^ N.pred e)%N).
    { rewrite <-(N.succ_pred e) at 1 by lia. by rewrite N.pow_succ_r'. }
    replace (2 ^ e - 1)%N with (N.ones e) by (rewrite N.ones_equiv; lia).
    rewrite N.land_ones. pose proof (N.mod_upper_bound seed (2 ^ e)) as H4.
    assert ((2 ^ e ≠ 0)%N) by (apply N.pow_nonzero; lia). specialize (H4 ltac:(done)). lia. }
  destruct (Nat.leb_spec n o); lia.
Qed.

Section programs.
  Context {T : Type} (c : cfg).

  Lemma break_loop_exact ans n pos i cnt seed (l : list T) (Φ : unit → list T → Prop) (E : exn → list T → Prop) :
    n = length l → 1 < n → 0 < pos → pos + i + cnt ≤ n + 1 →
    Φ tt (shuffle_loop (wide c) n pos i cnt seed l) →
    wp (Q:=T * T) (R:=option bool) ans (break_loop c n pos i cnt seed) Φ E l.
  Proof.
    revert i seed l. induction cnt as [|k IH]; intros i seed l Hn Hn1 Hpos Hi HΦ.
    { by apply wp_ret. }
    cbn [break_loop]. cbn [shuffle_loop] in HΦ. cbv zeta in *.
    pose proof (other_of_lt n (gen_usize (wide c) seed) Hn1) as Ho.
    apply wp_bind. unfold other_of in Ho, HΦ. set (o := N.to_nat _) in *.
    eapply (wp_mono _ _ (λ r l', l' = l ∧ r = if n <=? o then o - n else o) _ E); [| |by auto].
    { destruct (Nat.leb_spec n o); [apply wp_usub|apply wp_ret]; auto. }
    intros r l' _ [-> ->]. apply wp_bind, wp_usub; [lia|].
    apply wp_bind, wp_swap; [lia|done|lia|]. apply IH; [by rewrite swapl_length|lia|lia|lia|done].
  Qed.
  Lemma break_patterns_exact ans n (l : list T) (Φ : unit → list T → Prop) (E : exn → list T → Prop) :
    n = length l → Φ tt (shuffle (wide c) n l) →
    wp (Q:=T * T) (R:=option bool) ans (break_patterns c n) Φ E l.
  Proof.
    intros Hn HΦ. unfold break_patterns. unfold shuffle in HΦ.
    destruct (Nat.leb_spec 8 n); [|by apply wp_ret].
    pose proof (Nat.div_mod n 4). pose proof (Nat.mod_upper_bound n 4).
    apply break_loop_exact; [done|lia|lia|lia|done].
  Qed.
End programs.
Lemma shuffle_loop_perm {T} w n pos i cnt seed (l : list T) :
  n = length l → 1 < n → 0 < pos → pos + i + cnt ≤ n + 1 → shuffle_loop w n pos i cnt seed l ≡ₚ l.
Proof.
  revert i seed l. induction cnt as [|k IH]; intros i seed l Hn Hn1 Hp Hi; [done|].
  cbn [shuffle_loop]. rewrite IH; [|by rewrite swapl_length|done|done|lia].
  apply swapl_perm; [lia|]. rewrite <-Hn. by apply other_of_lt.
Qed.
Lemma shuffle_perm {T} w n (l : list T) : n = length l → shuffle w n l ≡ₚ l.
Proof.
  intros Hn. unfold shuffle. destruct (Nat.leb_spec 8 n); [|done].
  pose proof (Nat.div_mod n 4). pose proof (Nat.mod_upper_bound n 4).
  apply shuffle_loop_perm; [done|lia|lia|lia].
Qed.

(** For these lengths, the elements that were candidates in an array that is longer by
    one are none after [break_patterns]. *)
Definition hides (n : nat) : bool := (17 <=? n) && negb (n mod 4 =? 3).
Definition hidden (w : bool) (n : nat) : bool :=
  let p := shuffle w n (seq 0 n) in
  forallb (λ s, forallb (λ j, negb (default n (p !! j) =? s)) [n / 4; n / 4 * 2; n / 4 * 3])
    [(n + 1) / 4 - 1; (n + 1) / 4 * 2 - 1].
Lemma hides_all : forallb (λ n, negb (hides n) || hidden true n && hidden false n) (seq 0 38) = true.
Proof. vm_compute. reflexivity. Qed.
Lemma hides_hidden w n s j :
  n < 38 → hides n = true → s = (n + 1) / 4 ∨ s = (n + 1) / 4 * 2 →
  j = n / 4 ∨ j = n / 4 * 2 ∨ j = n / 4 * 3 → shuffle w n (seq 0 n) !! j ≠ Some (s - 1).
Proof.
  intros Hn Hh Hs Hj Hl. pose proof hides_all as H. rewrite forallb_forall in H.
  specialize (H n ltac:(apply in_seq; lia)). rewrite Hh in H. cbn [negb orb] in H.
  apply andb_true_iff in H as [H1 H2].
  assert (hidden w n = true) as H by (by destruct w). unfold hidden in H. cbv zeta in H.
  rewrite forallb_forall in H. specialize (H (s - 1)).
  assert (In (s - 1) [(n + 1) / 4 - 1; (n + 1) / 4 * 2 - 1]) as Hin
    by (destruct Hs as [->| ->]; [by left|by right; left]).
  specialize (H Hin). rewrite forallb_forall in H. specialize (H j).
  assert (In j [n / 4; n / 4 * 2; n / 4 * 3]) as Hin' by (simpl; naive_solver).
  specialize (H Hin'). rewrite Hl in H. simpl in H. by rewrite Nat.eqb_refl in H.
Qed.

(** ** How large [limit] must be *)

(** What is known about the array: nothing ([0]), that some element equals [pred] ([1]), or
    that one does and, once [break_patterns] has run, is no candidate ([2]). For each of these,
    and for [was_balanced], the least [limit] that makes the lengths 11, 12, … safe. *)
Definition need_from (k : nat) (wb : bool) : list nat :=
  match k, wb with
  | 0, true => [1;1;1;2;3;3;4;4;5;6;6;7;7;8;9;9;10;11;11;12;12;13;14;14;15;16;16]
  | 1, true => [1;1;1;1;1;3;4;4;5;5;6;7;7;8;8;9;10;10;11;12;12;13;13;14;15;15;16]
  | 0, false => [1;2;2;3;4;4;5;5;6;7;7;8;8;9;10;10;11;12;12;13;13;14;15;15;16;17;17]
  | 1, false => [1;1;2;3;3;4;5;5;6;6;7;8;8;9;9;10;11;11;12;13;13;14;14;15;16;16;17]
  | 2, false => [1;1;2;2;3;4;4;5;6;6;7;7;8;9;9;10;10;11;12;12;13;14;14;15;15;16;17]
  | _, _ => []
  end.
Definition need (k : nat) (wb : bool) (n : nat) : nat :=
  if n <=? 10 then 0 else nth (n - 11) (need_from k wb) 100.

Definition need_ok (k : nat) (wb : bool) (n : nat) : bool :=
  let r := need k wb n in
  let r' := if wb then r else r - 1 in
  let bal m := n / 8 <=? Nat.min m (n - m) in
  (1 <=? r)
  && (negb (k =? 0) || (need (if hides (n - 1) then 2 else 1) false (n - 1) <=? r'))
  && forallb (λ m, need (if (k =? 2) && (m =? 1) then 1 else 0) (bal m) (n - m - 1) <=? r')
       (seq 1 (n - 2))
  && forallb (λ m, need (Nat.min k 1) (bal m) m <=? r') (seq 0 (n - 1))
  && forallb (λ s, need 0 wb (n - s) <=? r') (seq (if k =? 2 then 3 else 2) n).
Lemma need_all : forallb (λ n, need_ok 0 true n && need_ok 1 true n && need_ok 0 false n &&
  need_ok 1 false n && need_ok 2 false n) (seq 11 27) = true.
Proof. vm_compute. reflexivity. Qed.

Lemma need_closed k wb n limit :
  k < 3 → (k = 2 → wb = false) → 11 ≤ n → n ≤ 37 → need k wb n ≤ limit →
  let limit' := if wb then limit else limit - 1 in
  let bal m := n / 8 <=? Nat.min m (n - m) in
  limit ≠ 0 ∧
  (k = 0 → need (if hides (n - 1) then 2 else 1) false (n - 1) ≤ limit') ∧
  (∀ m, 1 ≤ m → m ≤ n - 2 →
    need (if (k =? 2) && (m =? 1) then 1 else 0) (bal m) (n - m - 1) ≤ limit') ∧
  (∀ m, m ≤ n - 2 → need (Nat.min k 1) (bal m) m ≤ limit') ∧
  (∀ s, (if k =? 2 then 3 else 2) ≤ s → s ≤ n → need 0 wb (n - s) ≤ limit').
Proof.
  intros Hk Hwb Hn1 Hn2 Hle limit' bal.
  assert (Hok : need_ok k wb n = true).
  { pose proof need_all as H. rewrite forallb_forall in H.
    specialize (H n ltac:(apply in_seq; lia)).
    do 4 (apply andb_true_iff in H as [H ?]).
    destruct k as [|[|[|k]]]; [by destruct wb|by destruct wb| |lia].
    by rewrite (Hwb eq_refl). }
  unfold need_ok in Hok. cbv zeta in Hok.
  apply andb_true_iff in Hok as [Hok H5]. apply andb_true_iff in Hok as [Hok H4].
  apply andb_true_iff in Hok as [Hok H3]. apply andb_true_iff in Hok as [H1 H2].
  rewrite forallb_forall in H3, H4, H5. apply Nat.leb_le in H1.
  assert (Hr : (if wb then need k wb n else need k wb n - 1) ≤ limit')
    by (unfold limit'; destruct wb; lia).
  split; [lia|]. split; [|split; [|split]].
  - intros ->. cbn [Nat.eqb negb orb] in H2. apply Nat.leb_le in H2. lia.
  - intros m Hm1 Hm2. specialize (H3 m ltac:(apply in_seq; lia)). apply Nat.leb_le in H3.
    unfold bal. lia.
  - intros m Hm. specialize (H4 m ltac:(apply in_seq; lia)). apply Nat.leb_le in H4.
    unfold bal. lia.
  - intros s Hs1 Hs2. specialize (H5 s ltac:(apply in_seq; destruct (k =? 2); lia)).
    apply Nat.leb_le in H5. lia.
Qed.

Section order.
  Context {T : Type} (c : cfg) (lt : T → T → bool).
  Hypothesis Hswo : strict_weak_order lt.
  Implicit Types (l A B : list T).
  Notation ans := (ans_lt lt).
  Notation user := (λ (e : exn) (_ : list T), e = UserPanic).

  (** The candidates for the pivot (src/partition.rs:857-859). *)
  Definition cand (n s : nat) : Prop := s = n / 4 ∨ s = n / 4 * 2 ∨ s = n / 4 * 3.
  (** The pivot [z] at [p] lies between the candidates at [s] and [h]. *)
  Definition picked (l : list T) (p : nat) (z : T) : Prop :=
    ∃ s h x y, cand (length l) p ∧ cand (length l) s ∧ cand (length l) h ∧ s ≠ p ∧ h ≠ p ∧ s ≠ h ∧
      l !! p = Some z ∧ l !! s = Some x ∧ l !! h = Some y ∧
      lt z x = false ∧ lt y z = false ∧
      (lt x z = true ∨ s = length l / 4 ∨ s = length l / 4 * 2).

  Lemma picked_middle l p z : picked l p z → l !! p = Some z ∧ middle lt l z.
  Proof.
    intros (s & h & x & y & _ & _ & _ & ? & ? & ? & Hz & Hx & Hy & ? & ? & _). split; [done|].
    destruct (three_of l p s h z x y) as [rest Hr]; auto. exists x, y, rest. auto.
  Qed.

  Lemma choose_pivot_picked n l :
    n = length l → 8 ≤ n → n < 50 →
    wp ans (choose_pivot n) (λ '(p, _) l', l' = l ∧ ∃ z, picked l p z) user l.
  Proof.
    intros Hn Hn8 Hn50. unfold choose_pivot, SHORTEST_MEDIAN_OF_MEDIANS.
    rewrite (proj2 (Nat.leb_le 8 n) Hn8), (proj2 (Nat.leb_gt 50 n) Hn50).
    pose proof (Nat.div_mod n 4 ltac:(lia)). pose proof (Nat.mod_upper_bound n 4 ltac:(lia)).
    assert (Hpk : ∀ p s h x y z, cand n p → cand n s → cand n h → s ≠ p → h ≠ p → s ≠ h →
      l !! p = Some z → l !! s = Some x → l !! h = Some y → lt z x = false → lt y z = false →
      (lt x z = true ∨ s = n / 4 ∨ s = n / 4 * 2) → picked l p z).
    { intros p s h x y z. rewrite Hn. intros. exists s, h, x, y. auto 20. }
    assert (Ca : cand n (n / 4)) by (by left).
    assert (Cb : cand n (n / 4 * 2)) by (by right; left).
    assert (Cd : cand n (n / 4 * 3)) by (by right; right).
    set (a := n / 4) in *. set (b := a * 2) in *. set (d := a * 3) in *.
    destruct (lookup_lt_is_Some_2 l a) as [x Hx]; [lia|].
    destruct (lookup_lt_is_Some_2 l b) as [y Hy]; [lia|].
    destruct (lookup_lt_is_Some_2 l d) as [z Hz]; [lia|].
    assert (a ≠ b ∧ a ≠ d ∧ b ≠ d) as (Hab & Had & Hbd) by lia.
    assert (∀ p q u v s, p < n → q < n → l !! p = Some u → l !! q = Some v →
      wp ans (sort2 n p q s) (λ r l', l' = l ∧ r = if lt v u then (q, p, S s) else (p, q, s)) user l) as Hsort2.
    { intros p q u v s Hp Hq Hu Hv. unfold sort2.
      apply wp_bind, wp_uget; [lia|lia|]. intros v' Hv'. rewrite Hv in Hv'. injection Hv' as <-.
      apply wp_bind, wp_uget; [lia|lia|]. intros u' Hu'. rewrite Hu in Hu'. injection Hu' as <-.
      apply wp_bind, wp_is_less; [|done]. intros r Hr. injection Hr as ->.
      apply wp_ret. split; [done|]. by destruct (lt v u). }
    apply wp_bind.
    eapply (wp_mono _ _ (λ '(p, s) l', l' = l ∧ s < 12 ∧ ∃ z, picked l p z) _ user); [| |by auto].
    2: { intros [p s] l' _ (-> & Hs & Hm). unfold MAX_SWAPS.
         rewrite (proj2 (Nat.ltb_lt s 12) Hs). by apply wp_ret. }
    apply wp_bind, wp_ret. cbn beta iota zeta.
    apply wp_bind. unfold sort3.
    assert (Hasym : ∀ u v, lt u v = true → lt v u = false).
    { intros u v Huv. destruct (lt v u) eqn:Hvu; [|done].
      pose proof (swo_trans _ Hswo _ _ _ Huv Hvu) as H1. by rewrite (swo_irrefl _ Hswo) in H1. }
    apply wp_bind. wp_apply (Hsort2 a b x y 0); [lia|lia|done|done| |by auto].
    intros r l' _ [-> ->]. destruct (lt y x) eqn:E1; cbn beta iota zeta.
    - apply wp_bind. wp_apply (Hsort2 a d x z 1); [lia|lia|done|done| |by auto].
      intros r l' _ [-> ->]. destruct (lt z x) eqn:E2; cbn beta iota zeta.
      + apply wp_bind. wp_apply (Hsort2 b d y z 2); [lia|lia|done|done| |by auto].
        intros r l' _ [-> ->]. destruct (lt z y) eqn:E3; cbn beta iota zeta.
        * do 2 apply wp_ret. split; [done|]. split; [lia|]. exists y.
          apply (Hpk b d a z x y); auto.
        * do 2 apply wp_ret. split; [done|]. split; [lia|]. exists z.
          apply (Hpk d b a y x z); auto.
      + apply wp_bind. wp_apply (Hsort2 b a y x 1); [lia|lia|done|done| |by auto].
        intros r l' _ [-> ->]. rewrite (Hasym _ _ E1). cbn beta iota zeta.
        do 2 apply wp_ret. split; [done|]. split; [lia|]. exists x.
        apply (Hpk a b d y z x); auto.
    - apply wp_bind. wp_apply (Hsort2 b d y z 0); [lia|lia|done|done| |by auto].
      intros r l' _ [-> ->]. destruct (lt z y) eqn:E2; cbn beta iota zeta.
      + apply wp_bind. wp_apply (Hsort2 a d x z 1); [lia|lia|done|done| |by auto].
        intros r l' _ [-> ->]. destruct (lt z x) eqn:E3; cbn beta iota zeta.
        * do 2 apply wp_ret. split; [done|]. split; [lia|]. exists x.
          apply (Hpk a d b z y x); auto.
        * do 2 apply wp_ret. split; [done|]. split; [lia|]. exists z.
          apply (Hpk d a b x y z); auto.
      + apply wp_bind. wp_apply (Hsort2 a b x y 0); [lia|lia|done|done| |by auto].
        intros r l' _ [-> ->]. rewrite E1. cbn beta iota zeta.
        do 2 apply wp_ret. split; [done|]. split; [lia|]. exists y.
        apply (Hpk b a d x z y); auto.
  Qed.

  (** [partition] by an element that is the least one. *)
  Lemma pt_scan_l_none fuel n p r l :
    n = length l → 0 < fuel → r ≤ n → Forall (λ x, lt x p = false) l →
    wp ans (pt_scan_l fuel n p 0 r) (λ a l', l' = l ∧ a = 0) user l.
  Proof.
    intros Hn Hf Hr Hl. destruct fuel as [|f]; [lia|]. cbn [pt_scan_l].
    destruct (Nat.ltb_spec 0 r); [|by apply wp_ret].
    apply wp_bind, wp_uget; [lia|lia|]. intros x Hx.
    apply wp_bind, wp_is_less; [|done]. intros b Hb. injection Hb as ->.
    rewrite Forall_lookup in Hl. rewrite (Hl _ _ Hx). by apply wp_ret.
  Qed.
  Lemma pt_scan_r_none fuel n p r l :
    n = length l → r < fuel → r ≤ n → Forall (λ x, lt x p = false) l →
    wp ans (pt_scan_r fuel n p 0 r) (λ a l', l' = l ∧ a = 0) user l.
  Proof.
    intros Hn Hf Hr Hl. revert r Hf Hr. induction fuel as [|f IH]; intros r Hf Hr; [lia|].
    cbn [pt_scan_r]. destruct (Nat.ltb_spec 0 r); [|apply wp_ret; split; [done|lia]].
    apply wp_bind, wp_usub; [lia|].
    apply wp_bind, wp_uget; [lia|lia|]. intros x Hx.
    apply wp_bind, wp_is_less; [|done]. intros b Hb. injection Hb as ->.
    pose proof (proj1 (Forall_lookup _ _) Hl _ _ Hx) as Hl'. cbv beta in Hl'. rewrite Hl'.
    apply IH; lia.
  Qed.
  Lemma partition_none n pivot l p :
    n = length l → l !! pivot = Some p → Forall (λ x, lt x p = false) l →
    wp ans (MPartition.partition c n pivot) (λ '(mid, _) l', mid = 0 ∧ l' = swapl 0 pivot l) user l.
  Proof.
    intros Hn Hp Hl. pose proof (lookup_lt_Some _ _ _ Hp) as Hpl.
    unfold MPartition.partition. apply wp_bind, wp_swap; [lia|lia|lia|].
    pose proof (swapl_perm 0 pivot l ltac:(lia) ltac:(lia)) as Hsp.
    assert (Hl1 : swapl 0 pivot l !! 0 = Some p).
    { rewrite lookup_swapl by lia. by rewrite decide_True. }
    assert (Hln : length (swapl 0 pivot l) = n) by (by rewrite swapl_length).
    rewrite <-Hsp in Hl.
    destruct (swapl 0 pivot l) as [|p' m]; [done|]. injection Hl1 as ->.
    simpl in Hln. apply Forall_cons in Hl as [_ Hl].
    apply wp_bind, wp_slice_check; [lia|lia|simpl; lia|].
    apply wp_bind, wp_get; [lia|simpl; lia|]. intros tmp Ht. injection Ht as <-.
    apply wp_bind, wp_on_unwind.
    assert (Hm : p :: m = [p] ++ m ++ []) by (by rewrite app_nil_r).
    rewrite Hm at 1.
    apply wp_slice_app; [done|simpl; lia|lia|].
    assert (HE : ∀ e m', user e m' → length m' = length m →
      wp ans (uput n 0 p) (λ _ l', user e l') user ([p] ++ m' ++ [])).
    { intros e m' He Hlm. simpl. rewrite app_nil_r. apply wp_uput; [lia|simpl; lia|]. done. }
    apply wp_bind.
    wp_apply (pt_scan_l_none (S (length m)) (length m) p (length m) m);
      [done|lia|lia|done| |intros e m' _; apply HE].
    intros a m' _ (-> & ->). apply wp_bind.
    wp_apply (pt_scan_r_none (S (length m)) (length m) p (length m) m);
      [done|lia|lia|done| |intros e m' _; apply HE].
    intros r m' _ (-> & ->).
    apply wp_bind, wp_slice; [lia|lia|lia|].
    unfold partition_in_blocks. cbn [Nat.sub Nat.eqb]. apply wp_ret. intros _. apply wp_ret.
    intros _. simpl. rewrite !drop_0, app_nil_r.
    apply wp_bind, wp_uput; [lia|simpl; lia|]. simpl.
    apply wp_bind, wp_swap; [lia|lia|simpl; lia|]. apply wp_ret.
    split; [done|]. unfold swapl. simpl. done.
  Qed.

  Lemma partition_exact n pivot l p :
    n = length l → l !! pivot = Some p →
    wp ans (MPartition.partition c n pivot) (λ '(mid, _) l',
      l' ≡ₚ l ∧ l' !! mid = Some p ∧
      Forall (λ x, lt x p = true) (take mid l') ∧ Forall (λ x, lt x p = false) (drop (S mid) l') ∧
      (mid = 0 → l' = swapl 0 pivot l)) user l.
  Proof.
    intros Hn Hp.
    assert (H1 : wp ans (MPartition.partition c n pivot) (λ '(mid, _) l',
      l' ≡ₚ l ∧ l' !! mid = Some p ∧
      Forall (λ x, lt x p = true) (take mid l') ∧ Forall (λ x, lt x p = false) (drop (S mid) l')) user l).
    { wp_apply (partition_spec c ans n pivot l p); [done|done| |].
      2: { intros e l' _. apply upanic_user. }
      intros [mid was_p] l3 Hl3 (Hp3 & Hmp & HA & HB). split; [done|]. split; [done|].
      apply rng_Forall in HA. apply rng_Forall in HB.
      rewrite (drop_0 l3), Nat.sub_0_r in HA. split.
      - eapply Forall_impl; [exact HA|]. intros x. by apply klt_lt.
      - rewrite take_ge in HB by (rewrite drop_length; apply Permutation_length in Hp3; lia).
        eapply Forall_impl; [exact HB|]. intros x. by apply kle_lt. }
    destruct (decide (Forall (λ x, lt x p = false) l)) as [Hall|Hnot].
    - pose proof (partition_none n pivot l p Hn Hp Hall) as H2.
      eapply wp_mono; [exact (wp_conj _ _ ans _ (λ _ _ H, H) (λ _ _ H, H) _ _ _ _ _ H1 H2)| |].
      + intros [mid b] l' _ [(? & ? & ? & ?) (? & ?)]. auto.
      + by intros e l' _ [? _].
    - eapply wp_mono; [exact H1| |by auto].
      intros [mid b] l' _ (Hpm & Hmp & HA & HB). split; [done|]. split; [done|]. split; [done|].
      split; [done|]. intros ->. destruct Hnot. rewrite <-Hpm.
      destruct l' as [|x l']; [done|]. injection Hmp as ->. constructor; [|done].
      apply (swo_irrefl _ Hswo).
  Qed.

  (** ** The loop, with the positions of the candidates *)

  Section loop.
    Variables G H : nat → bool → option T → list T → Prop.
    Hypothesis G_zero : ∀ wb pred l, G 0 wb pred l → length l ≤ 10.
    Hypothesis G_small : ∀ limit wb pred l, G limit wb pred l → length l < 50.
    Hypothesis G_shuffle : ∀ limit wb pred l,
      G limit wb pred l → limit ≠ 0 → 11 ≤ length l →
      H (if wb then limit else limit - 1) wb pred (if wb then l else shuffle (wide c) (length l) l).
    Hypothesis G_equal : ∀ limit wb q l p z A B,
      H limit wb (Some q) l → 11 ≤ length l → picked l p z → lt q z = false → l ≡ₚ A ++ B →
      Forall (λ x, lt z x = false) A → Forall (λ x, lt z x = true) B → G limit wb None B.
    Hypothesis G_split : ∀ limit wb pred l p z A B,
      H limit wb pred l → 11 ≤ length l → picked l p z → (∀ q, pred = Some q → lt q z = true) →
      l ≡ₚ A ++ z :: B → Forall (λ x, lt x z = true) A → Forall (λ x, lt x z = false) B →
      (A = [] → z :: B = swapl 0 p l) →
      G limit (length l / 8 <=? Nat.min (length A) (length l - length A)) (Some z) B ∧
      G limit (length l / 8 <=? Nat.min (length A) (length l - length A)) pred A.

    Lemma pai_loop_positions fuel n index pred limit wb l :
      n = length l → n < fuel → index < n → G limit wb pred l →
      wp ans (pai_loop c fuel n index pred limit wb) (λ _ _, True) user l.
    Proof.
      intros Hn Hf Hi. revert n index pred limit wb l Hn Hf Hi.
      induction fuel as [|f IH]; intros n index pred limit wb l Hn Hf Hi HG; [lia|].
      cbn [pai_loop]. unfold SEL_MAX_INSERTION.
      destruct (Nat.leb_spec n 10).
      { destruct (Nat.eqb_spec n 0); [lia|]. cbn [negb].
        wp_apply (insertion_sort_shift_left_spec c ans n 1 l); [done|lia|done|].
        intros e l' _. apply upanic_user. }
      destruct (Nat.eqb_spec limit 0) as [->|Hl0].
      { apply G_zero in HG. lia. }
      pose proof (G_small _ _ _ _ HG) as H50.
      pose proof (G_shuffle _ _ _ _ HG Hl0 ltac:(lia)) as HH.
      apply wp_bind.
      eapply (wp_mono _ _ (λ r l', l' = (if wb then l else shuffle (wide c) (length l) l) ∧
        r = if wb then limit else limit - 1) _ user); [| |by auto].
      { destruct wb; [by apply wp_ret|]. apply wp_bind. subst n.
        apply break_patterns_exact; [done|]. apply wp_usub; [lia|done]. }
      intros limit' l1 Hl1 [Heq1 ->]. rewrite <-Heq1 in HH.
      set (limit' := if wb then limit else limit - 1) in *. clearbody limit'. clear Heq1.
      apply wp_bind. wp_apply (choose_pivot_picked n l1); [lia|lia|lia| |by auto].
      intros [pivot likely] l2 Hl2 (-> & z & Hpick).
      destruct (picked_middle _ _ _ Hpick) as [Hz _].
      apply wp_bind.
      eapply (wp_mono _ _ (λ b l', l' = l1 ∧
        if b : bool then ∃ q, pred = Some q ∧ lt q z = false else ∀ q, pred = Some q → lt q z = true) _ user); [| |by auto].
      { destruct pred as [q|]; [|apply wp_ret; by split].
        pose proof (lookup_lt_Some _ _ _ Hz).
        apply wp_bind, wp_get; [lia|lia|]. intros x Hx. rewrite Hz in Hx. injection Hx as <-.
        apply wp_bind, wp_is_less; [|done]. intros r Hr. injection Hr as ->. apply wp_ret.
        split; [done|]. destruct (lt q z) eqn:E; cbn [negb]; [|eauto]. by intros q' [= <-]. }
      intros eq l' _ [-> Heq]. destruct eq.
      { destruct Heq as (q & -> & Hq).
        apply wp_bind. wp_apply (partition_equal_spec ans n pivot l1 z); [lia|done| |].
        2: { intros e l' _. apply upanic_user. }
        intros mid l3 Hl3 (Hp3 & Hmn & Hmid0 & HA & HB).
        specialize (Hmid0 ltac:(lia)). specialize (HB ltac:(lia)).
        destruct (Nat.ltb_spec index mid); [by apply wp_ret|].
        apply wp_bind, wp_usub; [done|].
        apply wp_slice; [lia|lia|lia|].
        eapply wp_mono; [apply IH; [rewrite sub_length; lia|lia|lia|]|done|done].
        apply rng_Forall in HA. apply rng_Forall in HB.
        rewrite (drop_0 l3), Nat.sub_0_r in HA.
        apply (G_equal _ _ q l1 pivot z (take mid l3)); [done|lia|done|done| | |].
        - rewrite (take_ge (drop mid l3)) by (rewrite drop_length; lia).
          by rewrite take_drop.
        - eapply Forall_impl; [exact HA|]. intros x. by apply kle_lt.
        - eapply Forall_impl; [exact HB|]. intros x. by apply klt_lt. }
      apply wp_bind. wp_apply (partition_exact n pivot l1 z); [lia|done| |by auto].
      intros [mid was_p] l3 Hl3 (Hp3 & Hmp & HA & HB & Hzero).
      pose proof (lookup_lt_Some _ _ _ Hmp) as Hm.
      apply wp_bind, wp_usub; [lia|].
      apply wp_bind, wp_slice; [lia|lia|lia|].
      apply wp_slice_check; [lia|lia|rewrite sub_length; lia|]. intros Hls.
      assert (Hwhole : take mid l3 ++ take (n - mid) (drop mid l3) ++ drop n l3 = l3).
      { rewrite (drop_ge l3 n) by lia. rewrite app_nil_r.
        rewrite (take_ge (drop mid l3)) by (rewrite drop_length; lia). by rewrite take_drop. }
      rewrite Hwhole. clear Hls Hwhole.
      apply wp_bind, wp_get; [lia|lia|]. intros p' Hp'. rewrite Hmp in Hp'. injection Hp' as <-.
      destruct (G_split _ _ pred l1 pivot z (take mid l3) (drop (S mid) l3) HH) as [HGB HGA];
        [lia|done|done| |done|done| |].
      { rewrite <-Hp3 at 1. by rewrite (take_drop_middle _ _ _ Hmp). }
      { intros E. assert (mid = 0) as ->.
        { apply (f_equal length) in E. rewrite take_length in E. cbn [length] in E. lia. }
        rewrite <-(Hzero eq_refl). destruct l3; [done|]. injection Hmp as ->. done. }
      rewrite take_length in HGA, HGB.
      replace (length l1) with n in HGA, HGB by lia. rewrite (Nat.min_l mid (length l3)) in HGA, HGB by lia.
      destruct (Nat.compare_spec mid index) as [->|Hmi|Hmi].
      - by apply wp_ret.
      - apply wp_bind, wp_usub; [lia|].
        apply wp_slice; [lia|lia|lia|].
        eapply wp_mono; [apply IH; [rewrite sub_length; lia|lia|lia|]|done|done].
        rewrite (take_ge (drop _ l3)) by (rewrite drop_length; lia).
        by rewrite Nat.add_1_r.
      - apply wp_slice; [lia|lia|lia|].
        eapply wp_mono; [apply IH; [rewrite sub_length; lia|lia|lia|]|done|done].
        by rewrite (drop_0 l3), Nat.sub_0_r.
    Qed.
  End loop.

  (** ** The states of the loop *)

  Definition before (k : nat) (wb : bool) (pred : option T) (l : list T) : Prop :=
    match k with
    | 0 => True
    | 1 => ∃ q a, pred = Some q ∧ a ∈ l ∧ lt q a = false
    | _ => wb = false ∧ hides (length l) = true ∧ ∃ q a s, pred = Some q ∧ lt q a = false ∧
        (s = (length l + 1) / 4 ∨ s = (length l + 1) / 4 * 2) ∧ l !! (s - 1) = Some a
    end.
  Definition after (k : nat) (pred : option T) (l : list T) : Prop :=
    match k with
    | 0 => True
    | 1 => ∃ q a, pred = Some q ∧ a ∈ l ∧ lt q a = false
    | _ => ∃ q a j, pred = Some q ∧ lt q a = false ∧ l !! j = Some a ∧ ¬ cand (length l) j
    end.
  Definition state (limit : nat) (wb : bool) (pred : option T) (l : list T) : Prop :=
    length l ≤ 37 ∧ (∀ q, pred = Some q → Forall (λ x, lt x q = false) l) ∧
    ∃ k, k < 3 ∧ need k wb (length l) ≤ limit ∧ before k wb pred l.
  (** After [break_patterns]; [limit] is already decremented. *)
  Definition mixed (limit : nat) (wb : bool) (pred : option T) (l : list T) : Prop :=
    length l ≤ 37 ∧ (∀ q, pred = Some q → Forall (λ x, lt x q = false) l) ∧
    ∃ k limit0, k < 3 ∧ (k = 2 → wb = false) ∧ need k wb (length l) ≤ limit0 ∧
      limit = (if wb then limit0 else limit0 - 1) ∧ after k pred l.

  Lemma state_shuffle limit wb pred l :
    state limit wb pred l → limit ≠ 0 → 11 ≤ length l →
    mixed (if wb then limit else limit - 1) wb pred (if wb then l else shuffle (wide c) (length l) l).
  Proof.
    intros (Hl & Hge & k & Hk & Hneed & Hb) Hl0 H11.
    set (l1 := if wb then l else shuffle (wide c) (length l) l).
    assert (Hp : l1 ≡ₚ l) by (unfold l1; destruct wb; [done|]; by apply shuffle_perm).
    assert (Hlen : length l1 = length l) by (by apply Permutation_length).
    split; [lia|]. split; [intros q Hq; rewrite Hp; by apply Hge|].
    exists k, limit. rewrite Hlen. split; [done|].
    destruct k as [|[|k]].
    - by auto.
    - destruct Hb as (q & a & Hq & Ha & Hqa). split; [lia|]. split; [done|]. split; [done|].
      exists q, a. by rewrite Hp.
    - destruct Hb as (-> & Hh & q & a & s & Hq & Hqa & Hs & Ha).
      split; [done|]. split; [done|]. split; [done|].
      destruct (elem_of_list_lookup_1 (shuffle (wide c) (length l) (seq 0 (length l))) (s - 1)) as [j Hj].
      { rewrite shuffle_perm by (by rewrite seq_length). apply elem_of_seq.
        apply lookup_lt_Some in Ha. lia. }
      exists q, a, j. split; [done|]. split; [done|]. split.
      { unfold l1. rewrite shuffle_lookup by done. by rewrite Hj. }
      rewrite Hlen. intros Hc.
      apply (hides_hidden (wide c) (length l) s j); [lia|done|done|done|done].
  Qed.

  (** Three positions of a list. *)
  Lemma pick_three l i j k x y z :
    i ≠ j → i ≠ k → j ≠ k → l !! i = Some x → l !! j = Some y → l !! k = Some z →
    ∃ rest, l ≡ₚ x :: y :: z :: rest.
  Proof. intros. destruct (three_of l i j k x y z) as [rest Hr]; eauto. Qed.

  Lemma state_equal limit wb q l p z A B :
    mixed limit wb (Some q) l → 11 ≤ length l → picked l p z → lt q z = false → l ≡ₚ A ++ B →
    Forall (λ x, lt z x = false) A → Forall (λ x, lt z x = true) B → state limit wb None B.
  Proof.
    intros (Hl & Hge & k & limit0 & Hk & Hwb & Hneed & -> & Haf) H11 Hpick Hqz HAB HA HB.
    destruct (need_closed k wb (length l) limit0) as (_ & _ & _ & _ & Hc); [done|done|done|done|done|].
    pose proof (Permutation_length HAB) as Hlen. rewrite app_length in Hlen.
    destruct Hpick as (s & h & x & y & Hcp & Hcs & Hch & Hsp & Hhp & Hsh & Hp & Hx & Hy & Hzx & Hyz & _).
    assert (Hcount : countb (λ a, negb (lt z a)) l ≤ length A).
    { rewrite (countb_perm _ _ _ HAB), countb_app.
      rewrite (countb_none _ B) by (eapply Forall_impl; [exact HB|]; cbn beta; intros ? ->; done).
      pose proof (countb_le (λ a, negb (lt z a)) A). lia. }
    assert ((if k =? 2 then 3 else 2) ≤ length A) as HA2.
    { etrans; [|exact Hcount]. destruct (Nat.eqb_spec k 2) as [->|].
      - destruct Haf as (q' & a & j & [= <-] & Hqa & Hj & Hnc).
        destruct (pick_three l p s j z x a) as [rest Hr]; auto.
        { intros ->. done. }
        { intros ->. done. }
        rewrite (countb_perm _ _ _ Hr). cbn [countb].
        rewrite Hzx, (swo_irrefl _ Hswo).
        assert (lt z a = false) as ->.
        { apply (swo_negtrans _ Hswo _ q); [|done].
          apply (proj1 (Forall_lookup _ _) (Hge q eq_refl) p z Hp). }
        cbn [negb]. lia.
      - destruct (pick_three l p s h z x y) as [rest Hr]; auto.
        rewrite (countb_perm _ _ _ Hr). cbn [countb].
        rewrite Hzx, (swo_irrefl _ Hswo). cbn [negb]. lia. }
    split; [lia|]. split; [done|]. exists 0. split; [lia|]. split; [|done].
    replace (length B) with (length l - length A) by lia. apply Hc; lia.
  Qed.

  Lemma state_split limit wb pred l p z A B :
    mixed limit wb pred l → 11 ≤ length l → picked l p z → (∀ q, pred = Some q → lt q z = true) →
    l ≡ₚ A ++ z :: B → Forall (λ x, lt x z = true) A → Forall (λ x, lt x z = false) B →
    (A = [] → z :: B = swapl 0 p l) →
    state limit (length l / 8 <=? Nat.min (length A) (length l - length A)) (Some z) B ∧
    state limit (length l / 8 <=? Nat.min (length A) (length l - length A)) pred A.
  Proof.
    intros (Hl & Hge & k & limit0 & Hk & Hwb & Hneed & -> & Haf) H11 Hpick Hq HAB HA HB Hnil.
    destruct (picked_middle _ _ _ Hpick) as [_ Hmid].
    destruct (split_sizes lt l z A B Hmid HAB HA HB) as (Hlen & HB1 & _).
    destruct (need_closed k wb (length l) limit0) as (_ & Hc0 & Hcr & Hcl & _);
      [done|done|done|done|done|].
    (* An element equal to [pred] is in [A]. *)
    assert (HmA : k ≠ 0 → ∃ q a, pred = Some q ∧ a ∈ A ∧ lt q a = false).
    { assert (Hin : ∀ q a, pred = Some q → a ∈ l → lt q a = false → a ∈ A).
      { intros q a -> Ha Hqa. rewrite HAB in Ha. specialize (Hq q eq_refl).
        apply elem_of_app in Ha as [Ha|Ha]; [done|]. exfalso.
        assert (lt a z = false) as Haz.
        { apply elem_of_cons in Ha as [->|Ha]; [apply (swo_irrefl _ Hswo)|].
          by apply (proj1 (Forall_forall _ _) HB). }
        pose proof (swo_negtrans _ Hswo _ _ _ Hqa Haz). congruence. }
      intros Hk0. destruct k as [|[|k]]; [done| |].
      - destruct Haf as (q & a & ? & ? & ?). exists q, a. eauto.
      - destruct Haf as (q & a & j & ? & ? & Hj & _). exists q, a.
        split; [done|]. split; [|done]. apply (Hin q); [done| |done]. by eapply elem_of_list_lookup_2. }
    split.
    - split; [lia|]. split; [by intros q [= <-]|].
      destruct (decide (A = [])) as [->|HAn].
      + (* No element is less than the pivot. *)
        assert (k = 0) as ->.
        { destruct (decide (k = 0)) as [|Hk0]; [done|].
          destruct (HmA Hk0) as (? & a & _ & Ha & _). by apply elem_of_nil in Ha. }
        specialize (Hc0 eq_refl). specialize (Hnil eq_refl).
        cbn [length] in *. rewrite Nat.min_0_l.
        assert (length l / 8 <=? 0 = false) as ->.
        { apply Nat.leb_gt. change 0 with (0 / 8). pose proof (Nat.div_le_mono 8 (length l) 8).
          change (8 / 8) with 1 in *. change (0 / 8) with 0. lia. }
        replace (length l - 1) with (length B) in Hc0 by lia.
        destruct Hpick as (s & h & x & y & Hcp & Hcs & Hch & Hsp & Hhp & Hsh & Hp & Hx & Hy & Hzx & Hyz & Hlow).
        assert (lt x z = false) as Hxz.
        { assert (x ∈ l) as Hxl by (by eapply elem_of_list_lookup_2). rewrite HAB in Hxl. cbn [app] in Hxl.
          apply elem_of_cons in Hxl as [->|Hxl]; [apply (swo_irrefl _ Hswo)|].
          by apply (proj1 (Forall_forall _ _) HB). }
        destruct Hlow as [?|Hlow]; [congruence|].
        assert (Hs0 : 0 < s).
        { pose proof (Nat.div_le_mono 11 (length l) 4 ltac:(lia) ltac:(lia)) as Hd.
          change (11 / 4) with 2 in Hd. destruct Hlow; lia. }
        assert (HBx : B !! (s - 1) = Some x).
        { change (B !! (s - 1)) with ((z :: B) !! S (s - 1)). replace (S (s - 1)) with s by lia.
          pose proof (lookup_lt_Some _ _ _ Hp). rewrite Hnil, lookup_swapl by lia.
          by rewrite !decide_False by lia. }
        destruct (hides (length B)) eqn:Hh.
        * exists 2. split; [lia|]. split; [done|]. split; [done|]. split; [done|].
          exists z, x, s. split; [done|]. split; [done|]. split; [|done].
          by replace (length B + 1) with (length l) by lia.
        * exists 1. split; [lia|]. split; [done|]. exists z, x. split; [done|]. split; [|done].
          by eapply elem_of_list_lookup_2.
      + assert (1 ≤ length A) as HA1 by (destruct A; [done|cbn; lia]).
        specialize (Hcr (length A) HA1 ltac:(lia)).
        replace (length l - length A - 1) with (length B) in Hcr by lia.
        destruct ((k =? 2) && (length A =? 1)) eqn:Hone; [|exists 0; split; [lia|]; by split].
        apply andb_true_iff in Hone as [->%Nat.eqb_eq Hone%Nat.eqb_eq].
        exists 1. split; [lia|]. split; [done|].
        destruct Hpick as (s & h & x & y & Hcp & Hcs & Hch & Hsp & Hhp & Hsh & Hp & Hx & Hy & Hzx & Hyz & _).
        exists z, x. split; [done|]. split; [|done].
        destruct Haf as (q & a & j & -> & Hqa & Hj & Hnc). specialize (Hq q eq_refl).
        destruct (pick_three l p s j z x a) as [rest Hr]; auto.
        { intros ->. done. } { intros ->. done. }
        assert (lt a z = true) as Haz.
        { destruct (lt a z) eqn:E; [done|]. pose proof (swo_negtrans _ Hswo _ _ _ Hqa E). congruence. }
        assert (Hrest : A ++ B ≡ₚ x :: a :: rest).
        { apply (Permutation_cons_inv (a:=z)). rewrite <-Hr, HAB. by rewrite Permutation_middle. }
        assert (countb (λ a, lt a z) (A ++ B) = countb (λ a, lt a z) (x :: a :: rest)) as Hc
          by (by apply countb_perm).
        rewrite countb_app in Hc. rewrite (countb_none _ B) in Hc by done.
        pose proof (countb_le (λ a, lt a z) A). cbn [countb] in Hc. rewrite Haz in Hc.
        assert (x ∈ A ++ B) as Hxin by (rewrite Hrest; by left).
        apply elem_of_app in Hxin as [Hxin|Hxin]; [|done]. exfalso.
        rewrite (proj1 (Forall_forall _ _) HA x Hxin) in Hc. lia.
    - split; [lia|]. split.
      { intros q Hpq. specialize (Hge q Hpq). rewrite HAB in Hge. by apply Forall_app in Hge as [??]. }
      specialize (Hcl (length A) ltac:(lia)).
      exists (Nat.min k 1). split; [lia|]. split; [done|].
      destruct k as [|k]; [done|]. cbn [Nat.min]. destruct k; apply HmA; lia.
  Qed.

  Lemma pai_loop_37 n index l :
    n = length l → index < n → n ≤ 37 →
    wp ans (pai_loop c (S n) n index None SEL_LIMIT true) (λ _ _, True) user l.
  Proof.
    intros Hn Hi H37. apply (pai_loop_positions state mixed).
    - intros wb pred l' (Hl & _ & k & Hk & Hneed & Hb). destruct (decide (length l' ≤ 10)); [done|].
      destruct (need_closed k wb (length l') 0) as (? & _); [done| |lia|done|done|done].
      intros ->. by destruct Hb.
    - intros limit wb pred l' (Hl & _). lia.
    - apply state_shuffle.
    - apply state_equal.
    - apply state_split.
    - done.
    - lia.
    - done.
    - split; [lia|]. split; [done|]. exists 0. split; [lia|]. split; [|done]. unfold SEL_LIMIT.
      rewrite <-Hn. clear Hn. do 38 (destruct n as [|n]; [vm_compute; lia|]). lia.
  Qed.

  Lemma partition_at_index_order n index l :
    n = length l → index < n →
    n ≤ 37 ∨ n ≤ 45 ∧ apart lt l ∨ index = 0 ∨ index = n - 1 →
    wp ans (partition_at_index c n index) (λ _ _, True) user l.
  Proof.
    intros Hn Hi Hs. unfold partition_at_index. destruct (Nat.leb_spec n index) as [Hni|Hni]; [lia|].
    apply wp_bind.
    eapply (wp_mono _ _ (λ _ _, True) _ user); [| |by auto].
    { destruct (zst c) eqn:Hz; [by apply wp_ret|].
      destruct (Nat.eqb_spec index (n - 1)).
      { wp_apply (max_select_spec ans n index l); [done|lia|done|done|].
        intros e' l' _. apply upanic_user. }
      destruct (Nat.eqb_spec index 0) as [->|].
      { wp_apply (min_select_spec ans n l); [done|lia|done|]. intros e' l' _. apply upanic_user. }
      destruct Hs as [?|[[??]|?]]; [by apply pai_loop_37|by apply pai_loop_apart|lia]. }
    intros [] l1 Hl1 _.
    unfold split_at, index0. simpl.
    rewrite (proj2 (Nat.leb_le index n)) by lia. apply wp_bind, wp_ret. simpl.
    rewrite (proj2 (Nat.leb_le 1 (n - index))) by lia. apply wp_bind, wp_ret. simpl.
    destruct (Nat.eqb_spec 1 0); [lia|]. by apply wp_bind, wp_ret, wp_ret.
  Qed.
End order.

Lemma select_nth_small_selects {T} (c : cfg) (lt : T → T → bool) index (l : list T) :
  index < length l →
  length l ≤ 37 ∨
  (length l ≤ 45 ∧
    ∀ i j x y, i ≠ j → l !! i = Some x → l !! j = Some y → lt x y = true ∨ lt y x = true) ∨
  index = 0 ∨ index = length l - 1 →
  strict_weak_order lt → (zst c = true → ∀ x y : T, x = y) →
  ∃ l' x, run (pure_less lt) (partition_at_index c (length l) index) tt l =
      (Done ((0, index), index, (index + 1, length l - (index + 1))), tt, l') ∧
    Permutation l l' ∧ placed lt l' index x ∧ order_statistic lt l index x.
Proof.
  intros Hi Hs Hlt Hz.
  assert (Hs' : length l ≤ 37 ∨ length l ≤ 45 ∧ apart lt l ∨ index = 0 ∨ index = length l - 1).
  { destruct Hs as [?|[[? ?]|?]]; [by left| |by auto]. right. left. split; [done|].
    by apply pairwise_apart. }
  pose proof (wp_conj _ _ (ans_lt lt) _ (λ _ _ H, H) (λ _ _ H, H) _ _ _ _ _
    (partition_at_index_spec c (ans_lt lt) (length l) index l eq_refl)
    (partition_at_index_order c lt Hlt (length l) index l eq_refl Hi Hs')) as Hwp.
  assert (Hwp' : wp (ans_lt lt) (partition_at_index c (length l) index)
    (λ r l', l' ≡ₚ l ∧ r = parts (length l) index ∧
      (zst c = false → selected (ans_lt lt) l' index)) (upanic (ans_lt lt) l) l).
  { eapply wp_mono; [exact Hwp| |].
    - intros r l' _ [(? & ? & ? & ?) _]. auto.
    - intros e l' _ [[[Hsp _]|(_ & ? & _)] ->]; [|lia].
      destruct Hsp as [Hp [[_ Hq]|[? _]]]; [|done]. by split. }
  destruct (run_pure _ lt _ l Hwp') as (r & l' & Hr & Hp & -> & Hsel).
  assert (∃ x, placed lt l' index x) as [x Hx].
  { destruct (zst c).
    - apply one_element_placed; auto. apply Permutation_length in Hp. lia.
    - apply selected_placed; auto. }
  exists l', x. split; [done|]. split; [by symmetry|]. split; [done|].
  by apply (placed_order_statistic lt l l').
Qed.
