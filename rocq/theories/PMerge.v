(** * Proofs about the stable merge sort of MMerge.v. *)
From Verif Require Export PInsertion PPivot MMerge.
From stdpp Require Import list.

(** The comparison of two elements of [l0] panicked, and the array is still a
    permutation of [l0]. *)
Definition mpanic {T : Type} (ans : T * T → option bool → Prop) (l0 : list T)
    (e : exn) (l' : list T) : Prop :=
  e = UserPanic ∧ (∃ a b, a ∈ l0 ∧ b ∈ l0 ∧ ans (a, b) None) ∧ l' ≡ₚ l0.
Lemma mpanic_upanic {T} (ans : T * T → option bool → Prop) l0 e l' :
  mpanic ans l0 e l' → upanic ans l0 e l'.
Proof. intros (-> & (a & b & _ & _ & H) & Hp). split; [done|]. split; [by exists (a, b)|done]. Qed.
Lemma mpanic_intro {T} (ans : T * T → option bool → Prop) a b l0 l' :
  ans (a, b) None → l' ≡ₚ l0 → a ∈ l' → b ∈ l' → mpanic ans l0 UserPanic l'.
Proof.
  intros H Hp Ha Hb. split; [done|]. split; [|done]. exists a, b.
  rewrite <-Hp. done.
Qed.
Lemma mpanic_perm {T} (ans : T * T → option bool → Prop) l0 l1 e l' :
  mpanic ans l0 e l' → l0 ≡ₚ l1 → mpanic ans l1 e l'.
Proof.
  intros (-> & (a & b & Ha & Hb & H) & Hp) Hl. split; [done|]. split.
  - exists a, b. rewrite <-Hl. done.
  - by rewrite Hp.
Qed.
(** ... of a part of the array. *)
Lemma mpanic_mid {T} (ans : T * T → option bool → Prop) l0 A m m0 C e :
  mpanic ans m0 e m → l0 ≡ₚ A ++ m0 ++ C → mpanic ans l0 e (A ++ m ++ C).
Proof.
  intros (-> & (a & b & Ha & Hb & H) & Hp) Hl. split; [done|]. split.
  - exists a, b. rewrite Hl. split; [|split]; [set_solver|set_solver|done].
  - by rewrite Hl, Hp.
Qed.

Section merge.
  Context {T : Type} (c : cfg) (ans : T * T → option bool → Prop).
  Implicit Types (l : list T).
  Notation kle := (kle ans).
  Notation klt := (klt ans).
  Notation ksorted := (ksorted ans).
  Notation sperm := (sperm ans).

  Lemma wp_buf_get buf i x (Φ : T → list T → Prop) E l :
    buf !! i = Some x → Φ x l → wp ans (buf_get buf i) Φ E l.
  Proof. intros H ?. unfold buf_get. rewrite H. by apply wp_ret. Qed.

  Lemma merge_hole_drop_spec n A G C B0 B B1 E :
    n = length (A ++ G ++ C) → length G = length B →
    wp ans (merge_hole_drop n (B0 ++ B ++ B1) (length B0) (length B0 + length B) (length A))
      (λ _ l', l' = A ++ B ++ C) E (A ++ G ++ C).
  Proof.
    intros Hn HG. unfold merge_hole_drop. rewrite !app_length in Hn.
    apply wp_bind, wp_usub; [lia|].
    replace (length B0 + length B - length B0) with (length B) by lia.
    eapply wp_mono; [apply (wp_for_up ans 0 (length B) _
      (λ i m, m = A ++ take i B ++ drop i G ++ C) E)| |].
    - done.
    - intros i m Hi ->.
      destruct (lookup_lt_is_Some_2 B i) as [x Hx]; [lia|].
      destruct (lookup_lt_is_Some_2 G i) as [g Hg]; [lia|].
      apply wp_bind. eapply (wp_buf_get _ _ x).
      { rewrite lookup_app_r by lia. replace (length B0 + i - length B0) with i by lia.
        rewrite lookup_app_l by lia. done. }
      apply wp_put.
      { lia. }
      { rewrite !app_length, take_length, drop_length. lia. }
      rewrite insert_app_r.
      rewrite (drop_S G g i) by done.
      replace i with (length (take i B)) at 1 by (rewrite take_length; lia).
      rewrite <-app_comm_cons, insert_middle. rewrite (take_S_r B i x) by done.
      by rewrite <-app_assoc.
    - intros [] m _ ->. simpl. rewrite (take_ge B) by lia. rewrite (drop_ge G) by lia. done.
    - auto.
  Qed.

  Lemma copy_out_spec cap n base i cnt buf l E :
    n ≤ length l → base + i + cnt ≤ n → i + cnt ≤ cap →
    wp ans (copy_out cap n base i cnt buf)
      (λ b l', l' = l ∧ b = buf ++ take cnt (drop (base + i) l)) E l.
  Proof.
    intros Hn. revert i buf. induction cnt as [|k IH]; intros i buf Hb Hc; simpl.
    - apply wp_ret. by rewrite app_nil_r.
    - apply wp_bind, wp_get; [lia|lia|]. intros x Hx.
      apply wp_bind. rewrite (proj2 (Nat.ltb_lt _ _)) by lia. apply wp_ret.
      wp_apply (IH (S i)); [lia|lia| |auto].
      intros b l' _ [-> ->]. split; [done|].
      rewrite (drop_S l x (base + i)) by done. rewrite <-app_assoc.
      replace (base + S i) with (S (base + i)) by lia. done.
  Qed.

  (** The logical contents of the array during a merge is [D ++ B ++ R], where
      [B] is still parked in the buffer. *)
  Lemma merge_fwd_spec fuel n mid l0 D G R B0 B :
    n = length (D ++ G ++ R) → length G = length B →
    mid = length B0 + length B →
    ksorted (D ++ B) → ksorted (D ++ R) →
    sperm l0 (D ++ B ++ R) →
    length B + length R < fuel →
    wp ans (merge_fwd fuel n mid (B0 ++ B) (length B0) (length D + length G) (length D))
      (λ _ l', sperm l0 l' ∧ ksorted l')
      (mpanic ans l0) (D ++ G ++ R).
  Proof.
    revert D G R B0 B.
    induction fuel as [|f IH]; intros D G R B0 B Hn HG Hmid HsB HsR Hp Hf; [lia|].
    rewrite !app_length in Hn. simpl.
    assert (Hdrop : ∀ E, wp ans (merge_hole_drop n (B0 ++ B) (length B0) mid (length D))
      (λ _ l', l' = D ++ B ++ R) E (D ++ G ++ R)).
    { intros E. rewrite Hmid. rewrite <-(app_nil_r (B0 ++ B)), <-app_assoc.
      apply merge_hole_drop_spec; [rewrite !app_length; lia|done]. }
    destruct (Nat.ltb_spec (length B0) mid) as [HB|HB]; simpl.
    2: { wp_apply (Hdrop (mpanic ans l0)); [|auto]. intros [] l' _ ->.
         destruct B; simpl in *; [done|lia]. }
    destruct (Nat.ltb_spec (length D + length G) n) as [HR|HR]; simpl.
    2: { wp_apply (Hdrop (mpanic ans l0)); [|auto]. intros [] l' _ ->.
         destruct R; simpl in *; [|lia]. rewrite !app_nil_r in *. done. }
    destruct R as [|x R]; simpl in *; [lia|].
    destruct B as [|y B]; simpl in *; [lia|].
    destruct G as [|g G]; simpl in *; [lia|].
    apply wp_bind, wp_uget; [lia|rewrite !app_length; simpl; rewrite app_length; simpl; lia|].
    intros x' Hx'.
    rewrite lookup_app_r in Hx' by lia.
    replace (length D + S (length G) - length D) with (S (length G)) in Hx' by lia.
    simpl in Hx'. rewrite lookup_middle in Hx'. injection Hx' as <-.
    apply wp_bind. eapply (wp_buf_get _ _ y).
    { apply lookup_middle. }
    apply wp_bind, wp_is_less_guard.
    2: { intros Hr. wp_apply (Hdrop (mpanic ans l0)); [|auto]. intros [] l' _ ->. eapply mpanic_intro; [done| |set_solver|set_solver].
         by apply (sperm_perm ans). }
    intros [] Hr.
    - (* the right element is smaller *)
      apply wp_bind, wp_nonoverlapping; [lia|].
      apply wp_bind, wp_on_unwind, wp_put.
      { lia. }
      { rewrite !app_length; simpl; rewrite app_length; simpl; lia. }
      rewrite insert_middle.
      assert (Hsp : sperm (D ++ (y :: B) ++ x :: R) (D ++ x :: (y :: B) ++ R)).
      { apply sperm_app_l.
        replace ((y :: B) ++ x :: R) with (((y :: B) ++ [x]) ++ R) by (by rewrite <-app_assoc).
        replace (x :: (y :: B) ++ R) with ((x :: y :: B) ++ R) by done.
        apply sperm_app_r, sperm_move_left.
        apply ksorted_app in HsB as (_ & HsB & _).
        apply StronglySorted_inv in HsB as [_ HyB].
        assert (Hxy : klt x y) by (by apply ans_true).
        constructor; [done|]. eapply Forall_impl; [exact HyB|]. intros z Hz.
        by eapply klt_kle_trans. }
      replace (D ++ x :: G ++ x :: R) with ((D ++ [x]) ++ (G ++ [x]) ++ R)
        by (by rewrite <-!app_assoc).
      replace (S (length D)) with (length (D ++ [x])) by (rewrite app_length; simpl; lia).
      replace (S (length D + S (length G))) with (length (D ++ [x]) + length (G ++ [x]))
        by (rewrite !app_length; simpl; lia).
      eapply wp_mono; [eapply (IH (D ++ [x]) (G ++ [x]) R B0 (y :: B))| |].
      + rewrite !app_length; simpl. lia.
      + rewrite !app_length; simpl. lia.
      + simpl. lia.
      + apply ksorted_app in HsB as (HD & HyB & HDB).
        apply ksorted_app in HsR as (_ & HxR & HDR).
        apply ksorted_app. repeat split; [|done|].
        * apply ksorted_app. repeat split; [done|apply ksorted_singleton|].
          intros a b Ha ->%elem_of_list_singleton. apply HDR; [done|by left].
        * intros a b [Ha| ->%elem_of_list_singleton]%elem_of_app Hb; [by apply HDB|].
          assert (Hxy : kle x y) by (by apply klt_kle, ans_true).
          apply (kle_trans ans _ y); [done|].
          apply elem_of_cons in Hb as [->|Hb]; [apply kle_refl|].
          apply StronglySorted_inv in HyB as [_ HyB].
          exact (proj1 (Forall_forall _ _) HyB b Hb).
      + rewrite <-app_assoc. done.
      + etrans; [exact Hp|]. rewrite <-app_assoc. exact Hsp.
      + simpl. lia.
      + auto.
      + auto.
    - (* the left element goes first *)
      apply wp_bind, wp_ret.
      apply wp_bind, wp_on_unwind, wp_put.
      { lia. }
      { rewrite !app_length; simpl; rewrite app_length; simpl; lia. }
      rewrite insert_middle.
      replace (D ++ y :: G ++ x :: R) with ((D ++ [y]) ++ G ++ x :: R)
        by (by rewrite <-!app_assoc).
      replace (S (length D)) with (length (D ++ [y])) by (rewrite app_length; simpl; lia).
      replace (length D + S (length G)) with (length (D ++ [y]) + length G)
        by (rewrite !app_length; simpl; lia).
      replace (B0 ++ y :: B) with ((B0 ++ [y]) ++ B) by (by rewrite <-!app_assoc).
      replace (S (length B0)) with (length (B0 ++ [y])) by (rewrite app_length; simpl; lia).
      eapply wp_mono; [eapply (IH (D ++ [y]) G (x :: R) (B0 ++ [y]) B)| |].
      + rewrite !app_length; simpl. lia.
      + lia.
      + rewrite app_length; simpl. lia.
      + rewrite <-app_assoc. done.
      + apply ksorted_app in HsB as (HD & HyB & HDB).
        apply ksorted_app in HsR as (_ & HxR & HDR).
        apply ksorted_app. repeat split; [|done|].
        * apply ksorted_app. repeat split; [done|apply ksorted_singleton|].
          intros a b Ha ->%elem_of_list_singleton. apply HDB; [done|by left].
        * intros a b [Ha| ->%elem_of_list_singleton]%elem_of_app Hb; [by apply HDR|].
          assert (Hxy : kle y x) by (by apply ans_false).
          apply (kle_trans ans _ x); [done|].
          apply elem_of_cons in Hb as [->|Hb]; [apply kle_refl|].
          apply StronglySorted_inv in HxR as [_ HxR].
          exact (proj1 (Forall_forall _ _) HxR b Hb).
      + etrans; [exact Hp|]. rewrite <-app_assoc. done.
      + simpl. lia.
      + auto.
      + auto.
  Qed.

  Lemma merge_bwd_spec fuel n l0 L G D B B1 :
    n = length (L ++ G ++ D) → length G = length B →
    ksorted (L ++ D) → ksorted (B ++ D) →
    sperm l0 (L ++ B ++ D) →
    length B + length L < fuel →
    wp ans (merge_bwd fuel n (B ++ B1) (length L) (length B) (length L + length G))
      (λ _ l', sperm l0 l' ∧ ksorted l')
      (mpanic ans l0) (L ++ G ++ D).
  Proof.
    revert L G D B B1.
    induction fuel as [|f IH]; intros L G D B B1 Hn HG HsL HsB Hp Hf; [lia|].
    rewrite !app_length in Hn. simpl.
    assert (Hdrop : ∀ E, wp ans (merge_hole_drop n (B ++ B1) 0 (length B) (length L))
      (λ _ l', l' = L ++ B ++ D) E (L ++ G ++ D)).
    { intros E. apply (merge_hole_drop_spec n L G D [] B B1); [rewrite !app_length; lia|done]. }
    destruct (Nat.ltb_spec 0 (length L)) as [HL|HL]; simpl.
    2: { wp_apply (Hdrop (mpanic ans l0)); [|auto]. intros [] l' _ ->.
         destruct L; simpl in *; [done|lia]. }
    destruct (Nat.ltb_spec 0 (length B)) as [HB|HB]; simpl.
    2: { wp_apply (Hdrop (mpanic ans l0)); [|auto]. intros [] l' _ ->.
         destruct B; simpl in *; [|lia]. done. }
    clear Hdrop.
    destruct L as [|y L _] using rev_ind; simpl in *; [lia|].
    destruct B as [|x B _] using rev_ind; simpl in *; [lia|].
    destruct G as [|g G _] using rev_ind.
    { rewrite app_length in HG. simpl in HG. lia. }
    rewrite !app_length in *. simpl in *.
    assert (HGB : length G = length B) by lia. clear HG HL HB.
    replace (length L + 1 - 1) with (length L) by lia.
    replace (length B + 1 - 1) with (length B) by lia.
    apply wp_bind. eapply (wp_buf_get _ _ x).
    { rewrite <-app_assoc. apply lookup_middle. }
    apply wp_bind, wp_uget; [lia|rewrite !app_length; simpl; lia|].
    intros y' Hy'. rewrite <-app_assoc in Hy'. simpl in Hy'. rewrite lookup_middle in Hy'.
    injection Hy' as <-.
    apply wp_bind, wp_is_less_guard.
    2: { intros Hr.
         replace (length L + 1) with (length (L ++ [y])) by (by rewrite app_length).
         replace (length B + 1) with (length (B ++ [x])) by (by rewrite app_length).
         wp_apply (merge_hole_drop_spec n (L ++ [y]) (G ++ [g]) D [] (B ++ [x]) B1
                    (mpanic ans l0)).
         - rewrite !app_length; simpl; lia.
         - rewrite !app_length; simpl; lia.
         - intros [] l' _ ->. eapply mpanic_intro; [done| |set_solver|set_solver]. by apply (sperm_perm ans).
         - auto. }
    intros [] Hr.
    - (* the left element is greater *)
      apply wp_bind, wp_on_unwind, wp_usub; [lia|].
      replace (length L + 1 + (length G + 1) - 1) with (length (L ++ y :: G))
        by (rewrite app_length; simpl; lia).
      apply wp_bind, wp_nonoverlapping; [rewrite app_length; simpl; lia|].
      apply wp_bind, wp_on_unwind, wp_put.
      { rewrite app_length; simpl; lia. }
      { rewrite !app_length; simpl; lia. }
      replace ((L ++ [y]) ++ (G ++ [g]) ++ D) with ((L ++ y :: G) ++ g :: D)
        by (by rewrite <-!app_assoc).
      rewrite insert_middle.
      assert (Hsp : sperm ((L ++ [y]) ++ (B ++ [x]) ++ D) (L ++ (B ++ [x]) ++ y :: D)).
      { rewrite <-!app_assoc. apply sperm_app_l.
        replace ([y] ++ B ++ [x] ++ D) with ((y :: (B ++ [x])) ++ D)
          by (simpl; by rewrite <-app_assoc).
        replace (B ++ [x] ++ y :: D) with (((B ++ [x]) ++ [y]) ++ D)
          by (by rewrite <-!app_assoc).
        apply sperm_app_r, sperm_move_right.
        apply ksorted_app in HsB as (HsB & _ & _).
        apply ksorted_app in HsB as (_ & _ & HBx).
        assert (Hxy : klt x y) by (by apply ans_true).
        apply Forall_forall. intros z [Hz| ->%elem_of_list_singleton]%elem_of_app; [|done].
        apply (kle_klt_trans ans _ x); [|done]. apply HBx; [done|by left]. }
      replace ((L ++ y :: G) ++ y :: D) with (L ++ (y :: G) ++ y :: D) by (by rewrite <-!app_assoc).
      replace (length (L ++ y :: G)) with (length L + length (y :: G)) by (by rewrite app_length).
      replace (length B + 1) with (length (B ++ [x])) by (by rewrite app_length).
      eapply wp_mono; [eapply (IH L (y :: G) (y :: D) (B ++ [x]) B1)| |].
      + rewrite !app_length; simpl. lia.
      + rewrite app_length; simpl. lia.
      + by rewrite <-app_assoc in HsL.
      + apply ksorted_app in HsB as (HB & HD & HBD).
        rewrite <-app_assoc in HsL. apply ksorted_app in HsL as (_ & HyD & _).
        apply ksorted_app. repeat split; [done|done|].
        intros a b Ha [->|Hb]%elem_of_cons; [|by apply HBD].
        assert (Hxy : kle x y) by (by apply klt_kle, ans_true).
        apply elem_of_app in Ha as [Ha| ->%elem_of_list_singleton]; [|done].
        apply (kle_trans ans _ x); [|done].
        apply ksorted_app in HB as (_ & _ & HB). apply HB; [done|by left].
      + etrans; [exact Hp|]. exact Hsp.
      + rewrite app_length; simpl. lia.
      + auto.
      + auto.
    - (* the right element goes last *)
      apply wp_bind, wp_on_unwind, wp_usub; [lia|].
      replace (length L + 1 + (length G + 1) - 1) with (length ((L ++ [y]) ++ G))
        by (rewrite !app_length; simpl; lia).
      apply wp_bind, wp_ret.
      apply wp_bind, wp_on_unwind, wp_put.
      { rewrite !app_length; simpl; lia. }
      { rewrite !app_length; simpl; lia. }
      replace ((L ++ [y]) ++ (G ++ [g]) ++ D) with (((L ++ [y]) ++ G) ++ g :: D)
        by (by rewrite <-!app_assoc).
      rewrite insert_middle.
      replace (((L ++ [y]) ++ G) ++ x :: D) with ((L ++ [y]) ++ G ++ x :: D)
        by (by rewrite <-!app_assoc).
      replace (length ((L ++ [y]) ++ G)) with (length (L ++ [y]) + length G)
        by (by rewrite !app_length).
      replace (length L + 1) with (length (L ++ [y])) by (by rewrite app_length).
      replace ((B ++ [x]) ++ B1) with (B ++ (x :: B1)) by (by rewrite <-app_assoc).
      eapply wp_mono; [eapply (IH (L ++ [y]) G (x :: D) B (x :: B1))| |].
      + rewrite !app_length; simpl. lia.
      + lia.
      + apply ksorted_app in HsL as (HL & HD & HLD).
        rewrite <-app_assoc in HsB. apply ksorted_app in HsB as (_ & HxD & _).
        apply ksorted_app. repeat split; [done|done|].
        intros a b Ha [->|Hb]%elem_of_cons; [|by apply HLD].
        assert (Hxy : kle y x) by (by apply ans_false).
        apply elem_of_app in Ha as [Ha| ->%elem_of_list_singleton]; [|done].
        apply (kle_trans ans _ y); [|done].
        apply ksorted_app in HL as (_ & _ & HL). apply HL; [done|by left].
      + by rewrite <-app_assoc in HsB.
      + etrans; [exact Hp|]. by rewrite <-(app_assoc B).
      + rewrite app_length; simpl. lia.
      + auto.
      + auto.
  Qed.

  Lemma merge_spec cap n L R :
    n = length (L ++ R) → Nat.min (length L) (length R) ≤ cap →
    ksorted L → ksorted R →
    wp ans (MMerge.merge cap n (length L))
      (λ _ l', sperm (L ++ R) l' ∧ ksorted l') (mpanic ans (L ++ R)) (L ++ R).
  Proof.
    intros Hn Hcap HL HR. rewrite app_length in Hn. unfold MMerge.merge.
    apply wp_bind, wp_usub; [lia|].
    replace (n - length L) with (length R) by lia.
    destruct (Nat.leb_spec (length L) (length R)).
    - apply wp_bind. wp_apply (copy_out_spec cap n 0 0 (length L) [] (L ++ R) (mpanic ans (L ++ R)));
        [by rewrite app_length; lia|lia|lia| |auto].
      intros b l' _ [-> ->].
      replace ([] ++ take (length L) (drop (0 + 0) (L ++ R))) with L
        by (symmetry; apply take_app_alt; done).
      wp_apply (merge_fwd_spec (S n) n (length L) (L ++ R) [] L R [] L); auto.
      + rewrite app_length. simpl. rewrite app_length. lia.
      + simpl. reflexivity.
      + lia.
    - apply wp_bind. wp_apply (copy_out_spec cap n (length L) 0 (length R) [] (L ++ R) (mpanic ans (L ++ R)));
        [by rewrite app_length; lia|lia|lia| |auto].
      intros b l' _ [-> ->].
      replace ([] ++ take (length R) (drop (length L + 0) (L ++ R))) with R
        by (rewrite drop_app_alt by lia; simpl; by rewrite take_ge by lia).
      assert (Hgoal := merge_bwd_spec (S n) n (L ++ R) L R [] R []).
      rewrite !app_nil_r in Hgoal. rewrite <-Hn in Hgoal. apply Hgoal; auto.
      + rewrite app_length. lia.
      + reflexivity.
      + lia.
  Qed.

  (** ** Runs *)
  Fixpoint runs_of (off : nat) (segs : list (list T)) : list run_t :=
    match segs with
    | [] => []
    | s :: ss => Run off (length s) :: runs_of (off + length s) ss
    end.

  Lemma runs_of_length off segs : length (runs_of off segs) = length segs.
  Proof. revert off. induction segs; intros; simpl; auto. Qed.
  Lemma runs_of_app off s1 s2 :
    runs_of off (s1 ++ s2) = runs_of off s1 ++ runs_of (off + length (concat s1)) s2.
  Proof.
    revert off. induction s1 as [|a s1 IH]; intros off; simpl.
    - by rewrite Nat.add_0_r.
    - rewrite IH, app_length. do 3 f_equal. lia.
  Qed.

  Lemma collapse_some runs stop r : collapse runs stop = Some r → S r < length runs.
  Proof.
    unfold collapse. intros H.
    destruct (Nat.leb_spec 2 (length runs)); simpl in H; [|done].
    repeat case_match; simplify_eq; try lia.
  Qed.

  Lemma collapse_none_full runs stop r :
    last runs = Some r → r_start r + r_len r = stop → collapse runs stop = None → length runs = 1.
  Proof.
    intros Hl Hs Hc.
    destruct runs as [|r' runs _] using rev_ind; [done|].
    rewrite last_snoc in Hl. injection Hl as ->.
    destruct (decide (runs = [])) as [->|Hne]; [done|exfalso].
    unfold collapse in Hc.
    assert (H2 : 2 ≤ length (runs ++ [r])).
    { rewrite app_length; simpl. destruct runs; [done|simpl; lia]. }
    rewrite (proj2 (Nat.leb_le _ _) H2) in Hc. simpl in Hc.
    replace ((runs ++ [r]) !!! (length (runs ++ [r]) - 1)) with r in Hc.
    - rewrite (proj2 (Nat.eqb_eq _ _) Hs) in Hc. simpl in Hc. by case_match.
    - symmetry. apply list_lookup_total_correct. rewrite app_length; simpl.
      replace (length runs + 1 - 1) with (length runs) by lia. apply lookup_middle.
  Qed.

  Definition seg_ok (s : list T) : Prop := s ≠ [] ∧ ksorted s.

  Lemma runs_of_merge S1 a b m S2 :
    length m = length a + length b →
    delete (length S1) (<[length S1 + 1 := Run (length (concat S1)) (length a + length b)]>
      (runs_of 0 (S1 ++ a :: b :: S2))) = runs_of 0 (S1 ++ m :: S2).
  Proof.
    intros Hm. rewrite !runs_of_app. simpl.
    rewrite <-(runs_of_length 0 S1) at 1 2. rewrite insert_app_r. simpl.
    rewrite delete_middle. rewrite Hm. do 3 f_equal. lia.
  Qed.

  Lemma collapse_loop_spec fuel n l0 segs rest :
    n = length (concat segs ++ rest) →
    segs ≠ [] → length segs < fuel →
    Forall seg_ok segs → sperm l0 (concat segs ++ rest) →
    wp ans (collapse_loop fuel (n / 2) n (runs_of 0 segs))
      (λ runs l', ∃ segs', runs = runs_of 0 segs' ∧ l' = concat segs' ++ rest ∧
         segs' ≠ [] ∧ Forall seg_ok segs' ∧ sperm l0 l' ∧ collapse runs n = None ∧
         length segs' ≤ length segs)
      (upanic ans l0) (concat segs ++ rest).
  Proof.
    revert segs. induction fuel as [|f IH]; intros segs Hn Hne Hf Hok Hp; [lia|]. simpl.
    destruct (collapse (runs_of 0 segs) n) as [r|] eqn:Hc.
    2: { apply wp_ret. exists segs. done. }
    apply collapse_some in Hc. rewrite runs_of_length in Hc.
    assert (∃ S1 a b S2, segs = S1 ++ a :: b :: S2 ∧ length S1 = r)
      as (S1 & a & b & S2 & -> & <-).
    { destruct (lookup_lt_is_Some_2 segs r) as [a Ha]; [lia|].
      destruct (lookup_lt_is_Some_2 segs (S r)) as [b Hb]; [lia|].
      exists (take r segs), a, b, (drop (S (S r)) segs). split.
      - rewrite <-(drop_S _ b) by done. rewrite <-(drop_S _ a) by done. by rewrite take_drop.
      - rewrite take_length. lia. }
    assert (Hga : runs_of 0 (S1 ++ a :: b :: S2) !! length S1
                  = Some (Run (length (concat S1)) (length a))).
    { rewrite runs_of_app. simpl. rewrite <-(runs_of_length 0 S1). apply lookup_middle. }
    assert (Hgb : runs_of 0 (S1 ++ a :: b :: S2) !! (length S1 + 1)
                  = Some (Run (length (concat S1) + length a) (length b))).
    { rewrite runs_of_app. simpl. rewrite lookup_app_r; rewrite runs_of_length; [|lia].
      by replace (length S1 + 1 - length S1) with 1 by lia. }
    apply wp_bind. unfold run_get at 1. rewrite Hga. apply wp_ret.
    apply wp_bind. unfold run_get at 1. rewrite Hgb. apply wp_ret. simpl.
    apply Forall_app in Hok as [Hok1 Hok2].
    apply Forall_cons in Hok2 as [[Hna Hsa] Hok2].
    apply Forall_cons in Hok2 as [[Hnb Hsb] Hok2].
    assert (Hcat : concat (S1 ++ a :: b :: S2) ++ rest
                   = concat S1 ++ (a ++ b) ++ concat S2 ++ rest).
    { rewrite concat_app. simpl. by rewrite <-!app_assoc. }
    rewrite Hcat in *.
    rewrite !app_length in Hn.
    apply wp_bind. apply wp_slice_app.
    { done. }
    { rewrite app_length. lia. }
    { rewrite Hn. lia. }
    wp_apply (merge_spec (n / 2) (length (a ++ b)) a b); [done| |done|done| |].
    { pose proof (Nat.div_mod n 2). pose proof (Nat.mod_upper_bound n 2). lia. }
    2: { intros e l' _ (He & Hex & Hpp)%mpanic_upanic _. split; [done|]. split; [done|].
         rewrite Hpp. by apply (sperm_perm ans). }
    intros [] m _ [Hm Hsm] Hlm.
    rewrite app_length in Hlm.
    rewrite (runs_of_merge S1 a b m S2) by done.
    assert (Hcat' : concat S1 ++ m ++ concat S2 ++ rest = concat (S1 ++ m :: S2) ++ rest).
    { rewrite concat_app. simpl. by rewrite <-!app_assoc. }
    rewrite Hcat'.
    wp_apply (IH (S1 ++ m :: S2)).
    - rewrite <-Hcat'. rewrite !app_length. lia.
    - intros Hnil. by apply app_eq_nil in Hnil as [_ ?].
    - rewrite app_length in *. simpl in *. lia.
    - apply Forall_app. split; [done|]. constructor; [|done]. split; [|done].
      intros ->. simpl in Hlm. destruct a; simpl in *; [done|lia].
    - rewrite <-Hcat'. etrans; [exact Hp|]. apply sperm_app_l. by apply sperm_app_r.
    - intros runs l' _ (segs' & H1 & H2 & H3 & H4 & H5 & H6 & H7). exists segs'.
      repeat split; auto. rewrite app_length in *. simpl in *. lia.
    - auto.
  Qed.

  Local Arguments collapse_loop : simpl never.

  (** ** Streaks *)
  Definition streak_rel (r : bool) : T → T → Prop :=
    if r then (λ a b, klt b a) else kle.
  Lemma streak_rel_trans r x y z : streak_rel r x y → streak_rel r y z → streak_rel r x z.
  Proof.
    destruct r; simpl; intros.
    - by eapply klt_trans.
    - by eapply kle_trans.
  Qed.

  Lemma streak_snoc r l i x y :
    StronglySorted (streak_rel r) (take i l) → 0 < i →
    l !! (i - 1) = Some y → l !! i = Some x → streak_rel r y x →
    StronglySorted (streak_rel r) (take (S i) l).
  Proof.
    intros Hs Hi Hy Hx Hxy. rewrite (take_S_r _ _ x) by done.
    assert (Htl : take i l = take (i - 1) l ++ [y]).
    { rewrite <-take_S_r by done. f_equal. lia. }
    rewrite Htl in Hs |- *. clear Htl.
    induction (take (i - 1) l) as [|z k IH]; simpl in *.
    - constructor; [repeat constructor|]. by repeat constructor.
    - apply StronglySorted_inv in Hs as [Hs Hz]. constructor; [by apply IH|].
      apply Forall_app. split; [done|]. constructor; [|done].
      apply Forall_app in Hz as [_ Hz]. apply Forall_cons in Hz as [Hz _].
      by eapply streak_rel_trans.
  Qed.

  Lemma streak_loop_spec r fuel n e l :
    n = length l → 0 < e → e ≤ n → n < fuel + e →
    StronglySorted (streak_rel r) (take e l) →
    wp ans (streak_loop r fuel n e)
      (λ j l', l' = l ∧ e ≤ j ∧ j ≤ n ∧ StronglySorted (streak_rel r) (take j l))
      (upanic ans l) l.
  Proof.
    intros Hn. revert e. induction fuel as [|f IH]; intros e He Hen Hf Hs; [lia|]. simpl.
    destruct (Nat.ltb_spec e n).
    - apply wp_bind, wp_uget; [lia|lia|]. intros x Hx.
      apply wp_bind, wp_uget; [lia|lia|]. intros y Hy.
      apply wp_bind, wp_is_less.
      + intros b Hr. destruct (Bool.eqb_spec b r) as [->|Hne].
        * wp_apply (IH (S e)); [lia|lia|lia| | |auto].
          { eapply streak_snoc; eauto. destruct r; simpl; [by apply ans_true|by apply ans_false]. }
          intros j l' _ (-> & Hj & Hjn & Hsj). repeat split; auto. lia.
        * by apply wp_ret.
      + intros Hr. by eapply upanic_intro.
    - by apply wp_ret.
  Qed.

  Lemma find_streak_spec n l :
    n = length l → 0 < n →
    wp ans (find_streak n)
      (λ p l', l' = l ∧ 0 < p.1 ∧ p.1 ≤ n ∧ StronglySorted (streak_rel p.2) (take p.1 l))
      (upanic ans l) l.
  Proof.
    intros Hn H0. unfold find_streak. destruct (Nat.ltb_spec n 2).
    - apply wp_ret. simpl. repeat split; auto. rewrite take_ge by lia.
      destruct l as [|x [|]]; simpl in *; try lia. repeat constructor.
    - apply wp_bind, wp_uget; [lia|lia|]. intros x Hx.
      apply wp_bind, wp_uget; [lia|lia|]. intros y Hy.
      apply wp_bind, wp_is_less.
      + intros r Hr. apply wp_bind.
        wp_apply (streak_loop_spec r (S n) n 2 l); [done|lia|lia|lia| | |auto].
        { apply (streak_snoc r l 1 x y); auto.
          - destruct l; simpl in *; [done|]. repeat constructor.
          - destruct r; simpl; [by apply ans_true|by apply ans_false]. }
        intros j l' _ (-> & Hj & Hjn & Hs). apply wp_ret. simpl. repeat split; auto. lia.
      + intros Hr. by eapply upanic_intro.
  Qed.

  Lemma ksorted_rev l : StronglySorted (λ a b, klt b a) l → ksorted (rev l).
  Proof.
    induction 1 as [|x l Hl IH Hx]; simpl; [constructor|].
    apply ksorted_app. repeat split; [done|apply ksorted_singleton|].
    intros a b Ha ->%elem_of_list_singleton. apply klt_kle.
    rewrite elem_of_list_In, <-in_rev, <-elem_of_list_In in Ha.
    exact (proj1 (Forall_forall _ _) Hx a Ha).
  Qed.

  (** Extend a sorted run to at least ten elements. *)
  Lemma provide_sorted_batch_spec n A s rest :
    n = length (A ++ s ++ rest) → s ≠ [] → ksorted s →
    wp ans (provide_sorted_batch c n (length A) (length A + length s))
      (λ e l', ∃ s' rest', l' = A ++ s' ++ rest' ∧ e = length A + length s' ∧
         s' ≠ [] ∧ ksorted s' ∧ sperm (s ++ rest) (s' ++ rest'))
      (upanic ans (A ++ s ++ rest)) (A ++ s ++ rest).
  Proof.
    intros Hn Hne Hs. rewrite !app_length in Hn. unfold provide_sorted_batch.
    assert (0 < length s) by (destruct s; simpl; [done|lia]).
    apply wp_bind, wp_assert.
    { rewrite !(proj2 (Nat.leb_le _ _)) by lia. done. }
    replace (length A + length s - length A) with (length s) by lia.
    destruct (_ && _) eqn:Hb.
    2: { apply wp_ret. exists s, rest. repeat split; auto; reflexivity. }
    apply andb_true_iff in Hb as [Hb1%Nat.ltb_lt Hb2%Nat.ltb_lt].
    set (e := Nat.min (length A + MIN_INSERTION_RUN) n).
    set (k := e - length A - length s).
    assert (Hk : k ≤ length rest) by (unfold k, e; lia).
    assert (He : e = length A + length s + k) by (unfold k, e in *; lia).
    apply wp_bind.
    replace (A ++ s ++ rest) with (A ++ (s ++ take k rest) ++ drop k rest) at 2
      by (rewrite <-app_assoc, take_drop; done).
    assert (Hlen : length (s ++ take k rest) = length s + k)
      by (rewrite app_length, take_length; lia).
    apply wp_slice_app; [done|rewrite Hlen; lia|unfold e; lia|].
    wp_apply (insertion_sort_shift_left_spec c ans (length (s ++ take k rest))
               (Nat.max (length s) 1) (s ++ take k rest)).
    - done.
    - lia.
    - intros [] m _ [Hm Hsm] Hlm. apply wp_ret.
      exists m, (drop k rest). repeat split.
      + lia.
      + intros ->. simpl in Hlm. lia.
      + apply Hsm. rewrite take_app_alt by lia. done.
      + etrans; [|by apply sperm_app_r]. rewrite <-app_assoc, take_drop. done.
    - intros e' m _ (He' & Hex & Hpp) _. split; [done|]. split; [done|].
      rewrite Hpp. rewrite <-app_assoc, take_drop. done.
  Qed.

  Lemma merge_sort_loop_spec fuel n l0 segs rest :
    n = length (concat segs ++ rest) → length rest < fuel →
    Forall seg_ok segs → sperm l0 (concat segs ++ rest) →
    (rest = [] → length segs = 1) →
    wp ans (merge_sort_loop c fuel (n / 2) n (length (concat segs)) (length (concat segs))
             (runs_of 0 segs))
      (λ runs l', sperm l0 l' ∧ ksorted l' ∧ runs = [Run 0 n])
      (upanic ans l0) (concat segs ++ rest).
  Proof.
    revert segs rest.
    induction fuel as [|f IH]; intros segs rest Hn Hf Hok Hp Hend; [lia|]. simpl.
    rewrite app_length in Hn.
    destruct (Nat.ltb_spec (length (concat segs)) n) as [Hlt|Hge].
    2: { apply wp_ret. assert (rest = []) as -> by (destruct rest; simpl in *; [done|lia]).
         specialize (Hend eq_refl). destruct segs as [|s [|]]; simpl in *; try done.
         rewrite !app_nil_r in *. split; [done|]. split.
         - by apply Forall_cons in Hok as [[_ ?] _].
         - do 2 f_equal. lia. }
    assert (Hrest : 0 < length rest) by lia.
    apply wp_bind.
    replace (concat segs ++ rest) with (concat segs ++ rest ++ []) by (by rewrite app_nil_r).
    apply wp_slice_app; [done|lia|lia|].
    wp_apply (find_streak_spec (length rest) rest); [done|done| |].
    2: { intros e l' _ (He & Hex & Hpp) _. split; [done|]. split; [done|].
         rewrite app_nil_r, Hpp. by apply (sperm_perm ans). }
    intros [e r] l' _ (-> & He0 & He & Hs) _. simpl in He0, He, Hs. rewrite app_nil_r.
    apply wp_bind.
    assert (Hte : length (take e rest) = e) by (rewrite take_length; lia).
    (* after reversing a descending streak *)
    eapply (wp_mono _ _ (λ _ l', ∃ s, l' = concat segs ++ s ++ drop e rest ∧
              s ≠ [] ∧ length s = e ∧ ksorted s ∧ sperm (take e rest) s) _ (upanic ans l0)).
    { destruct r; simpl in Hs.
      - replace (concat segs ++ rest) with (concat segs ++ take e rest ++ drop e rest)
          by (by rewrite take_drop).
        apply wp_slice_app; [done|lia|lia|].
        wp_apply (reverse_spec ans (length (take e rest)) (take e rest) (λ _ _, False));
          [done| |done].
        intros [] m _ -> Hlm. exists (rev (take e rest)). repeat split.
        + intros Hnil. rewrite Hnil in Hlm. simpl in Hlm. lia.
        + lia.
        + by apply ksorted_rev.
        + by apply sperm_reverse.
      - apply wp_ret. exists (take e rest). repeat split.
        + by rewrite take_drop.
        + intros Hnil. rewrite Hnil in Hte. simpl in Hte. lia.
        + done.
        + done.
        + reflexivity. }
    2: auto.
    intros [] l' _ (s & -> & Hsne & Hsl & Hss & Hsp).
    apply wp_bind.
    assert (Hp1 : sperm l0 (concat segs ++ s ++ drop e rest)).
    { etrans; [exact Hp|]. apply sperm_app_l.
      rewrite <-(take_drop e rest) at 1. by apply sperm_app_r. }
    rewrite <-Hsl.
    wp_apply (provide_sorted_batch_spec n (concat segs) s (drop (length s) rest)).
    { rewrite !app_length, drop_length. lia. }
    { done. }
    { done. }
    2: { intros e' l' _ Hu. eapply upanic_perm; [exact Hu|]. rewrite Hsl.
         by apply (sperm_perm ans). }
    intros e2 l' _ (s2 & rest2 & -> & -> & Hne2 & Hs2 & Hsp2).
    rewrite Hsl in Hsp2.
    apply wp_bind, wp_usub; [lia|].
    replace (length (concat segs) + length s2 - length (concat segs)) with (length s2) by lia.
    assert (Hruns : runs_of 0 segs ++ [Run (length (concat segs)) (length s2)]
                    = runs_of 0 (segs ++ [s2])).
    { rewrite runs_of_app. done. }
    rewrite Hruns.
    assert (Hcat : concat segs ++ s2 ++ rest2 = concat (segs ++ [s2]) ++ rest2).
    { rewrite concat_app. simpl. rewrite app_nil_r. by rewrite <-app_assoc. }
    assert (Hlen2 : length s2 + length rest2 = length rest).
    { apply (sperm_length ans) in Hsp2. rewrite !app_length, drop_length in Hsp2. lia. }
    assert (0 < length s2) by (destruct s2; simpl; [done|lia]).
    assert (Hcl : length (concat (segs ++ [s2])) = length (concat segs) + length s2).
    { rewrite concat_app, app_length. simpl. rewrite app_nil_r. done. }
    rewrite Hcat. apply wp_bind. rewrite runs_of_length.
    wp_apply (collapse_loop_spec (S (S (length segs))) n l0 (segs ++ [s2]) rest2).
    - rewrite <-Hcat, !app_length. lia.
    - intros Hnil. by apply app_eq_nil in Hnil as [_ ?].
    - rewrite app_length. simpl. lia.
    - apply Forall_app. split; [done|]. constructor; [|done]. done.
    - rewrite <-Hcat. etrans; [exact Hp1|]. by apply sperm_app_l.
    - intros runs l' Hll (segs' & -> & -> & Hne' & Hok' & Hp' & Hcn & _).
      assert (Hlc : length (concat segs') = length (concat (segs ++ [s2]))).
      { rewrite !app_length in Hll. lia. }
      rewrite <-Hcl, <-Hlc.
      apply IH; auto.
      + rewrite app_length. lia.
      + lia.
      + intros ->. destruct segs' as [|sl segs' _] using rev_ind; [done|].
        rewrite <-(runs_of_length 0 (segs' ++ [sl])).
        eapply (collapse_none_full _ n (Run (length (concat segs')) (length sl))); [|simpl|exact Hcn].
        * rewrite runs_of_app. simpl. apply last_snoc.
        * rewrite concat_app, app_length in Hlc. simpl in Hlc. rewrite app_nil_r in Hlc.
          simpl in *. lia.
    - auto.
  Qed.

  Lemma merge_sort_spec n l :
    n = length l → zst c = false →
    wp ans (merge_sort c n) (λ _ l', sperm l l' ∧ ksorted l') (upanic ans l) l.
  Proof.
    intros Hn Hz. unfold merge_sort.
    apply wp_bind, wp_dassert; [by rewrite Hz|].
    destruct (Nat.leb_spec n MS_MAX_INSERTION) as [Hle|Hgt].
    - destruct (Nat.leb_spec 2 n).
      + wp_apply (insertion_sort_shift_left_spec c ans n 1 l); [done|lia| |auto].
        intros [] l' _ [Hp Hs]. split; [done|]. apply Hs.
        destruct l; simpl; [constructor|]. apply ksorted_singleton.
      + apply wp_ret. split; [reflexivity|].
        destruct l as [|x [|]]; simpl in *; [constructor|apply ksorted_singleton|lia].
    - apply wp_bind.
      assert (MS_MAX_INSERTION = 20) by done.
      wp_apply (merge_sort_loop_spec (S n) n l [] l).
      + done.
      + lia.
      + constructor.
      + simpl. reflexivity.
      + intros ->. simpl in *. lia.
      + intros runs l' _ (Hp & Hs & ->). apply wp_dassert; [|done].
        simpl. rewrite Nat.eqb_refl. done.
      + auto.
  Qed.

  Lemma stable_sort_spec n l :
    n = length l →
    wp ans (stable_sort c n)
      (λ _ l', sperm l l' ∧ (zst c = false → ksorted l') ∧ (zst c = true → l' = l))
      (upanic ans l) l.
  Proof.
    intros Hn. unfold stable_sort. destruct (zst c) eqn:Hz.
    - apply wp_ret. repeat split; [reflexivity|done].
    - wp_apply (merge_sort_spec n l); [done|done| |auto].
      intros [] l' _ [Hp Hs]. done.
  Qed.
End merge.
