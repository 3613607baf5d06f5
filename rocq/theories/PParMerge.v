(** * Proofs about one chunk of the parallel stable sort (MParMerge.v). *)
From Verif Require Export PMerge MParMerge Views.
From stdpp Require Import list.

(** ** A program on an array that uses a list as its buffer, and one that has the
    buffer in memory behind the array. *)
Section sim.
  Context {T Q R : Type} (ans : Q → R → Prop).
  Notation P A := (prog T Q R A).
  Implicit Types (V J M : list T).

  Local Transparent wp bind on_unwind.
  Local Arguments wp {T Q R A} ans !p Φ E l.
  Local Arguments bind {T Q R A B} !p f.
  Local Arguments on_unwind {T Q R A} c !p.

  Lemma wp_bind_inv {A B} (p : P A) (f : A → P B) Φ E l :
    wp ans (bind p f) Φ E l → wp ans p (λ a l', wp ans (f a) Φ E l') E l.
  Proof.
    revert B f Φ E l.
    induction p as [A a|A e|A i k IH|A i x k IH|A q k IH|A B C p1 IH1 p2 IH2 k IH| |];
      intros B' f Φ E l Hwp; simpl in *; auto.
    - destruct (l !! i) as [x|]; [|done]. eauto.
    - destruct Hwp. split; [done|]. eauto.
    - eapply wp_mono; [exact Hwp| |]; simpl; intros b l1 Hl1 Hwp2;
        (eapply wp_mono; [exact Hwp2| |]; simpl; intros c l2 Hl2 Hk; eauto).
  Qed.
  Lemma wp_on_unwind_inv {A} (c : P unit) (p : P A) Φ E l :
    wp ans (on_unwind c p) Φ E l →
    wp ans p Φ (λ e l', wp ans c (λ _ l'', E e l'') E l') l.
  Proof.
    revert Φ E l.
    induction p as [A a|A e|A i k IH|A i x k IH|A q k IH|A B C p1 IH1 p2 IH2 k IH| |];
      intros Φ E l Hwp; simpl in *; auto.
    - by apply wp_bind_inv in Hwp.
    - destruct (l !! i) as [x|]; [|done]. eauto.
    - destruct Hwp. split; [done|]. eauto.
    - eapply wp_mono; [exact Hwp| |]; simpl; intros b l1 Hl1 Hwp2;
        (eapply wp_mono; [exact Hwp2| |]; simpl; intros d l2 Hl2 Hk; eauto).
  Qed.

  (** A program that runs on [V] alone leaves alone what is behind it. *)
  Lemma wp_frame_r {A} (p : P A) (Φ : A → list T → Prop) (E : exn → list T → Prop) V J :
    wp ans p Φ E V →
    wp ans p (λ a M, ∃ V', M = V' ++ J ∧ length V' = length V ∧ Φ a V')
             (λ e M, ∃ V', M = V' ++ J ∧ length V' = length V ∧ E e V') (V ++ J).
  Proof.
    revert Φ E V.
    induction p as [A a|A e|A i k IH|A i x k IH|A q k IH|A B C p1 IH1 p2 IH2 k IH| |];
      intros Φ E V Hwp; simpl in *; auto.
    - by exists V.
    - by exists V.
    - destruct (V !! i) as [x|] eqn:Hx; [|done].
      rewrite (lookup_app_l_Some _ _ _ _ Hx). eauto.
    - destruct Hwp as [Hi Hwp]. split; [rewrite app_length; lia|].
      rewrite insert_app_l by done. apply IH in Hwp. by rewrite insert_length in Hwp.
    - apply IH1 in Hwp.
      eapply wp_mono; [exact Hwp| |]; simpl; intros b l1 _ (V1 & -> & HV1 & Hwp2);
        apply IH2 in Hwp2;
        (eapply wp_mono; [exact Hwp2| |]; simpl; intros d l2 _ (V2 & -> & HV2 & Hk);
         apply IH in Hk;
         (eapply wp_mono; [exact Hk| |]; simpl; intros d' l3 _ (V3 & -> & HV3 & Hk');
          exists V3; (split; [done|]); (split; [congruence|done]))).
  Qed.

  Context (n : nat) (J : list T).
  Definition sim {A} (p q : P A) : Prop :=
    ∀ (Φ : A → list T → Prop) (E : exn → list T → Prop) V,
    length V = n → wp ans p Φ E V →
    wp ans q (λ a M, ∃ V', M = V' ++ J ∧ length V' = n ∧ Φ a V')
             (λ e M, ∃ V', M = V' ++ J ∧ length V' = n ∧ E e V') (V ++ J).

  Lemma sim_bind {A B} (p q : P A) (f g : A → P B) :
    sim p q → (∀ a, sim (f a) (g a)) → sim (bind p f) (bind q g).
  Proof.
    intros Hp Hf Φ E V HV H%wp_bind_inv. apply wp_bind.
    eapply wp_mono; [by apply Hp|auto|auto].
    intros a M _ (V' & -> & HV' & H'). by apply Hf.
  Qed.
  Lemma sim_on_unwind {A} (c d : P unit) (p q : P A) :
    sim c d → sim p q → sim (on_unwind c p) (on_unwind d q).
  Proof.
    intros Hc Hp Φ E V HV H%wp_on_unwind_inv. apply wp_on_unwind.
    eapply wp_mono; [by apply Hp|auto|].
    intros e M _ (V' & -> & HV' & H'). by apply Hc in H'.
  Qed.
  Lemma sim_ret {A} (a : A) : sim (Ret a) (Ret a).
  Proof. intros Φ E V HV H. simpl in *. eauto. Qed.
  Lemma sim_nofuel {A} : sim (A:=A) NoFuel NoFuel.
  Proof. intros Φ E V HV []. Qed.
  Lemma sim_throw {A} e : sim (A:=A) (Throw e) (Throw e).
  Proof. intros Φ E V HV H. simpl in *. eauto. Qed.
  Lemma sim_read i (f : T → P T) : i < n → (∀ x, sim (f x) (f x)) → sim (Read i f) (Read i f).
  Proof.
    intros Hi Hf Φ E V HV H. simpl in *. rewrite lookup_app_l by lia.
    destruct (V !! i); [|done]. by apply Hf.
  Qed.
  Lemma sim_uget i : sim (uget n i) (uget n i).
  Proof.
    unfold uget. destruct (Nat.ltb_spec i n); [|by intros Φ E V HV []].
    apply sim_read; [done|]. intros x. apply sim_ret.
  Qed.
  Lemma sim_get i : sim (get n i) (get n i).
  Proof.
    unfold get. destruct (Nat.ltb_spec i n); [|by apply sim_throw].
    apply sim_read; [done|]. intros x. apply sim_ret.
  Qed.
  Lemma sim_put i x : sim (put n i x) (put n i x).
  Proof.
    unfold put. destruct (Nat.ltb_spec i n); [|by apply sim_throw].
    intros Φ E V HV [_ H']. simpl in *. split; [rewrite app_length; lia|].
    rewrite insert_app_l by lia. eexists. split; [done|]. by rewrite insert_length.
  Qed.
  Lemma sim_usub a b : sim (usub a b) (usub a b).
  Proof. unfold usub. destruct (b <=? a); [apply sim_ret|apply sim_throw]. Qed.
  Lemma sim_nonoverlapping (t : bool) i j :
    sim (if t then nonoverlapping i j else Ret tt) (if t then nonoverlapping i j else Ret tt).
  Proof.
    destruct t; [|apply sim_ret]. unfold nonoverlapping. destruct (_ =? _); [|apply sim_ret].
    by intros Φ E V HV [].
  Qed.
  Lemma sim_ask q (f : R → P bool) : (∀ r, sim (f r) (f r)) → sim (Ask q f) (Ask q f).
  Proof. intros Hf Φ E V HV H r Hr. simpl in *. apply Hf; auto. Qed.
  Lemma sim_for_up a cnt (f g : nat → P unit) :
    (∀ i, sim (f i) (g i)) → sim (for_up a cnt f) (for_up a cnt g).
  Proof.
    intros Hf. revert a. induction cnt as [|k IH]; intros a; simpl; [apply sim_ret|].
    apply sim_bind; auto.
  Qed.
End sim.

Section chunk.
  Context {T : Type} (c : cfg) (ans : T * T → option bool → Prop).
  Implicit Types (l V J M : list T).
  Notation kle := (kle ans).
  Notation klt := (klt ans).
  Notation ksorted := (ksorted ans).
  Notation sperm := (sperm ans).

  Lemma sim_is_less n J (a b : T) : sim ans n J (is_less a b) (is_less a b).
  Proof. apply sim_ask. intros [r|]; [apply sim_ret|apply sim_throw]. Qed.

  Section buf.
    Context (n : nat) (J buf : list T) (Hbuf : buf `prefix_of` J).
    Notation sim := (sim ans n J).
    Local Transparent wp.
    Local Arguments wp {T Q R A} ans !p Φ E l.
    Lemma sim_buf_get i : sim (buf_get buf i) (bget n (length J) i).
    Proof.
      intros Φ E V HV H. unfold buf_get, bget in *.
      destruct (buf !! i) as [x|] eqn:Hx; [|done].
      eapply prefix_lookup in Hx; [|done].
      rewrite (proj2 (Nat.ltb_lt _ _)) by (by eapply lookup_lt_Some).
      simpl in *. rewrite lookup_app_r by lia. replace (n + i - length V) with i by lia.
      rewrite Hx. eauto.
    Qed.
    Local Opaque wp.
    Lemma sim_hole_drop s e d : sim (merge_hole_drop n buf s e d) (pm_hole_drop n (length J) s e d).
    Proof.
      apply sim_bind; [apply sim_usub|]. intros len. apply sim_for_up. intros i.
      apply sim_bind; [apply sim_buf_get|]. intros x. apply sim_put.
    Qed.
    Lemma sim_merge_fwd fuel mid left right out :
      sim (merge_fwd fuel n mid buf left right out)
          (pm_merge_fwd fuel n (length J) mid left right out).
    Proof.
      revert left right out. induction fuel as [|f IH]; intros left right out;
        cbn [merge_fwd pm_merge_fwd]; [apply sim_nofuel|]. cbv zeta.
      destruct (_ && _); [|apply sim_hole_drop].
      apply sim_bind; [apply sim_uget|intros x]. apply sim_bind; [apply sim_buf_get|intros y].
      apply sim_bind; [apply sim_on_unwind; [apply sim_hole_drop|apply sim_is_less]|intros r].
      apply sim_bind; [apply sim_nonoverlapping|intros _].
      apply sim_bind; [apply sim_on_unwind; [apply sim_hole_drop|apply sim_put]|intros _].
      destruct r; apply IH.
    Qed.
    Lemma sim_merge_bwd fuel left right out :
      sim (merge_bwd fuel n buf left right out)
          (pm_merge_bwd fuel n (length J) left right out).
    Proof.
      revert left right out. induction fuel as [|f IH]; intros left right out;
        cbn [merge_bwd pm_merge_bwd]; [apply sim_nofuel|]. cbv zeta.
      destruct (_ && _); [|apply sim_hole_drop].
      apply sim_bind; [apply sim_buf_get|intros x]. apply sim_bind; [apply sim_uget|intros y].
      apply sim_bind; [apply sim_on_unwind; [apply sim_hole_drop|apply sim_is_less]|intros r].
      apply sim_bind; [apply sim_on_unwind; [apply sim_hole_drop|apply sim_usub]|intros o].
      apply sim_bind; [apply sim_nonoverlapping|intros _].
      apply sim_bind; [apply sim_on_unwind; [apply sim_hole_drop|apply sim_put]|intros _].
      apply IH.
    Qed.
  End buf.

  Lemma wp_bput n cap i x (Φ : unit → list T → Prop) E M :
    i < cap → n + cap ≤ length M → Φ tt (<[n + i:=x]> M) → wp ans (bput n cap i x) Φ E M.
  Proof.
    intros Hi Hn H. unfold bput. rewrite (proj2 (Nat.ltb_lt i cap) Hi).
    assert (H' : wp ans (uput (S (n + i)) (n + i) x : cmp_prog T unit) Φ E M); [|].
    { apply wp_uput; [lia|lia|done]. }
    unfold uput in H'. rewrite (proj2 (Nat.ltb_lt _ _)) in H' by lia. done.
  Qed.

  Lemma pm_copy_out_spec n base cnt V J E :
    n = length V → base + cnt ≤ n → cnt ≤ length J →
    wp ans (pm_copy_out n (length J) base cnt)
      (λ _ M, M = V ++ take cnt (drop base V) ++ drop cnt J) E (V ++ J).
  Proof.
    intros Hn Hb Hc. unfold pm_copy_out.
    eapply wp_mono; [apply (wp_for_up ans 0 cnt _
      (λ i M, M = V ++ take i (drop base V) ++ drop i J) E)| |]; [done| |by intros [] M _ ->|auto].
    intros i M Hi ->.
    apply wp_bind, wp_get; [lia|rewrite app_length; lia|]. intros x Hx.
    rewrite lookup_app_l in Hx by lia.
    destruct (lookup_lt_is_Some_2 J i) as [j Hj]; [lia|].
    apply wp_bput; [lia| |].
    { rewrite !app_length, take_length, !drop_length. lia. }
    rewrite Hn, insert_app_r. f_equal.
    rewrite (drop_S J j i) by done.
    replace i with (length (take i (drop base V))) at 1
      by (rewrite take_length, drop_length; lia).
    rewrite insert_middle.
    rewrite (take_S_r (drop base V) i x) by (by rewrite lookup_drop).
    by rewrite <-app_assoc.
  Qed.

  (** A property of the part of memory before the buffer. *)
  Definition onv {A} (cap : nat) (Φ : A → list T → Prop) (a : A) (M : list T) : Prop :=
    ∃ V J, M = V ++ J ∧ length J = cap ∧ Φ a V.

  Lemma pm_merge_spec n L R J :
    n = length (L ++ R) → Nat.min (length L) (length R) ≤ length J →
    ksorted L → ksorted R →
    wp ans (pm_merge n (length J) (length L))
      (onv (length J) (λ _ V, sperm (L ++ R) V ∧ ksorted V))
      (onv (length J) (mpanic ans (L ++ R))) ((L ++ R) ++ J).
  Proof.
    intros Hn Hcap HL HR. pose proof Hn as Hn'. rewrite app_length in Hn. unfold pm_merge.
    apply wp_bind, wp_usub; [lia|].
    replace (n - length L) with (length R) by lia.
    destruct (Nat.leb_spec (length L) (length R)).
    - apply wp_bind. wp_apply (pm_copy_out_spec n 0 (length L) (L ++ R) J (λ _ _, False));
        [done|lia|lia| |done].
      intros [] M _ ->. rewrite drop_0, take_app.
      set (J' := L ++ drop (length L) J).
      assert (HJ' : length J' = length J).
      { unfold J'. rewrite app_length, drop_length. lia. }
      rewrite <-HJ'.
      eapply wp_mono; [apply (sim_merge_fwd n J' L)| |].
      + by eexists.
      + done.
      + apply (merge_fwd_spec ans (S n) n (length L) (L ++ R) [] L R [] L); auto.
        * simpl. reflexivity.
        * lia.
      + intros [] M _ (V' & -> & HV' & HΦ). exists V', J'. done.
      + intros e M _ (V' & -> & HV' & HΦ). exists V', J'. done.
    - apply wp_bind. wp_apply (pm_copy_out_spec n (length L) (length R) (L ++ R) J (λ _ _, False));
        [done|lia|lia| |done].
      intros [] M _ ->. rewrite drop_app, take_ge by lia.
      set (J' := R ++ drop (length R) J).
      assert (HJ' : length J' = length J).
      { unfold J'. rewrite app_length, drop_length. lia. }
      rewrite <-HJ'.
      eapply wp_mono; [apply (sim_merge_bwd n J' R)| |].
      + by eexists.
      + done.
      + assert (Hgoal := merge_bwd_spec ans (S n) n (L ++ R) L R [] R []).
        rewrite !app_nil_r in Hgoal. rewrite <-Hn in Hgoal. apply Hgoal; auto.
        * reflexivity.
        * lia.
      + intros [] M _ (V' & -> & HV' & HΦ). exists V', J'. done.
      + intros e M _ (V' & -> & HV' & HΦ). exists V', J'. done.
  Qed.

  (** The rule for a subview together with the buffer. *)
  Lemma wp_slice_buf {A} n a b (p : nat → cmp_prog T A) (Φ : A → list T → Prop) (E : exn → list T → Prop) l1 V l3 J :
    a = length l1 → b = a + length V → n = length (l1 ++ V ++ l3) →
    wp ans (p (length V))
      (λ r M, ∀ V' J', M = V' ++ J' → length V' = length V → length J' = length J →
         Φ r ((l1 ++ V' ++ l3) ++ J'))
      (λ e M, ∀ V' J', M = V' ++ J' → length V' = length V → length J' = length J →
         E e ((l1 ++ V' ++ l3) ++ J')) (V ++ J) →
    wp ans (slice_buf n a b p) Φ E ((l1 ++ V ++ l3) ++ J).
  Proof.
    intros -> -> Hn H. rewrite !app_length in Hn. unfold slice_buf.
    rewrite (proj2 (Nat.leb_le _ _)), (proj2 (Nat.leb_le _ _)) by lia. simpl.
    replace (length l1 + length V - length l1) with (length V) by lia.
    set (f := λ i, if i <? length V then length l1 + i else n + (i - length V)).
    assert (Hlen : length ((l1 ++ V ++ l3) ++ J) = n + length J).
    { rewrite !app_length. lia. }
    assert (Hf : ∀ i, (i < length V ∧ f i = length l1 + i) ∨
                      (length V ≤ i ∧ f i = n + (i - length V))).
    { intros i. unfold f. destruct (Nat.ltb_spec i (length V)); [left|right]; done. }
    assert (Hkey : ∀ M l', length M = length (V ++ J) →
      scattered f ((l1 ++ V ++ l3) ++ J) M l' →
      l' = (l1 ++ take (length V) M ++ l3) ++ drop (length V) M ∧
      length (take (length V) M) = length V ∧ length (drop (length V) M) = length J).
    { intros M l' HM Hsc. rewrite app_length in HM.
      assert (H1 : length (take (length V) M) = length V) by (rewrite take_length; lia).
      assert (H2 : length (drop (length V) M) = length J) by (rewrite drop_length; lia).
      split; [|done].
      apply list_eq. intros j.
      destruct (decide (j < length l1)) as [?|?].
      { rewrite (sc_out _ _ _ _ Hsc).
        - rewrite <-!app_assoc. rewrite !(lookup_app_l l1) by lia. done.
        - intros i Hi ->. destruct (Hf i) as [[? Hfi]|[? Hfi]]; rewrite Hfi in *; lia. }
      destruct (decide (j < length l1 + length V)) as [?|?].
      { replace j with (f (j - length l1)).
        2: { destruct (Hf (j - length l1)) as [[? Hfi]|[? Hfi]]; rewrite Hfi; lia. }
        rewrite (sc_in _ _ _ _ Hsc) by lia.
        destruct (Hf (j - length l1)) as [[? ->]|[? Hfi]]; [|lia].
        rewrite <-!app_assoc, lookup_app_r by lia. rewrite lookup_app_l by lia.
        rewrite lookup_take by lia. f_equal. lia. }
      destruct (decide (j < n)) as [?|?].
      { rewrite (sc_out _ _ _ _ Hsc).
        - rewrite <-!app_assoc. rewrite !(lookup_app_r l1) by lia.
          rewrite !(lookup_app_r _ (l3 ++ _)) by lia. rewrite H1.
          rewrite !(lookup_app_l l3) by lia. done.
        - intros i Hi ->. destruct (Hf i) as [[? Hfi]|[? Hfi]]; rewrite Hfi in *; lia. }
      assert (Hla : length (l1 ++ take (length V) M ++ l3) = n).
      { rewrite !app_length. lia. }
      rewrite (lookup_app_r (l1 ++ _ ++ l3)) by lia. rewrite Hla, lookup_drop.
      destruct (decide (j < n + length J)) as [?|?].
      - replace j with (f (length V + (j - n))) at 1.
        2: { destruct (Hf (length V + (j - n))) as [[? Hfi]|[? Hfi]]; rewrite Hfi; lia. }
        rewrite (sc_in _ _ _ _ Hsc) by lia. done.
      - rewrite !lookup_ge_None_2; [done|lia|]. rewrite (sc_length _ _ _ _ Hsc). lia. }
    apply (wp_relocate ans f _ _ _ ((l1 ++ V ++ l3) ++ J) _ (V ++ J)).
    - intros i j _ _ Heq.
      destruct (Hf i) as [[? Hfi]|[? Hfi]], (Hf j) as [[? Hfj]|[? Hfj]]; rewrite Hfi, Hfj in Heq; lia.
    - intros i Hi. rewrite Hlen. rewrite app_length in Hi.
      destruct (Hf i) as [[? ->]|[? ->]]; lia.
    - split; [done| |done].
      intros i Hi. rewrite app_length in Hi. destruct (Hf i) as [[? ->]|[? ->]].
      + rewrite <-!app_assoc. rewrite (lookup_app_r l1) by lia.
        replace (length l1 + i - length l1) with i by lia.
        by rewrite !(lookup_app_l V) by lia.
      + rewrite (lookup_app_r (l1 ++ _ ++ l3)) by (rewrite !app_length; lia).
        rewrite (lookup_app_r V) by lia. f_equal. rewrite !app_length. lia.
    - eapply wp_mono; [exact H| |]; simpl; intros r M _ HΦ l' HM Hsc;
        destruct (Hkey M l' HM Hsc) as (-> & H1 & H2);
        (apply HΦ; [by rewrite take_drop|done|done]).
  Qed.

  (** ** Insertion *)
  Lemma pm_insert_loop_spec tmp n A g B :
    n = length (A ++ g :: B) →
    wp ans (pm_insert_loop n tmp (S (length A)) (length B))
      (λ _ l', ∃ B1 B2, B = B1 ++ B2 ∧ l' = A ++ B1 ++ tmp :: B2 ∧ Forall (λ y, klt y tmp) B1 ∧
                        (∀ y, head B2 = Some y → kle tmp y))
      (mpanic ans (A ++ tmp :: B)) (A ++ g :: B).
  Proof.
    revert A g. induction B as [|y B IH]; intros A g Hn; simpl; rewrite Nat.sub_0_r.
    - rewrite app_length in Hn; simpl in Hn.
      apply wp_uput; [lia|rewrite app_length; simpl; lia|]. rewrite insert_middle.
      exists [], []. repeat split; auto. done.
    - rewrite app_length in Hn; simpl in Hn.
      assert (Hlen : length (A ++ g :: y :: B) = n) by (rewrite app_length; simpl; lia).
      apply wp_bind, wp_on_unwind, wp_get; [lia|lia|]. intros y' Hy'.
      rewrite lookup_app_r in Hy' by lia.
      replace (S (length A) - length A) with 1 in Hy' by lia. injection Hy' as <-.
      apply wp_bind, wp_is_less_guard.
      + intros [] Hr.
        * apply wp_bind, wp_on_unwind, wp_put; [lia|lia|]. rewrite insert_middle.
          replace (A ++ y :: y :: B) with ((A ++ [y]) ++ y :: B) by (by rewrite <-app_assoc).
          replace (S (S (length A))) with (S (length (A ++ [y]))) by (rewrite app_length; simpl; lia).
          wp_apply (IH (A ++ [y]) y).
          { rewrite !app_length; simpl; lia. }
          -- intros [] l' _ (B1 & B2 & -> & -> & HB1 & HB2). exists (y :: B1), B2.
             rewrite <-app_assoc. repeat split; auto. constructor; [|done]. by apply ans_true.
          -- intros e l' _ Hu. eapply mpanic_perm; [exact Hu|]. rewrite <-app_assoc. simpl.
             apply Permutation_app; [done|]. constructor.
        * apply wp_uput; [lia|lia|]. rewrite insert_middle.
          exists [], (y :: B). repeat split; auto.
          intros z Hz. injection Hz as <-. by apply ans_false.
      + intros Hr. apply wp_uput; [lia|lia|]. rewrite insert_middle.
        eapply mpanic_intro; [done|done|set_solver|set_solver].
  Qed.

  Lemma pm_insert_head_spec n x A :
    n = S (length A) →
    wp ans (pm_insert_head n) (λ _ l', inserted_right ans x A l')
      (mpanic ans (x :: A)) (x :: A).
  Proof.
    intros Hn. unfold pm_insert_head.
    destruct (Nat.leb_spec 2 n).
    2: { apply wp_ret. destruct A; simpl in *; [|lia]. by exists [], []. }
    destruct A as [|y A]; simpl in Hn; [lia|].
    apply wp_bind, wp_get; [lia|simpl; lia|]. intros y' Hy'. injection Hy' as <-.
    apply wp_bind, wp_get; [lia|simpl; lia|]. intros x' Hx'. injection Hx' as <-.
    apply wp_bind, wp_is_less.
    - intros [] Hr.
      + apply wp_bind, wp_get; [lia|simpl; lia|]. intros x' Hx'. injection Hx' as <-.
        apply wp_bind, wp_get; [lia|simpl; lia|]. intros y' Hy'. injection Hy' as <-.
        apply wp_bind, wp_on_unwind, wp_put; [lia|simpl; lia|]. simpl.
        replace (n - 2) with (length A) by lia.
        wp_apply (pm_insert_loop_spec x n [y] y A).
        { simpl. lia. }
        * intros [] l' _ (B1 & B2 & -> & -> & HB1 & HB2). exists (y :: B1), B2.
          repeat split; auto. constructor; [|done]. by apply ans_true.
        * intros e l' _ Hu. eapply mpanic_perm; [exact Hu|]. constructor.
      + apply wp_ret. exists [], (y :: A). repeat split; auto.
        intros z Hz. injection Hz as <-. by apply ans_false.
    - intros Hr. eapply mpanic_intro; [done|done|set_solver|set_solver].
  Qed.

  (** ** Runs, from the end of the view. *)
  Notation streak_rel := (streak_rel ans).
  Lemma streak_cons r x y l :
    StronglySorted (streak_rel r) (y :: l) → streak_rel r x y →
    StronglySorted (streak_rel r) (x :: y :: l).
  Proof.
    intros Hs Hxy. constructor; [done|]. apply StronglySorted_inv in Hs as [_ Hy].
    constructor; [done|]. eapply Forall_impl; [exact Hy|]. intros z Hz.
    by eapply streak_rel_trans.
  Qed.

  Lemma pm_streak_spec r n A y S C :
    n = length (A ++ y :: S ++ C) → StronglySorted (streak_rel r) (y :: S) →
    wp ans (pm_streak r n (length A))
      (λ j l', l' = A ++ y :: S ++ C ∧ ∃ A1 A2, A ++ y :: S = A1 ++ A2 ∧ j = length A1 ∧
         length A1 ≤ length A ∧ StronglySorted (streak_rel r) A2)
      (mpanic ans (A ++ y :: S ++ C)) (A ++ y :: S ++ C).
  Proof.
    intros Hn. revert y S Hn.
    induction A as [|x A IH] using rev_ind; intros y S Hn Hs.
    { simpl. apply wp_ret. split; [done|]. by exists [], (y :: S). }
    rewrite !app_length in Hn. simpl in Hn. rewrite app_length. simpl.
    replace (length A + 1) with (Datatypes.S (length A)) by lia. simpl.
    rewrite <-!app_assoc. simpl.
    apply wp_bind, wp_uget; [lia|rewrite app_length; simpl; lia|]. intros y' Hy'.
    rewrite lookup_app_r in Hy' by lia.
    replace (Datatypes.S (length A) - length A) with 1 in Hy' by lia. injection Hy' as <-.
    apply wp_bind, wp_uget; [lia|rewrite app_length; simpl; lia|]. intros x' Hx'.
    rewrite lookup_middle in Hx'. injection Hx' as <-.
    apply wp_bind, wp_is_less.
    - intros b Hr. destruct (Bool.eqb_spec b r) as [->|Hne].
      + wp_apply (IH x (y :: S)).
        * rewrite app_length. simpl in *. lia.
        * apply streak_cons; [done|]. destruct r; simpl; [by apply ans_true|by apply ans_false].
        * intros j l' _ (-> & A1 & A2 & Heq & -> & Hle & HA2). split; [done|].
          exists A1, A2. repeat split; auto; lia.
        * auto.
      + apply wp_ret. split; [done|]. exists (A ++ [x]), (y :: S).
        rewrite <-app_assoc, app_length. simpl. repeat split; auto; lia.
    - intros Hr. eapply mpanic_intro; [done|done|set_solver|set_solver].
  Qed.
  Definition sort_result (V : list T) (res : ms_result) (V' : list T) : Prop :=
    match res with
    | NonDescending => V' = V ∧ ksorted V
    | Descending => V' = V ∧ StronglySorted (λ a b, klt b a) V
    | Sorted_ => sperm V V' ∧ ksorted V'
    end.

  Lemma pm_find_run_spec n A C :
    n = length (A ++ C) → A ≠ [] →
    wp ans (pm_find_run n (length A))
      (λ r V', match r with
         | inl start => ∃ A1 S, V' = A1 ++ S ++ C ∧ start = length A1 ∧
             S ≠ [] ∧ ksorted S ∧ sperm A (A1 ++ S)
         | inr res => C = [] ∧ res ≠ Sorted_ ∧ sort_result A res V'
         end)
      (mpanic ans (A ++ C)) (A ++ C).
  Proof.
    intros Hn HA. destruct A as [|y A _] using rev_ind; [done|]. clear HA.
    rewrite !app_length in Hn. simpl in Hn. rewrite app_length. simpl.
    unfold pm_find_run. apply wp_bind, wp_usub; [lia|].
    replace (length A + 1 - 1) with (length A) by lia.
    destruct (Nat.ltb_spec 0 (length A)) as [H0|H0].
    2: { apply wp_ret. destruct A; simpl in *; [|lia]. exists [], [y].
         repeat split; [done|apply ksorted_singleton|reflexivity]. }
    destruct A as [|x A _] using rev_ind; simpl in *; [lia|]. clear H0.
    rewrite !app_length in *. simpl in *.
    replace (length A + 1 - 1) with (length A) by lia. rewrite <-!app_assoc. simpl.
    apply wp_bind, wp_uget; [lia|rewrite app_length; simpl; lia|]. intros y' Hy'.
    rewrite lookup_app_r in Hy' by lia.
    replace (length A + 1 - length A) with 1 in Hy' by lia. injection Hy' as <-.
    apply wp_bind, wp_uget; [lia|rewrite app_length; simpl; lia|]. intros x' Hx'.
    rewrite lookup_middle in Hx'. injection Hx' as <-.
    apply wp_bind, wp_is_less.
    2: { intros Hr. eapply mpanic_intro; [done|done|set_solver|set_solver]. }
    intros r Hr. apply wp_bind.
    assert (Hs2 : StronglySorted (streak_rel r) [x; y]).
    { apply streak_cons; [repeat constructor|].
      destruct r; simpl; [by apply ans_true|by apply ans_false]. }
    wp_apply (pm_streak_spec r n A x [y] C); [rewrite app_length; simpl; lia|done| |auto].
    intros j M _ (-> & A1 & A2 & Heq & -> & Hle & HA2).
    assert (Hlen : length A1 + length A2 = length A + 2).
    { rewrite <-app_length, <-Heq, app_length. done. }
    replace (A ++ x :: [y] ++ C) with (A1 ++ A2 ++ C)
      by (rewrite app_assoc, <-Heq, <-app_assoc; done).
    replace (A ++ x :: y :: C) with (A1 ++ A2 ++ C)
      by (rewrite app_assoc, <-Heq, <-app_assoc; done).
    rewrite Heq. clear Heq Hs2 Hr x y.
    destruct r; simpl in HA2.
    - destruct ((length A1 =? 0) && (length A + 1 + 1 =? n)) eqn:Hb.
      + apply andb_true_iff in Hb as [Hb1%Nat.eqb_eq Hb2%Nat.eqb_eq].
        destruct A1; [|done]. destruct C; simpl in *; [|lia]. apply wp_ret.
        rewrite app_nil_r. done.
      + apply wp_bind. apply wp_slice_app; [done|lia|lia|].
        wp_apply (reverse_spec ans (length A2) A2 (λ _ _, False)); [done| |done].
        intros [] m _ -> Hlm. apply wp_ret. exists A1, (rev A2). repeat split.
        * intros Hnil. rewrite Hnil in Hlm. simpl in Hlm. lia.
        * by apply ksorted_rev.
        * by apply sperm_app_l, sperm_reverse.
    - apply wp_bind, wp_usub; [lia|].
      destruct (Nat.eqb_spec (length A + 1 + 1 - length A1) n).
      + apply wp_ret. destruct A1; simpl in *; [|lia]. destruct C; simpl in *; [|lia].
        rewrite app_nil_r. done.
      + apply wp_ret. exists A1, A2. repeat split; [|done|reflexivity].
        intros ->. simpl in *. lia.
  Qed.

  Lemma pm_extend_spec n A S C :
    n = length (A ++ S ++ C) → S ≠ [] → ksorted S →
    wp ans (pm_extend n (length A + length S) (length A))
      (λ j V', ∃ A1 S', V' = A1 ++ S' ++ C ∧ j = length A1 ∧
             S' ≠ [] ∧ ksorted S' ∧ sperm (A ++ S) (A1 ++ S'))
      (mpanic ans (A ++ S ++ C)) (A ++ S ++ C).
  Proof.
    revert S. induction A as [|x A IH] using rev_ind; intros S Hn HS Hs.
    { simpl. apply wp_ret. exists [], S. repeat split; auto. reflexivity. }
    rewrite !app_length in Hn. simpl in Hn. rewrite app_length. simpl.
    assert (He : length A + 1 + length S = length A + length (x :: S)) by (simpl; lia).
    rewrite He. replace (length A + 1) with (Datatypes.S (length A)) by lia. cbn [pm_extend].
    apply wp_bind, wp_usub; [simpl; lia|].
    destruct (Nat.ltb_spec (length A + length (x :: S) - Datatypes.S (length A)) MIN_RUN).
    2: { apply wp_ret. exists (A ++ [x]), S. repeat split; auto.
         - rewrite app_length. simpl. lia.
         - reflexivity. }
    apply wp_bind. rewrite <-!app_assoc. simpl.
    change (A ++ x :: S ++ C) with (A ++ (x :: S) ++ C).
    apply wp_slice_app; [done|done|simpl; lia|].
    wp_apply (pm_insert_head_spec (length (x :: S)) x S); [done| |].
    2: { intros e V' _ Hm _. by eapply mpanic_mid. }
    intros [] S' _ Hins Hlen.
    pose proof (inserted_right_sperm _ _ _ _ Hins) as Hsp.
    apply (inserted_right_sorted ans S x S' Hs) in Hins.
    simpl in Hlen. rewrite <-Hlen. wp_apply (IH S').
    - rewrite !app_length, Hlen. simpl. lia.
    - intros ->. done.
    - done.
    - intros j V' _ (A1 & S2 & -> & -> & HS2 & Hs2 & Hsp2).
      exists A1, S2. repeat split; auto. etrans; [|exact Hsp2]. by apply sperm_app_l.
    - intros e V' _ Hm. eapply mpanic_perm; [exact Hm|].
      rewrite (sperm_perm ans _ _ Hsp). done.
  Qed.

  Lemma pm_collapse_some runs r : pm_collapse runs = Some r → S r < length runs.
  Proof.
    unfold pm_collapse. intros H.
    destruct (Nat.leb_spec 2 (length runs)); simpl in H; [|done].
    repeat case_match; simplify_eq; try lia.
  Qed.
  Lemma pm_collapse_none_full runs r :
    last runs = Some r → r_start r = 0 → pm_collapse runs = None → length runs = 1.
  Proof.
    intros Hl Hs Hc.
    destruct runs as [|r' runs _] using rev_ind; [done|].
    rewrite last_snoc in Hl. injection Hl as ->.
    destruct (decide (runs = [])) as [->|Hne]; [done|exfalso].
    unfold pm_collapse in Hc.
    assert (H2 : 2 ≤ length (runs ++ [r])).
    { rewrite app_length; simpl. destruct runs; [done|simpl; lia]. }
    rewrite (proj2 (Nat.leb_le _ _) H2) in Hc. simpl in Hc.
    replace ((runs ++ [r]) !!! (length (runs ++ [r]) - 1)) with r in Hc.
    - rewrite (proj2 (Nat.eqb_eq _ _) Hs) in Hc. simpl in Hc. by case_match.
    - symmetry. apply list_lookup_total_correct. rewrite app_length; simpl.
      replace (length runs + 1 - 1) with (length runs) by lia. apply lookup_middle.
  Qed.

  (** The stack of runs: the last one pushed is the first one in the view. *)
  Definition rruns (off : nat) (segs : list (list T)) : list run_t := rev (runs_of off segs).
  Lemma rruns_length off segs : length (rruns off segs) = length segs.
  Proof. unfold rruns. by rewrite rev_length, runs_of_length. Qed.
  Lemma rruns_split off S1 a b S2 :
    rruns off (S1 ++ a :: b :: S2)
    = rruns (off + length (concat S1) + length a + length b) S2 ++
      Run (off + length (concat S1) + length a) (length b) ::
      Run (off + length (concat S1)) (length a) :: rruns off S1.
  Proof.
    unfold rruns. rewrite runs_of_app, rev_app_distr. simpl. by rewrite <-!app_assoc.
  Qed.
  Lemma rruns_join off S1 m S2 :
    rruns off (S1 ++ m :: S2)
    = rruns (off + length (concat S1) + length m) S2 ++
      Run (off + length (concat S1)) (length m) :: rruns off S1.
  Proof.
    unfold rruns. rewrite runs_of_app, rev_app_distr. simpl. by rewrite <-!app_assoc.
  Qed.

  Lemma pm_collapse_loop_spec fuel n l0 segs rest J :
    n = length (rest ++ concat segs) → n / 2 ≤ length J →
    segs ≠ [] → length segs < fuel →
    Forall (seg_ok ans) segs → sperm l0 (rest ++ concat segs) →
    wp ans (pm_collapse_loop fuel n (length J) (rruns (length rest) segs))
      (λ runs M, ∃ segs' J', runs = rruns (length rest) segs' ∧ M = (rest ++ concat segs') ++ J' ∧
         length J' = length J ∧
         segs' ≠ [] ∧ Forall (seg_ok ans) segs' ∧ sperm l0 (rest ++ concat segs') ∧
         pm_collapse runs = None)
      (onv (length J) (mpanic ans l0)) ((rest ++ concat segs) ++ J).
  Proof.
    revert segs J. induction fuel as [|f IH]; intros segs J Hn HJ Hne Hf Hok Hp; [lia|]. simpl.
    destruct (pm_collapse (rruns (length rest) segs)) as [r|] eqn:Hc.
    2: { apply wp_ret. exists segs, J. done. }
    apply pm_collapse_some in Hc. rewrite rruns_length in Hc.
    assert (∃ S1 a b S2, segs = S1 ++ a :: b :: S2 ∧ length S2 = r)
      as (S1 & a & b & S2 & -> & <-).
    { set (i := length segs - S (S r)).
      destruct (lookup_lt_is_Some_2 segs i) as [a Ha]; [lia|].
      destruct (lookup_lt_is_Some_2 segs (S i)) as [b Hb]; [lia|].
      exists (take i segs), a, b, (drop (S (S i)) segs). split.
      - rewrite <-(drop_S _ b) by done. rewrite <-(drop_S _ a) by done. by rewrite take_drop.
      - rewrite drop_length. lia. }
    rewrite rruns_split.
    set (off := length rest + length (concat S1)).
    set (R2 := rruns (off + length a + length b) S2).
    assert (HR2 : length R2 = length S2) by apply rruns_length.
    apply wp_bind. unfold run_get at 1. rewrite lookup_app_r by lia.
    replace (length S2 + 1 - length R2) with 1 by lia. simpl. apply wp_ret.
    apply wp_bind. unfold run_get at 1. rewrite <-HR2, lookup_middle. apply wp_ret. simpl.
    apply Forall_app in Hok as [Hok1 Hok2].
    apply Forall_cons in Hok2 as [[Hna Hsa] Hok2].
    apply Forall_cons in Hok2 as [[Hnb Hsb] Hok2].
    assert (Hcat : rest ++ concat (S1 ++ a :: b :: S2)
                   = (rest ++ concat S1) ++ (a ++ b) ++ concat S2).
    { rewrite concat_app. simpl. by rewrite <-!app_assoc. }
    rewrite Hcat in *.
    assert (Hn' := Hn). rewrite !app_length in Hn'.
    assert (Hoff : off = length (rest ++ concat S1)) by (by rewrite app_length).
    apply wp_bind. apply wp_slice_buf; [done|rewrite app_length; lia|done|].
    wp_apply (pm_merge_spec (length (a ++ b)) a b J); [done| |done|done| |].
    { pose proof (Nat.div_mod_eq n 2). pose proof (Nat.mod_upper_bound n 2). lia. }
    2: { intros e M _ (V & J' & -> & HJ' & Hm) V' J'' Hinj HV' HJ''.
         apply app_inj_2 in Hinj as [-> ->]; [|lia].
         exists ((rest ++ concat S1) ++ V' ++ concat S2), J''. split; [done|]. split; [done|].
         eapply mpanic_mid; [done|]. symmetry. by apply (sperm_perm ans). }
    intros [] M _ (V & J' & -> & HJ' & Hm & Hsm) V' J'' Hinj HV' HJ''.
    apply app_inj_2 in Hinj as [-> ->]; [|lia].
    assert (Hdel : delete (length R2 + 1) (<[length R2:=Run off (length a + length b)]>
       (R2 ++ Run (off + length a) (length b) :: Run off (length a) :: rruns (length rest) S1))
       = rruns (length rest) (S1 ++ V' :: S2)).
    { rewrite insert_middle. rewrite Nat.add_1_r.
      replace (R2 ++ Run off (length a + length b) :: Run off (length a) :: rruns (length rest) S1)
        with ((R2 ++ [Run off (length a + length b)]) ++ Run off (length a) :: rruns (length rest) S1)
        by (by rewrite <-app_assoc).
      replace (S (length R2)) with (length (R2 ++ [Run off (length a + length b)]))
        by (rewrite app_length; simpl; lia).
      rewrite delete_middle, rruns_join. rewrite app_length in HV'.
      fold off. rewrite HV', <-app_assoc. unfold R2. simpl. by rewrite Nat.add_assoc. }
    rewrite Hdel.
    assert (Hcat' : (rest ++ concat S1) ++ V' ++ concat S2 = rest ++ concat (S1 ++ V' :: S2)).
    { rewrite concat_app. simpl. by rewrite <-!app_assoc. }
    rewrite Hcat', <-HJ''. apply IH.
    - rewrite <-Hcat'. rewrite Hn, !app_length, HV', !app_length. done.
    - lia.
    - intros Hnil. by apply app_eq_nil in Hnil as [_ ?].
    - rewrite app_length in *. simpl in *. lia.
    - apply Forall_app. split; [done|]. constructor; [|done]. split; [|done].
      intros ->. simpl in HV'. rewrite app_length in HV'. destruct a; simpl in *; [done|lia].
    - rewrite <-Hcat'. etrans; [exact Hp|]. apply sperm_app_l. by apply sperm_app_r.
  Qed.

  Local Arguments pm_collapse_loop : simpl never.
  Lemma pm_sort_loop_spec fuel n l0 segs rest J :
    n = length (rest ++ concat segs) → n / 2 ≤ length J →
    length rest < fuel →
    Forall (seg_ok ans) segs → sperm l0 (rest ++ concat segs) →
    (segs = [] → rest = l0) →
    (rest = [] → length segs = 1) →
    wp ans (pm_sort_loop c fuel n (length J) (length rest) (rruns (length rest) segs))
      (onv (length J) (λ res V', sort_result l0 res V'))
      (onv (length J) (mpanic ans l0)) ((rest ++ concat segs) ++ J).
  Proof.
    revert segs rest J.
    induction fuel as [|f IH]; intros segs rest J Hn HJ Hf Hok Hp Hst Hend; [lia|].
    cbn [pm_sort_loop].
    destruct (Nat.ltb_spec 0 (length rest)) as [Hlt|Hge].
    2: { destruct rest; simpl in *; [|lia]. specialize (Hend eq_refl).
         destruct segs as [|s [|]]; simpl in *; try done.
         rewrite !app_nil_r in *. apply wp_bind, wp_dassert.
         { rewrite Hn. by rewrite Nat.eqb_refl. }
         apply wp_ret. exists s, J. split; [done|]. split; [done|]. split; [done|].
         by apply Forall_cons in Hok as [[_ ?] _]. }
    apply wp_bind.
    wp_apply (wp_frame_r ans (pm_find_run n (length rest))).
    { apply pm_find_run_spec; [done|]. intros ->. simpl in *. lia. }
    2: { intros e M _ (V' & -> & _ & Hm). exists V', J. split; [done|]. split; [done|].
         eapply mpanic_perm; [done|]. symmetry. symmetry. by apply (sperm_perm ans). }
    intros [start|res] M _ (V' & -> & HV' & H).
    2: { destruct H as (HC & Hres & H). apply wp_ret. exists V', J. split; [done|]. split; [done|].
         rewrite <-Hst; [done|]. destruct segs as [|s segs]; [done|].
         apply Forall_cons in Hok as [[Hs _] _]. simpl in HC. by apply app_eq_nil in HC as [-> _]. }
    destruct H as (A1 & S & -> & -> & HS & Hs & Hsp).
    assert (Hlen : length A1 + length S = length rest).
    { rewrite <-(sperm_length ans _ _ Hsp). by rewrite app_length. }
    rewrite <-Hlen in *. rewrite !app_length in HV'. rewrite app_length in Hn.
    assert (Hp1 : sperm l0 (A1 ++ S ++ concat segs)).
    { etrans; [exact Hp|]. rewrite app_assoc. by apply sperm_app_r. }
    apply wp_bind.
    wp_apply (wp_frame_r ans (pm_extend n (length A1 + length S) (length A1))).
    { apply (pm_extend_spec n A1 S (concat segs)); [rewrite !app_length; lia|done|done]. }
    2: { intros e M _ (V' & -> & _ & Hm). exists V', J. split; [done|]. split; [done|].
         eapply mpanic_perm; [done|]. by apply (sperm_perm ans). }
    intros start M _ (V' & -> & _ & A2 & S2 & -> & -> & HS2 & Hs2 & Hsp2).
    assert (Hlen2 : length A2 + length S2 = length A1 + length S).
    { rewrite <-!app_length. by apply (sperm_length ans). }
    assert (0 < length S2) by (destruct S2; simpl; [done|lia]).
    apply wp_bind, wp_usub; [lia|].
    replace (length A1 + length S - length A2) with (length S2) by lia.
    assert (Hruns : rruns (length A1 + length S) segs ++ [Run (length A2) (length S2)]
                    = rruns (length A2) (S2 :: segs)).
    { unfold rruns. simpl. by rewrite Hlen2. }
    rewrite Hruns. apply wp_bind. rewrite rruns_length.
    change (A2 ++ S2 ++ concat segs) with (A2 ++ concat (S2 :: segs)).
    wp_apply (pm_collapse_loop_spec (Datatypes.S (Datatypes.S (length segs))) n l0 (S2 :: segs) A2 J).
    - simpl. rewrite !app_length. lia.
    - done.
    - done.
    - simpl. lia.
    - by constructor.
    - etrans; [exact Hp1|]. simpl. rewrite !app_assoc. by apply sperm_app_r.
    - intros runs M _ (segs' & J' & -> & -> & HJ' & Hne & Hok' & Hp' & Hc).
      rewrite <-HJ'. apply IH.
      + rewrite (sperm_length ans _ _ Hp'), <-(sperm_length ans _ _ Hp1), !app_length. lia.
      + lia.
      + lia.
      + done.
      + done.
      + done.
      + intros ->. rewrite <-(rruns_length 0 segs'). destruct segs' as [|s segs']; [done|].
        eapply (pm_collapse_none_full _ (Run 0 (length s))); [|done|exact Hc].
        unfold rruns. simpl. apply last_snoc.
    - auto.
  Qed.

  Lemma pm_merge_sort_spec V J :
    0 < length V → length V / 2 ≤ length J →
    wp ans (pm_merge_sort c (length V) (length J))
      (onv (length J) (λ res V', sort_result V res V'))
      (onv (length J) (mpanic ans V)) (V ++ J).
  Proof.
    intros HV HJ. unfold pm_merge_sort.
    assert (H := pm_sort_loop_spec (S (length V)) (length V) V [] V J).
    simpl in H. rewrite app_nil_r in H. unfold rruns in H. simpl in H. apply H; auto.
    - reflexivity.
    - intros ->. simpl in *. lia.
  Qed.
End chunk.
