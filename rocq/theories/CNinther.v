(** * CNinther: quality of the pivot chosen by [median_of_ninthers]. *)
From Verif Require Export CQuick PSelect.
From stdpp Require Import list.

Ltac in_list := cbn [app]; repeat first [apply elem_of_list_here|apply elem_of_list_further].

(** ** Counting. *)
Section count.
  Context {T : Type}.
  Implicit Types (f : T → bool) (l : list T) (ps : list nat).

  Definition ind (b : bool) : nat := if b then 1 else 0.
  Fixpoint cntf f l : nat :=
    match l with [] => 0 | y :: l => ind (f y) + cntf f l end.
  (** The number of positions of [ps] that hold an element satisfying [f]. *)
  Fixpoint cntp f l ps : nat :=
    match ps with
    | [] => 0
    | p :: ps => match l !! p with Some y => ind (f y) | None => 0 end + cntp f l ps
    end.

  Lemma cntf_app f l1 l2 : cntf f (l1 ++ l2) = cntf f l1 + cntf f l2.
  Proof. induction l1; simpl; lia. Qed.
  Lemma cntf_perm f l1 l2 : l1 ≡ₚ l2 → cntf f l1 = cntf f l2.
  Proof. induction 1; simpl; lia. Qed.
  Lemma cntf_le f l : cntf f l ≤ length l.
  Proof. induction l as [|y l IH]; simpl; [lia|]. destruct (f y); simpl; lia. Qed.
  Lemma cntf_all f l : Forall (λ y, f y = true) l → cntf f l = length l.
  Proof. induction 1 as [|y l Hy _ IH]; simpl; [done|]. rewrite Hy. simpl. lia. Qed.
  Lemma cntf_none f l : Forall (λ y, f y = false) l → cntf f l = 0.
  Proof. induction 1 as [|y l Hy _ IH]; simpl; [done|]. by rewrite Hy. Qed.
  Lemma cntf_mono f f' l : (∀ y, f y = true → f' y = true) → cntf f l ≤ cntf f' l.
  Proof.
    intros H. induction l as [|y l IH]; simpl; [lia|].
    destruct (f y) eqn:Hy; [rewrite (H y Hy)|]; simpl; lia.
  Qed.
  Lemma cntf_sum f f1 f2 l :
    (∀ y, ind (f y) = ind (f1 y) + ind (f2 y)) → cntf f l = cntf f1 l + cntf f2 l.
  Proof. intros H. induction l as [|y l IH]; simpl; [lia|]. rewrite H. lia. Qed.
  Lemma cntf_neg f l : cntf f l + cntf (λ y, negb (f y)) l = length l.
  Proof. induction l as [|y l IH]; simpl; [lia|]. destruct (f y); simpl; lia. Qed.

  Lemma cntp_app f l ps qs : cntp f l (ps ++ qs) = cntp f l ps + cntp f l qs.
  Proof. induction ps; simpl; lia. Qed.
  Lemma cntp_perm f l ps qs : ps ≡ₚ qs → cntp f l ps = cntp f l qs.
  Proof. induction 1; simpl; lia. Qed.
  Lemma cntp_mono f f' l ps : (∀ y, f y = true → f' y = true) → cntp f l ps ≤ cntp f' l ps.
  Proof.
    intros H. induction ps as [|p ps IH]; simpl; [lia|].
    destruct (l !! p) as [y|]; [|lia].
    destruct (f y) eqn:Hy; [rewrite (H y Hy)|]; simpl; lia.
  Qed.
  Lemma cntp_ext f l l' ps : (∀ p, p ∈ ps → l' !! p = l !! p) → cntp f l' ps = cntp f l ps.
  Proof.
    intros H. induction ps as [|p ps IH]; simpl; [done|].
    rewrite H by left. rewrite IH; [done|]. intros q Hq. apply H. by right.
  Qed.
  Lemma cntp_seq f l a n : a + n ≤ length l → cntp f l (seq a n) = cntf f (take n (drop a l)).
  Proof.
    revert a. induction n as [|n IH]; intros a Ha; [done|]. cbn [seq cntp].
    destruct (lookup_lt_is_Some_2 l a) as [y Hy]; [lia|]. rewrite Hy, IH by lia.
    by rewrite (drop_S _ _ _ Hy).
  Qed.
  Lemma cntp_submseteq f l ps qs : ps ⊆+ qs → cntp f l ps ≤ cntp f l qs.
  Proof. induction 1; simpl; lia. Qed.
  Lemma cntp_le f l ps : NoDup ps → (∀ p, p ∈ ps → p < length l) → cntp f l ps ≤ cntf f l.
  Proof.
    intros Hnd Hr. etrans; [apply (cntp_submseteq _ _ _ (seq 0 (length l)))|].
    - apply NoDup_submseteq; [done|]. intros p Hp. apply elem_of_seq. specialize (Hr p Hp). lia.
    - rewrite cntp_seq by lia. rewrite drop_0, take_ge by lia. done.
  Qed.
  Lemma swapl_same i l : i < length l → swapl i i l = l.
  Proof.
    intros Hi. apply list_eq. intros k. rewrite lookup_swapl by done.
    repeat case_decide; subst; done.
  Qed.
  Lemma cntp_swapl f i j l ps :
    NoDup ps → i ∈ ps → j ∈ ps → (∀ p, p ∈ ps → p < length l) →
    cntp f (swapl i j l) ps = cntp f l ps.
  Proof.
    intros Hnd Hi Hj Hr. pose proof (Hr i Hi) as Hil. pose proof (Hr j Hj) as Hjl.
    destruct (decide (i = j)) as [<-|Hij]; [by rewrite swapl_same|].
    apply elem_of_Permutation in Hi as [ps1 Hp1].
    rewrite Hp1 in Hj. apply elem_of_cons in Hj as [?|Hj]; [done|].
    apply elem_of_Permutation in Hj as [ps2 Hp2]. rewrite Hp2 in Hp1.
    rewrite Hp1 in Hnd. apply NoDup_cons in Hnd as [Hn1 Hnd]. apply NoDup_cons in Hnd as [Hn2 Hnd].
    apply not_elem_of_cons in Hn1 as [_ Hn1].
    rewrite !(cntp_perm _ _ _ _ Hp1). cbn [cntp].
    rewrite (cntp_ext f l (swapl i j l) ps2).
    2: { intros p Hp. rewrite lookup_swapl by done. rewrite !decide_False; [done|..]; congruence. }
    rewrite !lookup_swapl by done. rewrite decide_True by done.
    rewrite (decide_False (P:=j = i)) by done. rewrite decide_True by done. lia.
  Qed.
End count.

Section ninther.
  Context {T : Type} (ans : T * T → option bool → Prop).
  Context (lt : T → T → bool) (Hs : strict_weak_order lt) (Hc : consistent ans lt).
  Implicit Types (l : list T).
  Notation le x y := (lt y x = false).

  Lemma le_trans x y z : le x y → le y z → le x z.
  Proof. intros H1 H2. exact (swo_negtrans _ Hs _ _ _ H2 H1). Qed.
  Lemma lt_le x y : lt x y = true → le x y.
  Proof. by apply swo_asym. Qed.

  Lemma wp_less n i j x y (Φ : bool → list T → Prop) l l0 :
    i < n → j < n → n = length l → l !! i = Some x → l !! j = Some y → l ≡ₚ l0 →
    Φ (lt x y) l → wp ans (less_at n i j) Φ (upanic ans l0) l.
  Proof.
    intros Hi Hj Hn Hx Hy Hp H. unfold less_at.
    apply wp_bind, wp_get; [lia|lia|]. intros x' Hx'. rewrite Hx in Hx'. injection Hx' as <-.
    apply wp_bind, wp_get; [lia|lia|]. intros y' Hy'. rewrite Hy in Hy'. injection Hy' as <-.
    apply wp_is_less; [|intros Hr; by eapply upanic_intro].
    intros r Hr. apply Hc in Hr. by subst r.
  Qed.

  (** [m] is the position of a median of the three. *)
  Definition median3 l (a b d m : nat) : Prop :=
    ∃ m1 m2 x1 x x2, [m1; m; m2] ≡ₚ [a; b; d] ∧ l !! m1 = Some x1 ∧ l !! m = Some x ∧
      l !! m2 = Some x2 ∧ le x1 x ∧ le x x2.
  Lemma median_idx_median n a b d l :
    n = length l → a < n → b < n → d < n →
    wp ans (median_idx n a b d) (λ m l', l' = l ∧ median3 l a b d m) (upanic ans l) l.
  Proof.
    intros Hn Ha Hb Hd. unfold median_idx.
    apply wp_bind, wp_get; [lia|lia|]. intros vd Hvd.
    apply wp_bind, wp_get; [lia|lia|]. intros va Hva.
    apply wp_bind, wp_is_less; [|intros; by eapply upanic_intro].
    intros r Hr. apply Hc in Hr.
    assert (∀ a d va vd, a < n → d < n → l !! a = Some va → l !! d = Some vd → le va vd → wp ans
      (bind (get n d) (λ vd, bind (get n b) (λ vb, bind (is_less vd vb) (λ r : bool,
         if r then Ret d
         else bind (get n b) (λ vb, bind (get n a) (λ va,
              bind (is_less vb va) (λ r : bool, if r then Ret a else Ret b)))))))
      (λ m l', l' = l ∧ median3 l a b d m) (upanic ans l) l) as Hk.
    { clear a d Ha Hd r Hr va vd Hva Hvd. intros a d va vd Ha Hd Hva Hvd Had.
      apply wp_bind, wp_get; [lia|lia|]. intros vd' Hvd'.
      assert (vd' = vd) as -> by congruence. clear Hvd'.
      apply wp_bind, wp_get; [lia|lia|]. intros vb Hvb.
      apply wp_bind, wp_is_less; [|intros; by eapply upanic_intro].
      intros r Hr. apply Hc in Hr. destruct r.
      { apply wp_ret. split; [done|]. exists a, b, va, vd, vb.
        split; [by constructor; constructor|]. symmetry in Hr. split_and!; auto using lt_le. }
      apply wp_bind, wp_get; [lia|lia|]. intros vb' Hvb'.
      assert (vb' = vb) as -> by congruence. clear Hvb'.
      apply wp_bind, wp_get; [lia|lia|]. intros va' Hva'.
      assert (va' = va) as -> by congruence. clear Hva'.
      apply wp_bind, wp_is_less; [|intros; by eapply upanic_intro].
      intros r Hr'. apply Hc in Hr'. destruct r; apply wp_ret; (split; [done|]).
      - exists b, d, vb, va, vd. symmetry in Hr'. split; [by constructor|]. split_and!; auto using lt_le.
      - exists a, d, va, vb, vd. split; [done|]. split_and!; auto. }
    destruct r.
    - eapply wp_mono; [apply (Hk d a vd va); auto using lt_le| |auto]. cbv beta.
      intros m l' _ [-> (m1 & m2 & x1 & x & x2 & Hp & H)]. split; [done|].
      exists m1, m2, x1, x, x2. split; [|done]. rewrite Hp.
      etrans; [apply Permutation_swap|]. etrans; [apply perm_skip, Permutation_swap|].
      apply Permutation_swap.
    - by apply (Hk a d va vd).
  Qed.

  (** Position [e] of [l] holds an element such that at least four elements at
      the positions [G] are less or equal, and four are greater or equal. *)
  Definition good l (G : list nat) (e : nat) : Prop :=
    ∃ x, l !! e = Some x ∧ 4 ≤ cntp (λ y, negb (lt x y)) l G ∧ 4 ≤ cntp (λ y, negb (lt y x)) l G.
  Lemma good_ext l l' G e : e ∈ G → (∀ p, p ∈ G → l' !! p = l !! p) → good l G e → good l' G e.
  Proof.
    intros He H (x & Hx & H1 & H2). exists x. rewrite H by done. split; [done|].
    by rewrite !(cntp_ext _ l l' G).
  Qed.

  Lemma good_nine l (b1 b b2 d e f h1 h h2 m : nat) vb1 vb vb2 vd ve vf vh1 vh vh2 x :
    let G := [b1; b; b2; d; e; f; h1; h; h2] in
    NoDup G → (∀ p, p ∈ G → p < length l) →
    l !! b1 = Some vb1 → l !! b = Some vb → l !! b2 = Some vb2 →
    l !! d = Some vd → l !! e = Some ve → l !! f = Some vf →
    l !! h1 = Some vh1 → l !! h = Some vh → l !! h2 = Some vh2 →
    m ∈ G → l !! m = Some x →
    let dn y := ind (negb (lt x y)) in let up y := ind (negb (lt y x)) in
    4 ≤ dn vb1 + dn vb + dn vb2 + dn vd + dn ve + dn vf + dn vh1 + dn vh + dn vh2 →
    4 ≤ up vb1 + up vb + up vb2 + up vd + up ve + up vf + up vh1 + up vh + up vh2 →
    good (swapl m e l) G e ∧ good (swapl e m l) G e ∧ ∀ p, p ∉ G →
      swapl m e l !! p = l !! p ∧ swapl e m l !! p = l !! p.
  Proof.
    intros G Hnd Hr H1 H2 H3 H4 H5 H6 H7 H8 H9 Hm Hx dn up Hdn Hup.
    assert (He : e ∈ G) by (unfold G; in_list).
    pose proof (Hr m Hm). pose proof (Hr e He).
    assert (cntp (λ y, negb (lt x y)) l G = dn vb1 + dn vb + dn vb2 + dn vd + dn ve + dn vf + dn vh1 + dn vh + dn vh2) as E1.
    { unfold G, dn. cbn [cntp]. rewrite H1, H2, H3, H4, H5, H6, H7, H8, H9. lia. }
    assert (cntp (λ y, negb (lt y x)) l G = up vb1 + up vb + up vb2 + up vd + up ve + up vf + up vh1 + up vh + up vh2) as E2.
    { unfold G, up. cbn [cntp]. rewrite H1, H2, H3, H4, H5, H6, H7, H8, H9. lia. }
    clearbody G. split; [|split].
    - exists x. rewrite lookup_swapl by done. rewrite !cntp_swapl by done.
      split; [|lia]. destruct (decide (e = m)) as [<-|]; [done|]. by rewrite decide_True.
    - exists x. rewrite lookup_swapl by done. rewrite !cntp_swapl by done.
      split; [|lia]. by rewrite decide_True.
    - intros p Hp. rewrite !lookup_swapl by done.
      by rewrite !(decide_False (P:=p = m)), !(decide_False (P:=p = e)) by congruence.
  Qed.

  Lemma nine_counts x b1 b b2 m1 m m2 h1 h h2 :
    le b1 b → le b b2 → le h1 h → le h h2 → le m1 m → le m m2 → le b h →
    (x = b ∧ le m b) ∨ (x = h ∧ le h m) ∨ (x = m ∧ le b m ∧ le m h) →
    let dn y := ind (negb (lt x y)) in let up y := ind (negb (lt y x)) in
    4 ≤ dn b1 + dn b + dn b2 + dn m1 + dn m + dn m2 + dn h1 + dn h + dn h2 ∧
    4 ≤ up b1 + up b + up b2 + up m1 + up m + up m2 + up h1 + up h + up h2.
  Proof.
    intros Hb1 Hb2 Hh1 Hh2 Hm1 Hm2 Hbh Hx dn up.
    assert (Hdn : ∀ y, le y x → dn y = 1) by (intros y Hy; unfold dn; by rewrite Hy).
    assert (Hup : ∀ y, le x y → up y = 1) by (intros y Hy; unfold up; by rewrite Hy).
    clearbody dn up.
    assert (Hr : ∀ y, le y y) by (intros y; apply (swo_irrefl _ Hs)).
    destruct Hx as [[-> Hx]|[[-> Hx]|(-> & Hx & Hx')]].
    - rewrite (Hdn b1), (Hdn b), (Hdn m1), (Hdn m), (Hup b), (Hup b2), (Hup h), (Hup h2);
        eauto using le_trans; lia.
    - rewrite (Hdn h1), (Hdn h), (Hdn b1), (Hdn b), (Hup h), (Hup h2), (Hup m), (Hup m2);
        eauto using le_trans; lia.
    - rewrite (Hdn b1), (Hdn b), (Hdn m1), (Hdn m), (Hup m), (Hup m2), (Hup h), (Hup h2);
        eauto using le_trans; lia.
  Qed.

  Lemma good_perm l G G' e : G ≡ₚ G' → good l G e → good l G' e.
  Proof.
    intros Hp (x & Hx & H1 & H2). exists x. split; [done|].
    by rewrite <-!(cntp_perm _ _ _ _ Hp).
  Qed.

  (** What a call of [ninther] on the positions [G] with middle [e] achieves. *)
  Definition nined l0 G e l : Prop :=
    l ≡ₚ l0 ∧ good l G e ∧ ∀ p, p ∉ G → l !! p = l0 !! p.
  Lemma nined_swap l (b1 b b2 d e f h1 h h2 m : nat) vb1 vb vb2 vd ve vf vh1 vh vh2 x m1 vm m2 :
    let G := [b1; b; b2; d; e; f; h1; h; h2] in
    NoDup G → (∀ p, p ∈ G → p < length l) →
    l !! b1 = Some vb1 → l !! b = Some vb → l !! b2 = Some vb2 →
    l !! d = Some vd → l !! e = Some ve → l !! f = Some vf →
    l !! h1 = Some vh1 → l !! h = Some vh → l !! h2 = Some vh2 →
    le vb1 vb → le vb vb2 → le vh1 vh → le vh vh2 → le vb vh →
    [m1; vm; m2] ≡ₚ [vd; ve; vf] → le m1 vm → le vm m2 →
    m ∈ G → l !! m = Some x →
    (x = vb ∧ le vm vb) ∨ (x = vh ∧ le vh vm) ∨ (x = vm ∧ le vb vm ∧ le vm vh) →
    nined l G e (swapl m e l) ∧ nined l G e (swapl e m l).
  Proof.
    intros G Hnd Hr H1 H2 H3 H4 H5 H6 H7 H8 H9 L1 L2 L3 L4 L5 Hp L6 L7 Hm Hx Hw.
    assert (He : e ∈ G) by (unfold G; in_list).
    pose proof (Hr m Hm). pose proof (Hr e He).
    destruct (nine_counts x _ _ _ _ _ _ _ _ _ L1 L2 L3 L4 L6 L7 L5 Hw) as [Hdn Hup].
    pose proof (cntf_perm (λ y, negb (lt x y)) _ _ Hp) as E1.
    pose proof (cntf_perm (λ y, negb (lt y x)) _ _ Hp) as E2. cbn [cntf] in E1, E2.
    destruct (good_nine l b1 b b2 d e f h1 h h2 m vb1 vb vb2 vd ve vf vh1 vh vh2 x) as (G1 & G2 & G3);
      try done; [cbv beta in *; lia|cbv beta in *; lia|].
    split; (split; [by apply swapl_perm|]); (split; [done|]); intros p Hp'; by apply G3.
  Qed.

  Lemma nined_perm l G G' e l' : G ≡ₚ G' → nined l G e l' → nined l G' e l'.
  Proof.
    intros Hp (H1 & H2 & H3). split; [done|]. split; [by eapply good_perm|].
    intros p Hn. apply H3. by rewrite Hp.
  Qed.

  (** The part of [ninther] after the medians of the outer triples. *)
  Lemma ninther_tail n (b1 b b2 d e f h1 h h2 : nat) vb1 vb vb2 vd ve vf vh1 vh vh2 l :
    let G := [b1; b; b2; d; e; f; h1; h; h2] in
    n = length l → NoDup G → (∀ p, p ∈ G → p < length l) →
    l !! b1 = Some vb1 → l !! b = Some vb → l !! b2 = Some vb2 →
    l !! d = Some vd → l !! e = Some ve → l !! f = Some vf →
    l !! h1 = Some vh1 → l !! h = Some vh → l !! h2 = Some vh2 →
    le vb1 vb → le vb vb2 → le vh1 vh → le vh vh2 → le vb vh → le vd vf →
    wp ans (bind (less_at n e d) (λ r1 : bool,
      bind (if r1 then Ret (inl d)
         else
           bind (less_at n f e) (λ r2 : bool,
           if r2 then Ret (inl f)
           else
             bind (less_at n e b) (λ r3 : bool,
             bind (if r3 then swap n e b
              else
                bind (less_at n h e) (λ r4 : bool,
                if r4 then swap n e h else Ret tt)) (λ _,
             Ret (inr tt))))) (λ k : nat + unit,
      match k with
      | inr _ => Ret tt
      | inl d =>
        bind (less_at n d b) (λ r : bool,
        bind (if r then Ret b
             else
               bind (less_at n h d) (λ r : bool,
               Ret (if r : bool then h else d))) (λ d,
        swap n d e))
      end)))
      (λ _ l', nined l G e l') (upanic ans l) l.
  Proof.
    intros G Hn Hnd Hr H1 H2 H3 H4 H5 H6 H7 H8 H9 L1 L2 L3 L4 L5 L6.
    assert (b < n ∧ d < n ∧ e < n ∧ f < n ∧ h < n) as (Hb & Hd & He & Hf & Hh).
    { rewrite Hn. split_and!; apply Hr; unfold G; in_list. }
    assert (Hsw : ∀ m x m1 vm m2, [m1; vm; m2] ≡ₚ [vd; ve; vf] → le m1 vm → le vm m2 →
      m ∈ G → l !! m = Some x →
      (x = vb ∧ le vm vb) ∨ (x = vh ∧ le vh vm) ∨ (x = vm ∧ le vb vm ∧ le vm vh) →
      nined l G e (swapl m e l) ∧ nined l G e (swapl e m l)).
    { intros m x m1 vm m2 Hp L7 L8 Hm Hx Hw. by eapply nined_swap. }
    (* the fall-through to line 303 *)
    assert (Hfall : ∀ (d : nat) m1 vm m2, l !! d = Some vm → d ∈ G →
      [m1; vm; m2] ≡ₚ [vd; ve; vf] → le m1 vm → le vm m2 →
      wp ans (bind (less_at n d b) (λ r : bool,
        bind (if r then Ret b
             else bind (less_at n h d) (λ r : bool, Ret (if r : bool then h else d))) (λ d,
        swap n d e))) (λ _ l', nined l G e l') (upanic ans l) l).
    { intros d' m1 vm m2 Hd' HdG Hp L7 L8.
      assert (b ∈ G ∧ h ∈ G) as [HbG HhG] by (unfold G; split; in_list).
      assert (d' < n) by (rewrite Hn; by apply Hr).
      apply wp_bind. eapply wp_less; [done..|]. destruct (lt vm vb) eqn:Eb.
      { apply wp_bind, wp_ret, wp_swap; [lia..|].
        eapply (Hsw b vb m1 vm m2); try done. left. split; [done|by apply lt_le]. }
      apply wp_bind, wp_bind. eapply wp_less; [done..|]. apply wp_ret.
      destruct (lt vh vm) eqn:Eh; (apply wp_swap; [lia..|]).
      - eapply (Hsw h vh m1 vm m2); try done. right. left. split; [done|by apply lt_le].
      - eapply (Hsw d' vm m1 vm m2); try done. right. right. done. }
    apply wp_bind.
    eapply wp_less; [done..|]. destruct (lt ve vd) eqn:Ed.
    { apply wp_bind, wp_ret. eapply (Hfall d ve vd vf); try done; [unfold G; in_list|constructor|by apply lt_le]. }
    apply wp_bind, wp_bind.
    eapply wp_less; [done..|]. destruct (lt vf ve) eqn:Ef.
    { apply wp_ret. eapply (Hfall f vd vf ve); try done; [unfold G; in_list|by constructor;constructor|by apply lt_le]. }
    apply wp_bind.
    eapply wp_less; [done..|]. destruct (lt ve vb) eqn:Eb.
    { apply wp_bind, wp_swap; [lia..|]. apply wp_ret, wp_ret.
      eapply (Hsw b vb vd ve vf); try done; [unfold G; in_list|]. left. split; [done|by apply lt_le]. }
    apply wp_bind, wp_bind.
    eapply wp_less; [done..|]. destruct (lt vh ve) eqn:Eh.
    { apply wp_swap; [lia..|]. apply wp_ret, wp_ret.
      eapply (Hsw h vh vd ve vf); try done; [unfold G; in_list|].
      right. left. split; [done|by apply lt_le]. }
    apply wp_ret, wp_ret, wp_ret. rewrite <-(swapl_same e l) at 2 by lia.
    eapply (Hsw e ve vd ve vf); try done; [unfold G; in_list|]. right. right. done.
  Qed.

  Lemma perm_outer {X} (a b d e f g h i j : X) :
    [h; i; j; d; e; f; a; b; g] ≡ₚ [a; b; g; d; e; f; h; i; j].
  Proof.
    etrans; [apply (Permutation_app_comm [h; i; j] ([d; e; f] ++ [a; b; g]))|].
    apply (Permutation_app_tail [h; i; j] (Permutation_app_comm [d; e; f] [a; b; g])).
  Qed.
  Lemma perm_inner {X} (a b d e f g h i j : X) :
    [a; b; g; f; e; d; h; i; j] ≡ₚ [a; b; g; d; e; f; h; i; j].
  Proof.
    do 3 apply perm_skip. etrans; [apply perm_swap|].
    etrans; [apply perm_skip, perm_swap|]. apply perm_swap.
  Qed.

  Lemma ninther_nined n (a b d0 d e f g h i : nat) l :
    let G := [a; b; d0; d; e; f; g; h; i] in
    n = length l → NoDup G → (∀ p, p ∈ G → p < length l) →
    wp ans (ninther n a b d0 d e f g h i) (λ _ l', nined l G e l') (upanic ans l) l.
  Proof.
    intros G Hn Hnd Hr.
    assert (a < n ∧ b < n ∧ d0 < n ∧ d < n ∧ e < n ∧ f < n ∧ g < n ∧ h < n ∧ i < n)
      as (Ha & Hb & Hd0 & Hd & He & Hf & Hg & Hh & Hi).
    { rewrite Hn. split_and!; apply Hr; unfold G; in_list. }
    unfold ninther.
    apply wp_bind. wp_apply (median_idx_median n a b d0 l); [lia..| |by auto].
    cbv beta. intros b' ? _ [-> (b1 & b2 & vb1 & vb & vb2 & Hp1 & Hb1 & Hb' & Hb2 & L1 & L2)].
    apply wp_bind. wp_apply (median_idx_median n g h i l); [lia..| |by auto].
    cbv beta. intros h' ? _ [-> (h1 & h2 & vh1 & vh & vh2 & Hp2 & Hh1 & Hh' & Hh2 & L3 & L4)].
    assert (HG : [b1; b'; b2] ++ [d; e; f] ++ [h1; h'; h2] ≡ₚ G).
    { rewrite Hp1, Hp2. done. }
    assert (Hnd' : NoDup ([b1; b'; b2] ++ [d; e; f] ++ [h1; h'; h2])) by (by rewrite HG).
    assert (Hr' : ∀ p, p ∈ [b1; b'; b2] ++ [d; e; f] ++ [h1; h'; h2] → p < length l).
    { intros p. rewrite HG. apply Hr. }
    assert (b' < n ∧ h' < n) as [Hbn Hhn].
    { rewrite Hn. split; apply Hr'; in_list. }
    destruct (lookup_lt_is_Some_2 l d) as [vd Hvd]; [lia|].
    destruct (lookup_lt_is_Some_2 l e) as [ve Hve]; [lia|].
    destruct (lookup_lt_is_Some_2 l f) as [vf Hvf]; [lia|].
    clearbody G. clear Hnd Hr Hp1 Hp2 a b d0 g h i Ha Hb Hd0 Hg Hh Hi. simpl in HG, Hnd', Hr'.
    apply wp_bind. eapply wp_less; [done..|]. destruct (lt vh vb) eqn:Ebh;
      (apply wp_bind; eapply wp_less; [done..|]; destruct (lt vf vd) eqn:Edf).
    - assert (Hq : [h1; h'; h2; f; e; d; b1; b'; b2] ≡ₚ [b1; b'; b2; d; e; f; h1; h'; h2]) by (etrans; [apply perm_outer|apply perm_inner]).
      eapply wp_mono; [eapply (ninther_tail n h1 h' h2 f e d b1 b' b2); [done| | |eassumption..| | ]|..].
      + rewrite Hq. exact Hnd'.
      + intros p Hp. apply Hr'. rewrite <-Hq. exact Hp.
      + by apply lt_le.
      + by apply lt_le.
      + intros [] l' _ Hl'. eapply nined_perm; [|exact Hl']. etrans; [exact Hq|exact HG].
      + auto.
    - assert (Hq : [h1; h'; h2; d; e; f; b1; b'; b2] ≡ₚ [b1; b'; b2; d; e; f; h1; h'; h2]) by apply perm_outer.
      eapply wp_mono; [eapply (ninther_tail n h1 h' h2 d e f b1 b' b2); [done| | |eassumption..| | ]|..].
      + rewrite Hq. exact Hnd'.
      + intros p Hp. apply Hr'. rewrite <-Hq. exact Hp.
      + by apply lt_le.
      + done.
      + intros [] l' _ Hl'. eapply nined_perm; [|exact Hl']. etrans; [exact Hq|exact HG].
      + auto.
    - assert (Hq : [b1; b'; b2; f; e; d; h1; h'; h2] ≡ₚ [b1; b'; b2; d; e; f; h1; h'; h2]) by apply perm_inner.
      eapply wp_mono; [eapply (ninther_tail n b1 b' b2 f e d h1 h' h2); [done| | |eassumption..| | ]|..].
      + rewrite Hq. exact Hnd'.
      + intros p Hp. apply Hr'. rewrite <-Hq. exact Hp.
      + done.
      + by apply lt_le.
      + intros [] l' _ Hl'. eapply nined_perm; [|exact Hl']. etrans; [exact Hq|exact HG].
      + auto.
    - eapply wp_mono; [eapply (ninther_tail n b1 b' b2 d e f h1 h' h2); [done|assumption|assumption|eassumption..]|..].
      + intros [] l' _ Hl'. by eapply nined_perm.
      + auto.
  Qed.

  (** The positions of the nine elements of iteration [j]. *)
  Definition group (frac i a b : nat) : list nat :=
    [a; i - frac; b; a + 1; i; b + 1; a + 2; i + frac; b + 2].

  Ltac notin := unfold group; repeat (apply not_elem_of_cons; split; [lia|]); apply not_elem_of_nil.
  Ltac inv_group H := unfold group in H;
    repeat (apply elem_of_cons in H as [->|H]; [|]); [..|by apply elem_of_nil in H].
  Lemma group_nodup frac i a b :
    0 < frac → frac ≤ i → a + 2 < i - frac → i + frac < b → NoDup (group frac i a b).
  Proof.
    intros H0 Hi Ha Hb. unfold group.
    repeat (apply NoDup_cons; split; [notin|]). constructor.
  Qed.
  (** Groups of different iterations are disjoint. *)
  Lemma group_disj frac i a b j p :
    0 < j → j < frac → frac ≤ i → a + 3 * j + 2 < i - frac → i + j + frac < b →
    p ∈ group frac i a b → p ∉ group frac (i + j) (a + 3 * j) (b + 3 * j).
  Proof. intros H0 Hj Hi Ha Hb Hp. inv_group Hp; notin. Qed.
  Lemma group_mid frac i a b : i ∈ group frac i a b.
  Proof. unfold group. in_list. Qed.
  Lemma group_lt frac i a b n p :
    i + frac < n → a + 2 < n → b + 2 < n → p ∈ group frac i a b → p < n.
  Proof. intros H1 H2 H3 Hp. inv_group Hp; lia. Qed.

  (** The loop makes every position [i + j] good. *)
  Lemma ninthers_loop_good n frac i cnt a b l0 l :
    n = length l → l ≡ₚ l0 → frac ≤ i → i + cnt + frac ≤ n → cnt ≤ frac →
    a + 3 * cnt ≤ i - frac → i + cnt + frac ≤ b → b + 3 * cnt ≤ n →
    wp ans (ninthers_loop n frac i cnt a b)
      (λ _ l', l' ≡ₚ l0 ∧
         (∀ j, j < cnt → good l' (group frac (i + j) (a + 3 * j) (b + 3 * j)) (i + j)) ∧
         ∀ p, (∀ j, j < cnt → p ∉ group frac (i + j) (a + 3 * j) (b + 3 * j)) → l' !! p = l !! p)
      (upanic ans l0) l.
  Proof.
    revert i a b l. induction cnt as [|cnt IH]; intros i a b l Hn Hp Hi Hic Hcf Ha Hib Hb.
    - apply wp_ret. split; [done|]. split; [lia|done].
    - cbn [ninthers_loop]. apply wp_bind, wp_usub; [done|].
      apply wp_bind. wp_apply ninther_nined; [done| | | |].
      + apply group_nodup; lia.
      + intros p Hpp. apply (group_lt frac i a b); [lia..|done].
      + cbv beta. intros [] l1 Hl1 (Hp1 & Hg & Hout).
        fold (group frac i a b) in Hg, Hout.
        wp_apply (IH (S i) (a + 3) (b + 3) l1); [lia|by rewrite Hp1|lia..| |auto].
        assert (Heq : ∀ j, group frac (S i + j) (a + 3 + 3 * j) (b + 3 + 3 * j) =
          group frac (i + S j) (a + 3 * S j) (b + 3 * S j)) by (intros j; f_equal; lia).
        cbv beta. intros [] l2 Hl2 (Hp2 & Hg2 & Hout2). split; [done|]. split.
        * intros [|j] Hj.
          { rewrite !Nat.mul_0_r, !Nat.add_0_r. eapply good_ext; [apply group_mid| |exact Hg].
            intros p Hpp. apply Hout2. intros j Hj'. rewrite Heq.
            apply group_disj; try lia. done. }
          rewrite <-Heq. replace (i + S j) with (S i + j) by lia. apply Hg2. lia.
        * intros p Hpn. rewrite Hout2.
          -- apply Hout. specialize (Hpn 0 ltac:(lia)).
             by rewrite !Nat.mul_0_r, !Nat.add_0_r in Hpn.
          -- intros j Hj. rewrite Heq. apply Hpn. lia.
      + intros e l' _ Hu. by eapply upanic_perm.
  Qed.

  Fixpoint groups (frac i a b cnt : nat) : list nat :=
    match cnt with
    | 0 => []
    | S k => group frac i a b ++ groups frac (S i) (a + 3) (b + 3) k
    end.
  Lemma elem_of_groups frac i a b cnt p :
    p ∈ groups frac i a b cnt → ∃ j, j < cnt ∧ p ∈ group frac (i + j) (a + 3 * j) (b + 3 * j).
  Proof.
    revert i a b. induction cnt as [|cnt IH]; intros i a b Hp; cbn [groups] in Hp.
    - by apply elem_of_nil in Hp.
    - apply elem_of_app in Hp as [Hp|Hp].
      + exists 0. rewrite !Nat.mul_0_r, !Nat.add_0_r. split; [lia|done].
      + apply IH in Hp as (j & Hj & Hp). exists (S j). split; [lia|].
        replace (i + S j) with (S i + j) by lia.
        replace (a + 3 * S j) with (a + 3 + 3 * j) by lia.
        by replace (b + 3 * S j) with (b + 3 + 3 * j) by lia.
  Qed.
  Lemma groups_nodup frac i a b cnt :
    frac ≤ i → cnt ≤ frac → a + 3 * cnt ≤ i - frac → i + cnt + frac ≤ b →
    NoDup (groups frac i a b cnt).
  Proof.
    revert i a b. induction cnt as [|cnt IH]; intros i a b Hi Hc' Ha Hb; cbn [groups].
    - constructor.
    - apply NoDup_app. split; [apply group_nodup; lia|]. split; [|apply IH; lia].
      intros p Hp Hq. apply elem_of_groups in Hq as (j & Hj & Hq). revert Hq.
      replace (S i + j) with (i + S j) by lia.
      replace (a + 3 + 3 * j) with (a + 3 * S j) by lia.
      replace (b + 3 + 3 * j) with (b + 3 * S j) by lia.
      apply group_disj; [lia..|done].
  Qed.
  Lemma groups_count f l frac i a b cnt :
    (∀ j x, j < cnt → l !! (i + j) = Some x → f x = true →
       4 ≤ cntp f l (group frac (i + j) (a + 3 * j) (b + 3 * j))) →
    4 * cntp f l (seq i cnt) ≤ cntp f l (groups frac i a b cnt).
  Proof.
    revert i a b. induction cnt as [|cnt IH]; intros i a b H; cbn [groups seq cntp]; [lia|].
    rewrite cntp_app.
    assert (4 * cntp f l (seq (S i) cnt) ≤ cntp f l (groups frac (S i) (a + 3) (b + 3) cnt)).
    { apply IH. intros j x Hj Hx Hf. specialize (H (S j) x ltac:(lia)).
      replace (S i + j) with (i + S j) in * by lia.
      replace (a + 3 + 3 * j) with (a + 3 * S j) by lia.
      replace (b + 3 + 3 * j) with (b + 3 * S j) by lia. auto. }
    destruct (l !! i) as [x|] eqn:Hx; [|lia].
    destruct (f x) eqn:Hf; cbn [ind]; [|lia].
    specialize (H 0 x ltac:(lia)). rewrite !Nat.mul_0_r, !Nat.add_0_r in H.
    specialize (H Hx Hf). lia.
  Qed.

  Lemma good_down l G e x f :
    good l G e → l !! e = Some x → f x = true → (∀ y, le y x → f y = true) → 4 ≤ cntp f l G.
  Proof.
    intros (x' & Hx' & H1 & _) Hx Hf Hd. rewrite Hx in Hx'. injection Hx' as <-.
    etrans; [exact H1|]. apply cntp_mono. intros y Hy. apply Hd. by apply negb_true_iff.
  Qed.
  Lemma good_up l G e x f :
    good l G e → l !! e = Some x → f x = true → (∀ y, le x y → f y = true) → 4 ≤ cntp f l G.
  Proof.
    intros (x' & Hx' & _ & H1) Hx Hf Hd. rewrite Hx in Hx'. injection Hx' as <-.
    etrans; [exact H1|]. apply cntp_mono. intros y Hy. apply Hd. by apply negb_true_iff.
  Qed.

  (** After the loop, elements below (or above) any bound are at least four times
      as many in the array as in the middle slice. *)
  Definition rich (l : list T) (lo frac : nat) : Prop :=
    ∀ f, (∀ x y, f x = true → le y x → f y = true) ∨ (∀ x y, f x = true → le x y → f y = true) →
      4 * cntf f (take frac (drop lo l)) ≤ cntf f l.
  Lemma good_rich n frac i a b l :
    n = length l → frac ≤ i → a + 3 * frac ≤ i - frac →
    i + frac + frac ≤ b → b + 3 * frac ≤ n →
    (∀ j, j < frac → good l (group frac (i + j) (a + 3 * j) (b + 3 * j)) (i + j)) →
    rich l i frac.
  Proof.
    intros Hn Hi Ha Hib Hb Hg f Hf. rewrite <-cntp_seq by lia.
    etrans; [apply (groups_count _ _ frac i a b)|].
    - intros j x Hj Hx Hfx. destruct Hf as [Hf|Hf].
      + eapply good_down; [by apply Hg|done|done|]. intros y. by apply Hf.
      + eapply good_up; [by apply Hg|done|done|]. intros y. by apply Hf.
    - apply cntp_le; [apply groups_nodup; lia|].
      intros p Hp. apply elem_of_groups in Hp as (j & Hj & Hp).
      revert Hp. apply group_lt; lia.
  Qed.

  (** ** Number of calls. *)
  Lemma ninther_cost n a b d0 d e f g h i B k :
    k + 12 ≤ B → costs (ninther (T:=T) n a b d0 d e f g h i) (λ _ k', k' ≤ k + 12) B k.
  Proof.
    intros Hk. unfold ninther, median_idx, less_at. repeat cost_step; try lia.
  Qed.
  Lemma ninthers_loop_cost n frac i cnt a b B k :
    k + 12 * cnt ≤ B → costs (ninthers_loop (T:=T) n frac i cnt a b) (λ _ k', k' ≤ k + 12 * cnt) B k.
  Proof.
    revert i a b k. induction cnt as [|cnt IH]; intros i a b k Hk; cbn [ninthers_loop].
    - apply costs_ret. lia.
    - cost_step. cost_step. cost_step. cost_call ninther_cost; [lia|].
      cbv beta. intros [] k1 _ Hk1. cost_call IH; [lia|]. cost_fin.
  Qed.
End ninther.
