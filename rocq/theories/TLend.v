(** * TLend: the selection of many indices never touches the elements it has lent. *)
From Verif Require Export LendSpec TSelect TWordQuick.
From Coq Require Import NArith.
From stdpp Require Import list.

Local Transparent wp bind relocate focus with_asks.
Local Arguments wp {T Q R A} ans !p Φ E l.
Local Arguments bind {T Q R A B} !p f.
Local Arguments relocate {T Q R A} f !p.
Local Arguments focus {T Q R A} off p /.
Local Arguments with_asks {T Q R Q' R'} h {A} !p.

Section lendwp.
  (** [refuse]: the collection may panic. *)
  Context {T : Type} (ans : T * T → option bool → Prop) (refuse : Prop).
  Notation P A := (prog T (lend_question T) (option bool) A).
  Notation loan := (nat * nat * T)%type.
  Implicit Types (out : list loan) (v l m : list T).

  (** The program is that of the subview at [off]; [v] is the untampered array. *)
  Fixpoint lendwp {A} (off : nat) (p : P A) (Φ : A → list loan → list T → Prop)
      (E : exn → list loan → list T → Prop) out v {struct p} : Prop :=
    match p with
    | Ret a => Φ a out v
    | Throw e => E e out v
    | Read i k => off + i ∉ lent out ∧
        match v !! (off + i) with Some x => lendwp off (k x) Φ E out v | None => False end
    | Write i x k => off + i ∉ lent out ∧ off + i < length v ∧
        lendwp off k Φ E out (<[off + i := x]> v)
    | Ask (IsLess q) k => ∀ r, ans q r → lendwp off (k r) Φ E out v
    | Ask (Extend index pos) k => pos ∉ lent out ∧
        match v !! pos with
        | Some x => ∀ r, (r = None → refuse) → lendwp off (k r) Φ E (out ++ [(index, pos, x)]) v
        | None => False
        end
    | Par _ _ _ | Undef | NoFuel => False
    end.

  Lemma lendwp_mono {A} off (p : P A) : ∀ (Φ Φ' : A → list loan → list T → Prop)
      (E E' : exn → list loan → list T → Prop) out v,
    lendwp off p Φ E out v → (∀ a o w, Φ a o w → Φ' a o w) → (∀ e o w, E e o w → E' e o w) →
    lendwp off p Φ' E' out v.
  Proof.
    induction p as [A a|A e|A i k IH|A i x k IH|A [q|j pos] k IH|A B C p1 IH1 p2 IH2 k IH| |];
      intros Φ Φ' E E' out v H HΦ HE; simpl in *; auto.
    - destruct H as [? H]. split; [done|]. destruct (v !! (off + i)); [|done]. eauto.
    - destruct H as (? & ? & H). eauto.
    - eauto.
    - destruct H as [? H]. split; [done|]. destruct (v !! pos); [|done]. eauto.
  Qed.
  Lemma lendwp_bind {A B} off (p : P A) (f : A → P B) : ∀ Φ E out v,
    lendwp off p (λ a o w, lendwp off (f a) Φ E o w) E out v → lendwp off (bind p f) Φ E out v.
  Proof.
    revert B f.
    induction p as [A a|A e|A i k IH|A i x k IH|A [q|j pos] k IH|A B C p1 IH1 p2 IH2 k IH| |];
      intros B' f Φ E out v H; simpl in *; auto.
    - destruct H as [? H]. split; [done|]. destruct (v !! (off + i)); [|done]. eauto.
    - destruct H as (? & ? & H). eauto.
    - destruct H as [? H]. split; [done|]. destruct (v !! pos); [|done]. eauto.
  Qed.
  Lemma lendwp_focus {A} off a (p : P A) : ∀ Φ E out v,
    lendwp (off + a) p Φ E out v → lendwp off (focus a p) Φ E out v.
  Proof.
    induction p as [A b|A e|A i k IH|A i x k IH|A [q|j pos] k IH|A B C p1 IH1 p2 IH2 k IH| |];
      intros Φ E out v H; simpl in *; auto.
    - rewrite Nat.add_assoc. destruct H as [? H]. split; [done|].
      destruct (v !! _); [|done]. eauto.
    - rewrite Nat.add_assoc. destruct H as (? & ? & H). eauto.
    - destruct H as [? H]. split; [done|]. destruct (v !! pos); [|done]. eauto.
  Qed.
  Lemma lendwp_slice {A} off n a b (p : nat → P A) Φ E out v :
    a ≤ b → b ≤ n → lendwp (off + a) (p (b - a)) Φ E out v →
    lendwp off (slice n a b p) Φ E out v.
  Proof.
    intros Ha Hb H. unfold slice. rewrite (proj2 (Nat.leb_le _ _) Ha), (proj2 (Nat.leb_le _ _) Hb).
    by apply lendwp_focus.
  Qed.

  Lemma lendwp_extend {A} off j pos x (k : option bool → P A) Φ E out v :
    pos ∉ lent out → v !! pos = Some x →
    (∀ r, (r = None → refuse) → lendwp off (k r) Φ E (out ++ [(j, pos, x)]) v) →
    lendwp off (Ask (Extend j pos) k) Φ E out v.
  Proof. intros Hp Hx H. simpl. split; [done|]. by rewrite Hx. Qed.

  (** Code that only calls the comparator, on a view without lent elements. *)
  Lemma lendwp_less {A} (p : cmp_prog T A) : alone p →
    ∀ (Φ : A → list loan → list T → Prop) (E : exn → list loan → list T → Prop) out L m R,
    (∀ i, length L ≤ i < length L + length m → i ∉ lent out) →
    wp ans p (λ a m', length m' = length m → Φ a out (L ++ m' ++ R))
             (λ e m', length m' = length m → E e out (L ++ m' ++ R)) m →
    lendwp (length L) (lend_less p) Φ E out (L ++ m ++ R).
  Proof.
    unfold lend_less.
    induction p as [A a|A e|A i k IH|A i x k IH|A q k IH|A B C p1 IH1 p2 IH2 k IH| |];
      intros Hal Φ E out L m R Hd H; cbn in *; auto.
    - destruct (m !! i) as [x|] eqn:Hx; [|done]. pose proof (lookup_lt_Some _ _ _ Hx) as Hi.
      split; [apply Hd; lia|].
      rewrite lookup_app_r by lia. replace (length L + i - length L) with i by lia.
      rewrite lookup_app_l, Hx by done. by apply IH.
    - destruct H as [Hi H]. split; [apply Hd; lia|]. split; [rewrite !app_length; lia|].
      rewrite insert_app_r, insert_app_l by done. apply IH; [done|by rewrite insert_length|].
      eapply wp_mono; [exact H| |]; simpl; intros ? m' _ Hm' Hl; rewrite insert_length in *; auto.
  Qed.
End lendwp.

Section adequacy.
  Context {T S : Type} (ans : T * T → option bool → Prop) (refuse : Prop).
  Context (o : S → lend_question T → option bool * S * (nat → T → T)).
  Notation loan := (nat * nat * T)%type.
  Implicit Types (out : list loan) (v l : list T).

  Definition agree out v l : Prop :=
    length l = length v ∧ ∀ i, i ∉ lent out → l !! i = v !! i.
  Definition kept out v : Prop := Forall (λ x : loan, v !! x.1.2 = Some x.2) out.

  Lemma tamper_length u out l : length (tamper u out l) = length l.
  Proof. unfold tamper. by rewrite imap_length. Qed.
  Lemma tamper_agree u out v l : agree out v l → agree out v (tamper u out l).
  Proof.
    intros [Hl H]. split; [by rewrite tamper_length|]. intros i Hi. unfold tamper.
    rewrite list_lookup_imap, bool_decide_false by done. rewrite H by done. by destruct (v !! i).
  Qed.
  Lemma untampered_lookup out v l i : agree out v l → kept out v →
    untampered out l !! i = v !! i ∧ length (untampered out l) = length l.
  Proof.
    intros [Hl Ha] Hk. revert i.
    assert (∀ out', Forall (λ x : loan, v !! x.1.2 = Some x.2) out' →
      length (untampered out' l) = length l ∧
      ∀ i, untampered out' l !! i = v !! i ∨ untampered out' l !! i = l !! i ∧ i ∉ lent out') as H.
    { induction out' as [|[[j p] x] out' IH]; intros HF; simpl.
      - split; [done|]. intros i. right. split; [done|apply not_elem_of_nil].
      - apply Forall_cons_1 in HF as [Hx HF]. simpl in Hx. destruct (IH HF) as [IHl IHi].
        split; [by rewrite insert_length|]. intros i.
        assert (p < length v) by (by eapply lookup_lt_Some).
        destruct (decide (i = p)) as [->|Hip].
        + left. rewrite list_lookup_insert by (rewrite IHl; lia). done.
        + rewrite list_lookup_insert_ne by done. destruct (IHi i) as [->|[-> Hi]]; [by left|right].
          split; [done|]. by rewrite not_elem_of_cons. }
    intros i. destruct (H out Hk) as [Hlen Hi]. split; [|done].
    destruct (Hi i) as [->|[-> Hn]]; [done|by apply Ha].
  Qed.
  Lemma untampered_eq out v l : agree out v l → kept out v → untampered out l = v.
  Proof. intros H1 H2. apply list_eq. intros i. by apply untampered_lookup. Qed.

  Lemma lent_app out out' : lent (out ++ out') = lent out ++ lent out'.
  Proof. apply fmap_app. Qed.

  Lemma lendwp_run {A} (p : prog T (lend_question T) (option bool) A) :
    (∀ s q, ans q (o s (IsLess q)).1.1) → (∀ s i p, (o s (Extend i p)).1.1 = None → refuse) →
    ∀ Φ E s out v l, lendwp ans refuse 0 p Φ E out v → agree out v l → kept out v →
    match lend_run o p s out l with
    | (Done a, _, out', l') => ∃ v', Φ a out' v' ∧ agree out' v' l' ∧ kept out' v'
    | (Panicked e, _, out', l') => ∃ v', E e out' v' ∧ agree out' v' l' ∧ kept out' v'
    | _ => False
    end.
  Proof.
    intros Ho Hr.
    induction p as [A a|A e|A i k IH|A i x k IH|A [q|j pos] k IH|A B C p1 IH1 p2 IH2 k IH| |];
      intros Φ E s out v l H Ha Hk; simpl in *; eauto.
    - destruct H as [Hi H]. rewrite bool_decide_false by done.
      destruct Ha as [Hl Ha]. rewrite Ha by done. destruct (v !! i) as [x|]; [|done].
      apply (IH x Φ E s out v); done.
    - destruct H as (Hi & Hlt & H). rewrite bool_decide_false by done.
      rewrite decide_True by (destruct Ha; lia).
      apply (IH Φ E s out (<[i:=x]> v)); [done| |].
      + destruct Ha as [Hl Ha]. split; [by rewrite !insert_length|]. intros j Hj.
        destruct (decide (i = j)) as [<-|].
        * by rewrite !list_lookup_insert by lia.
        * by rewrite !list_lookup_insert_ne by done; apply Ha.
      + apply Forall_forall. intros [[j p] y] Hin. simpl.
        rewrite list_lookup_insert_ne.
        * exact (proj1 (Forall_forall _ _) Hk _ Hin).
        * intros ->. apply Hi. apply elem_of_list_fmap. eexists. split; [|exact Hin]. done.
    - specialize (Ho s q). destruct (o s (IsLess q)) as [[r s'] u]. simpl in Ho.
      apply (IH r Φ E s' out v); [by apply H|by apply tamper_agree|done].
    - destruct H as [Hp H]. rewrite bool_decide_false by done.
      destruct Ha as [Hl Ha]. rewrite Ha by done. destruct (v !! pos) as [x|] eqn:Hx; [|done].
      specialize (Hr s j pos). destruct (o s (Extend j pos)) as [[r s'] u]. simpl in Hr.
      apply (IH r Φ E s' _ v); [by apply H| |].
      + apply tamper_agree. split; [done|]. intros i Hi. apply Ha.
        rewrite lent_app in Hi. by apply not_elem_of_app in Hi as [? _].
      + apply Forall_app. split; [done|]. by constructor.
  Qed.
End adequacy.

Global Arguments lend_at_indices : simpl never.
Global Arguments lendwp : simpl never.

Section indices.
  Context {T : Type} (c : cfg) (ans : T * T → option bool → Prop) (refuse : Prop).
  Notation P A := (prog T (lend_question T) (option bool) A).
  Notation loan := (nat * nat * T)%type.
  Notation kle := (kle ans).
  Notation selected := (selected ans).
  Implicit Types (out : list loan) (v l : list T).

  Lemma lend_at_indices_unfold d f n base offset i0 inds :
    lend_at_indices (T:=T) c (S d) (S f) n base offset (i0 :: inds) =
      let at_ := length (i0 :: inds) / 2 in
      match drop at_ (i0 :: inds) with
      | [] => Throw IndexPanic
      | pivot :: right_inds =>
          bind (lend_less (rel_index c n pivot offset)) (λ i,
          bind (lend_less (partition_at_index c n i)) (λ '(lv, value, rv),
          bind (slice n lv.1 (lv.1 + lv.2) (λ m,
                 lend_at_indices c d (S (length (take at_ (i0 :: inds)))) m
                   (base + lv.1) offset (take at_ (i0 :: inds)))) (λ _,
          bind (extend pivot (base + value)) (λ _,
          slice n rv.1 (rv.1 + rv.2) (λ m,
                 lend_at_indices c (S d) f m (base + rv.1) (pivot + 1) right_inds)))))
      end.
  Proof. reflexivity. Qed.

  (** Lent are the references to the positions [ks], for the index [ks]. *)
  Definition loans out : list (nat * nat) := fst <$> out.
  Definition for_inds (ks : list nat) : list (nat * nat) := (λ i, (i, i)) <$> ks.
  Lemma lent_loans out out' ks : loans out' = loans out ++ for_inds ks → lent out' = lent out ++ ks.
  Proof.
    intros H. unfold lent.
    assert (∀ o : list loan, (λ x, x.1.2) <$> o = snd <$> loans o) as Hs.
    { intros o. unfold loans. by rewrite <-list_fmap_compose. }
    rewrite !Hs, H, fmap_app. f_equal. unfold for_inds. rewrite <-list_fmap_compose. apply list_fmap_id.
  Qed.

  Definition lpanic (offset n : nat) (inds : list nat) (e : exn) : Prop :=
    e = UserPanic ∧ ((∃ q, ans q None) ∨ refuse) ∨ e = DebugPanic ∧ dbg c = true ∨
    (e = AssertPanic ∨ e = OverflowPanic ∧ ovf c = true) ∧ ¬ valid_indices offset n inds.
  Lemma rel_index_alone n pivot offset : alone (rel_index (T:=T) c n pivot offset).
  Proof. unfold rel_index. repeat case_match; exact I. Qed.
  Lemma partition_at_index_alone n i : alone (partition_at_index (T:=T) c n i).
  Proof. apply polite_alone, partition_at_index_polite. Qed.

  Lemma lend_at_indices_spec d fuel n offset inds out L m R :
    length L = offset → n = length m → length inds < fuel → length inds < 2 ^ d → fits c (offset + n) →
    (∀ i, offset ≤ i < offset + n → i ∉ lent out) →
    lendwp ans refuse offset (lend_at_indices c (S d) fuel n offset offset inds)
      (λ _ out' v', ∃ m', v' = L ++ m' ++ R ∧ m' ≡ₚ m ∧ valid_indices offset n inds ∧
         loans out' = loans out ++ for_inds inds ∧
         (zst c = false → Forall (λ i, selected m' (i - offset)) inds))
      (λ e out' v', ∃ m' ks, v' = L ++ m' ++ R ∧ m' ≡ₚ m ∧ lpanic offset n inds e ∧
         ks `prefix_of` inds ∧ valid_indices offset n ks ∧
         loans out' = loans out ++ for_inds ks ∧
         (zst c = false → Forall (λ i, selected m' (i - offset)) ks))
      out (L ++ m ++ R).
  Proof.
    revert fuel n offset inds out L m R.
    induction d as [d IHd] using lt_wf_ind. intros fuel.
    induction fuel as [|f IHf]; intros n offset inds out L m R HL Hn Hf Hd Hfit Hout; [lia|].
    destruct inds as [|i0 inds0].
    { cbn. exists m. split; [done|]. split; [done|]. split; [by split; constructor|].
      split; [by rewrite app_nil_r|]. intros _. constructor. }
    rewrite lend_at_indices_unfold.
    remember (i0 :: inds0) as inds eqn:Hinds.
    assert (Hlen : 0 < length inds) by (subst; simpl; lia). clear Hinds i0 inds0.
    cbv zeta. set (at_ := length inds / 2).
    assert (Hat : at_ < length inds) by (apply Nat.div_lt; lia).
    assert (Hat2 : 2 * at_ ≤ length inds) by (apply Nat.mul_div_le; lia).
    assert (Hat3 : length inds ≤ 2 * at_ + 1).
    { unfold at_. pose proof (Nat.div_mod (length inds) 2).
      pose proof (Nat.mod_upper_bound (length inds) 2). lia. }
    clearbody at_.
    assert (Hsplit : inds = take at_ inds ++ drop at_ inds) by (by rewrite take_drop).
    assert (Hll : length (take at_ inds) = at_) by (rewrite take_length; lia).
    destruct (drop at_ inds) as [|pivot rinds] eqn:Hdrop.
    { apply (f_equal length) in Hdrop. rewrite drop_length in Hdrop. simpl in Hdrop. lia. }
    set (linds := take at_ inds) in *. clearbody linds. clear Hdrop. subst inds.
    rewrite app_length in *. simpl in *.
    set (EE := λ e (out' : list loan) v', ∃ m' ks, v' = L ++ m' ++ R ∧ m' ≡ₚ m ∧
         lpanic offset n (linds ++ pivot :: rinds) e ∧
         ks `prefix_of` (linds ++ pivot :: rinds) ∧ valid_indices offset n ks ∧
         loans out' = loans out ++ for_inds ks ∧
         (zst c = false → Forall (λ i, selected m' (i - offset)) ks)).
    assert (HE0 : ∀ e m', m' ≡ₚ m → lpanic offset n (linds ++ pivot :: rinds) e →
              EE e out (L ++ m' ++ R)).
    { intros e m' Hp Hl. exists m', []. split; [done|]. split; [done|]. split; [done|].
      split; [apply prefix_nil|]. split; [by split; constructor|].
      split; [by rewrite app_nil_r|]. intros _. constructor. }
    (* the relative index *)
    apply lendwp_bind. rewrite <-HL at 1.
    apply lendwp_less; [apply rel_index_alone|rewrite HL; subst n; done|].
    eapply (wp_mono _ _ (λ i l', l' = m ∧ (i = pivot - offset ∧ offset ≤ pivot ∨
        n ≤ i ∧ pivot < offset)) _ (λ e m', m' = m ∧ lpanic offset n (linds ++ pivot :: rinds) e)).
    { unfold rel_index. destruct (Nat.leb_spec offset pivot); [by apply wp_ret; auto|].
      destruct (ovf c) eqn:Hovf.
      - apply wp_throw. split; [done|]. right; right. split; [by right|].
        rewrite valid_split. lia.
      - apply wp_ret. split; [done|]. right. split; [|done].
        destruct (N.ltb_spec (N.of_nat pivot + (if wide c then 2 ^ 64 else 2 ^ 32) - N.of_nat offset)
          (N.of_nat n)); [|done].
        exfalso. unfold fits in Hfit. destruct (wide c); lia. }
    2: { intros e m' _ [-> He] _. by apply HE0. }
    intros i m' _ [-> Hi] _.
    (* the selection *)
    apply lendwp_bind. rewrite <-HL at 1.
    apply lendwp_less; [apply partition_at_index_alone|rewrite HL; subst n; done|].
    wp_apply (partition_at_index_spec c ans n i m); [done| |].
    2: { intros e m' _ [[[Hp Hs] Hin]|(-> & Hni & ->)] _; apply HE0; [done| |done|].
         - destruct Hs as [[-> ?]|[-> ?]]; [left; by auto|right; by left].
         - right; right. split; [by left|]. rewrite valid_split. lia. }
    intros [[lv value] rv] l1 Hl1 (Hp1 & Hin & Hparts & Hsel) _.
    unfold parts in Hparts. injection Hparts as -> -> ->. simpl.
    destruct Hi as [[-> Hop]|[? ?]]; [|lia].
    set (i := pivot - offset) in *.
    (* split the array *)
    assert (∃ A p B, l1 = A ++ p :: B ∧ length A = i ∧
       (zst c = false → Forall (λ x, kle x p) A ∧ Forall (kle p) B))
      as (A & p & B & -> & HlA & HAB).
    { destruct (zst c) eqn:Hz.
      - destruct (lookup_lt_is_Some_2 l1 i) as [p Hp]; [lia|].
        exists (take i l1), p, (drop (S i) l1). split; [by rewrite take_drop_middle|].
        split; [rewrite take_length; lia|done].
      - destruct (selected_inv _ _ _ (Hsel eq_refl)) as (A & p & B & ? & ? & ? & ?).
        exists A, p, B. auto. }
    rewrite app_length in Hl1. simpl in Hl1.
    (* left *)
    apply lendwp_bind, lendwp_slice; [lia|lia|].
    rewrite !Nat.add_0_r, Nat.sub_0_r.
    assert (Hdpos : d ≠ 0) by (intros ->; simpl in Hd; lia).
    assert (Hpow : 2 ^ d = 2 * 2 ^ (d - 1)).
    { replace d with (S (d - 1)) at 1 by lia. by rewrite Nat.pow_succ_r'. }
    replace d with (S (d - 1)) at 1 by lia.
    rewrite <-app_assoc. simpl.
    eapply lendwp_mono;
      [apply (IHd (d - 1) ltac:(lia) (S (length linds)) i offset linds out L A (p :: B ++ R));
         [done|done|lia|lia|unfold fits in *; destruct (wide c); lia|intros; apply Hout; lia]| |].
    2: { intros e out' v' (A' & ks & -> & HpA & He & Hks & Hvks & Ho & HsA).
         exists (A' ++ p :: B), ks. split; [by rewrite <-app_assoc|].
         split; [by rewrite HpA|]. split.
         { destruct He as [[-> ?]|[[-> ?]|[He Hv]]]; [by left|right; by left|right; right].
           split; [done|]. rewrite valid_split. intros (_ & Hvl & _). apply Hv. done. }
         split; [by apply prefix_app_r|].
         split. { destruct Hvks as [? Hvks]. split; [done|]. eapply Forall_impl; [exact Hvks|].
           simpl. intros; lia. }
         split; [done|]. intros Hz. destruct (HAB Hz) as [HA HB].
         assert (HA' : Forall (λ x, kle x p) A') by (by rewrite HpA).
         eapply Forall_impl; [by apply HsA|]. intros j. by apply selected_left. }
    intros [] out1 v1 (A' & -> & HpA & HvA & Ho1 & HsA). simpl.
    assert (HlA' : length A' = i) by (by rewrite HpA).
    assert (Hpl : pivot = length (L ++ A')) by (rewrite app_length; lia).
    assert (Hlent1 : lent out1 = lent out ++ linds) by (by apply lent_loans).
    (* the loan *)
    assert (Hsel1 : ∀ B', B' ≡ₚ B → zst c = false →
              Forall (λ j, selected (A' ++ p :: B') (j - offset)) (linds ++ [pivot])).
    { intros B' HpB Hz. specialize (HsA Hz). destruct (HAB Hz) as [HA HB].
      assert (HA' : Forall (λ x, kle x p) A') by (by rewrite HpA).
      assert (HB' : Forall (kle p) B') by (by rewrite HpB).
      apply Forall_app. split; [|constructor; [|constructor]].
      - eapply Forall_impl; [exact HsA|]. intros j. by apply selected_left.
      - replace (pivot - offset) with (length A') by lia. by apply selected_app. }
    assert (Hvl : valid_indices offset n (linds ++ [pivot])).
    { apply valid_split. split; [lia|]. split; [done|]. by split; constructor. }
    replace (offset + i) with pivot by lia.
    apply (lendwp_extend _ _ _ _ _ p).
    { rewrite Hlent1, not_elem_of_app. split; [apply Hout; lia|].
      intros Hin'. destruct HvA as [_ HvA]. rewrite Forall_forall in HvA. specialize (HvA _ Hin'). lia. }
    { by rewrite app_assoc, Hpl, lookup_middle. }
    set (out2 := out1 ++ [(pivot, pivot, p)]).
    assert (Ho2 : loans out2 = loans out ++ for_inds (linds ++ [pivot])).
    { unfold out2, loans. rewrite fmap_app. fold (loans out1). rewrite Ho1.
      unfold for_inds. rewrite fmap_app, <-app_assoc. done. }
    intros [r|] Hr.
    2: { exists (A' ++ p :: B), (linds ++ [pivot]).
         split; [by rewrite <-!app_assoc|]. split; [by rewrite HpA|]. split; [left; by auto|].
         split; [apply prefix_app, prefix_cons, prefix_nil|]. split; [done|].
         split; [done|]. intros Hz. by apply Hsel1. }
    (* right *)
    apply lendwp_slice; [lia|lia|].
    replace (offset + (i + 1)) with (pivot + 1) by lia.
    replace (i + 1 + (n - (i + 1)) - (i + 1)) with (n - (i + 1)) by lia.
    replace (L ++ A' ++ p :: B ++ R) with ((L ++ A' ++ [p]) ++ B ++ R) by (by rewrite <-!app_assoc).
    assert (Hlent2 : lent out2 = lent out ++ (linds ++ [pivot])) by (by apply lent_loans).
    eapply lendwp_mono;
      [apply (IHf (n - (i + 1)) (pivot + 1) rinds out2 (L ++ A' ++ [p]) B R);
         [rewrite !app_length; simpl; lia|lia|lia|lia|unfold fits in *; destruct (wide c); lia|]| |].
    { intros j Hj. rewrite Hlent2, not_elem_of_app. split; [apply Hout; lia|].
      rewrite elem_of_app, elem_of_list_singleton. intros [Hin'| ->]; [|lia].
      destruct HvA as [_ HvA]. rewrite Forall_forall in HvA. specialize (HvA _ Hin'). lia. }
    - intros [] out3 v3 (B' & -> & HpB & HvB & Ho3 & HsB).
      exists (A' ++ p :: B'). split; [by rewrite <-!app_assoc|].
      split; [by rewrite HpA, HpB|]. split; [apply valid_split; split; [lia|done]|].
      split. { rewrite Ho3, Ho2. unfold for_inds. rewrite !fmap_app. by rewrite <-!app_assoc. }
      intros Hz. specialize (Hsel1 B' HpB Hz). apply Forall_app in Hsel1 as [H1 H2].
      apply Forall_app. split; [done|]. apply Forall_cons_1 in H2 as [H2 _]. constructor; [done|].
      destruct (HAB Hz) as [HA HB]. assert (HB' : Forall (kle p) B') by (by rewrite HpB).
      assert (HA' : Forall (λ x, kle x p) A') by (by rewrite HpA).
      specialize (HsB Hz). destruct HvB as [_ HvB]. rewrite Forall_forall in HvB, HsB.
      apply Forall_forall. intros j Hj. specialize (HvB j Hj). specialize (HsB j Hj).
      replace (j - offset) with (length A' + 1 + (j - (pivot + 1))) by lia.
      by apply selected_right.
    - intros e out3 v3 (B' & ks & -> & HpB & He & Hks & Hvks & Ho3 & HsB).
      exists (A' ++ p :: B'), (linds ++ pivot :: ks). split; [by rewrite <-!app_assoc|].
      split; [by rewrite HpA, HpB|]. split.
      { destruct He as [[-> ?]|[[-> ?]|[He Hv]]]; [by left|right; by left|right; right].
        split; [done|]. rewrite valid_split. intros (_ & _ & Hvr). by apply Hv. }
      split; [by apply prefix_app, prefix_cons|].
      split; [apply valid_split; split; [lia|done]|].
      split. { rewrite Ho3, Ho2. unfold for_inds. rewrite !fmap_app. by rewrite <-!app_assoc. }
      intros Hz. specialize (Hsel1 B' HpB Hz). apply Forall_app in Hsel1 as [H1 H2].
      apply Forall_app. split; [done|]. apply Forall_cons_1 in H2 as [H2 _]. constructor; [done|].
      destruct (HAB Hz) as [HA HB]. assert (HB' : Forall (kle p) B') by (by rewrite HpB).
      assert (HA' : Forall (λ x, kle x p) A') by (by rewrite HpA).
      specialize (HsB Hz). destruct Hvks as [_ HvB]. rewrite Forall_forall in HvB, HsB.
      apply Forall_forall. intros j Hj. specialize (HvB j Hj). specialize (HsB j Hj).
      replace (j - offset) with (length A' + 1 + (j - (pivot + 1))) by lia.
      by apply selected_right.
  Qed.
End indices.

Section top.
  Context {T S : Type} (c : cfg).
  Context (o : S → lend_question T → option bool * S * (nat → T → T)).
  Implicit Types (l : list T) (inds : list nat).

  (** What is known at the end. *)
  Definition lend_post (ans : T * T → option bool → Prop) (refuse : Prop) l inds
      (r : outcome unit) (out : list (nat * nat * T)) l' : Prop :=
    Permutation l (untampered out l') ∧
    ∃ ks, ks `prefix_of` inds ∧ valid_indices 0 (length l) ks ∧ loans out = for_inds ks ∧
      (zst c = false → Forall (selected ans (untampered out l')) ks) ∧
      kept out (untampered out l') ∧
      (r = Done tt ∧ ks = inds ∨ ∃ e, r = Panicked e ∧ lpanic c ans refuse 0 (length l) inds e).

  Lemma lend_run_spec (ans : T * T → option bool → Prop) (refuse : Prop) s inds l :
    fits c (length l) → (∀ s q, ans q (o s (IsLess q)).1.1) →
    (∀ s i p, (o s (Extend i p)).1.1 = None → refuse) →
    ∃ r s' out l', lend_run o (select_many_lend c (length l) inds) s [] l = (r, s', out, l') ∧
      lend_post ans refuse l inds r out l'.
  Proof.
    intros Hf Hans Href. unfold select_many_lend.
    pose proof (lend_at_indices_spec c ans refuse (bit_length (length inds)) (Datatypes.S (length inds))
      (length l) 0 inds [] [] l [] eq_refl eq_refl ltac:(lia) (bit_length_spec _) Hf
      (λ i _, not_elem_of_nil i)) as Hwp.
    simpl in Hwp. rewrite app_nil_r in Hwp.
    eapply (lendwp_run ans refuse o _ Hans Href _ _ s [] l l) in Hwp; [|done|by constructor].
    destruct (lend_run o _ s [] l) as [[[r s'] out] l'].
    exists r, s', out, l'. split; [done|].
    destruct r as [[]|e| |]; try done.
    - destruct Hwp as (v & (m & -> & Hp & Hv & Ho & Hs) & Ha & Hk). rewrite app_nil_r in *.
      simpl in *. unfold lend_post. rewrite (untampered_eq _ _ _ Ha Hk).
      split; [by symmetry|]. exists inds. split; [done|]. split; [done|]. split; [done|].
      split; [|split; [done|by left]]. intros Hz. eapply Forall_impl; [by apply Hs|]. intros i. simpl.
      by rewrite Nat.sub_0_r.
    - destruct Hwp as (v & (m & ks & -> & Hp & He & Hks & Hv & Ho & Hs) & Ha & Hk).
      rewrite app_nil_r in *. simpl in *. unfold lend_post. rewrite (untampered_eq _ _ _ Ha Hk).
      split; [by symmetry|]. exists ks. split; [done|]. split; [done|]. split; [done|].
      split; [|split; [done|right; by eauto]]. intros Hz. eapply Forall_impl; [by apply Hs|]. intros i. simpl.
      by rewrite Nat.sub_0_r.
  Qed.

  Lemma select_many_lend_all s inds l : fits c (length l) →
    ∃ r s' out l', lend_run o (select_many_lend c (length l) inds) s [] l = (r, s', out, l') ∧
      Permutation l (untampered out l') ∧
      (∃ ks, ks `prefix_of` inds ∧ valid_indices 0 (length l) ks ∧
         map fst out = map (λ i, (i, i)) ks ∧ (r = Done tt → ks = inds)) ∧
      (r = Done tt ∨ r = Panicked UserPanic ∨ r = Panicked DebugPanic ∧ dbg c = true ∨
       (r = Panicked AssertPanic ∨ r = Panicked OverflowPanic ∧ ovf c = true) ∧
         ¬ valid_indices 0 (length l) inds).
  Proof.
    intros Hf. destruct (lend_run_spec (λ _ _, True) True s inds l Hf) as (r & s' & out & l' & Hr & H);
      [done|done|].
    destruct H as (Hp & ks & Hks & Hv & Ho & _ & _ & He).
    exists r, s', out, l'. split; [done|]. split; [done|]. split.
    - exists ks. split; [done|]. split; [done|]. split; [done|].
      intros ->. by destruct He as [[_ ->]|(e & [=] & _)].
    - destruct He as [[-> _]|(e & -> & [[-> _]|[[-> ?]|[[->|[-> ?]] ?]]])]; auto 10.
  Qed.

  Lemma select_many_lend_done s inds l : dbg c = false → fits c (length l) →
    valid_indices 0 (length l) inds → (∀ s q, (o s q).1.1 ≠ None) →
    ∃ s' out l', lend_run o (select_many_lend c (length l) inds) s [] l = (Done tt, s', out, l') ∧
      map fst out = map (λ i, (i, i)) inds.
  Proof.
    intros Hd Hf Hvi Ho.
    destruct (lend_run_spec (λ _ r, r ≠ None) False s inds l Hf) as (r & s' & out & l' & Hr & H).
    { intros; apply Ho. }
    { intros s0 i p Hn. by apply (Ho s0 (Extend i p)). }
    destruct H as (Hp & ks & Hks & Hv & Hout & _ & _ & He).
    exists s', out, l'.
    destruct He as [[-> ->]|(e & -> & He)]; [done|].
    exfalso. destruct He as [[_ [[q Hq]|Hq]]|[[_ ?]|[_ Hn]]]; [done|done|congruence|done].
  Qed.

  Lemma select_many_lend_selects lt s inds l :
    fits c (length l) → strict_weak_order lt → (zst c = true → ∀ x y : T, x = y) →
    (∀ s q, (o s (IsLess q)).1.1 = None ∨ (o s (IsLess q)).1.1 = Some (lt q.1 q.2)) →
    ∃ r s' out l', lend_run o (select_many_lend c (length l) inds) s [] l = (r, s', out, l') ∧
      Forall (λ '(i, p, x), p = i ∧ placed lt (untampered out l') i x ∧ order_statistic lt l i x) out.
  Proof.
    intros Hf Hs Hz Ho.
    destruct (lend_run_spec (λ q r, r = None ∨ r = Some (lt q.1 q.2)) True s inds l Hf Ho)
      as (r & s' & out & l' & Hr & H); [done|].
    destruct H as (Hp & ks & Hks & Hv & Hout & Hsel & Hk & _).
    exists r, s', out, l'. split; [done|].
    set (v := untampered out l') in *. clearbody v.
    assert (Hpl : Forall (λ i, ∃ x, placed lt v i x) ks).
    { destruct (zst c).
      - destruct Hv as [_ Hv]. eapply Forall_impl; [exact Hv|]. intros i Hi. simpl in Hi.
        apply one_element_placed; auto. apply Permutation_length in Hp. simpl in Hi. lia.
      - eapply Forall_impl; [by apply Hsel|]. intros i (x & Hx & Hlo & Hhi).
        assert (Hle : ∀ a b, kle (λ q r, r = None ∨ r = Some (lt q.1 q.2)) a b → lt b a = false).
        { intros a b Hk'. apply Hk'; [done|]. intros a' b' r' [|[=]]; done. }
        exists x. split; [done|]. split; (eapply Forall_impl; [eassumption|]); intros y; apply Hle. }
    apply Forall_forall. intros [[i p] x] Hin.
    assert (Hin1 : (i, p) ∈ loans out) by (apply elem_of_list_fmap; by exists (i, p, x)).
    rewrite Hout in Hin1. apply elem_of_list_fmap in Hin1 as (j & [= -> ->] & Hj).
    split; [done|].
    destruct (proj1 (Forall_forall _ _) Hpl j Hj) as [y Hy].
    pose proof (proj1 (Forall_forall _ _) Hk _ Hin) as Hx. simpl in Hx.
    assert (x = y) as ->. { destruct Hy as [Hy _]. congruence. }
    split; [done|]. by apply (placed_order_statistic lt l v).
  Qed.
End top.
