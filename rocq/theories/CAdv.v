(** * CAdv: an adversary for the selection.

    The comparator is decided on while the selection runs: elements are numbers,
    [σ] lists the elements that have been given a rank ("frozen"), the earlier
    the greater; all other elements are equal and less than the frozen ones.
    Whenever two elements are compared neither of which is frozen, the adversary
    may freeze one of them.  Answers that involve a frozen element do not change
    if [σ] is extended later. *)
From Verif Require Export CLow Polite.
From stdpp Require Import list.

Fixpoint rk (σ : list nat) (x : nat) : nat :=
  match σ with [] => 0 | y :: τ => if x =? y then 0 else S (rk τ x) end.
Definition lts (σ : list nat) (x y : nat) : bool := rk σ y <? rk σ x.
Definition gas (σ : list nat) (x : nat) : bool := length σ <=? rk σ x.

Lemma lts_swo σ : strict_weak_order (lts σ).
Proof.
  unfold lts. split.
  - intros x. apply Nat.ltb_irrefl.
  - intros x y z H1 H2. apply Nat.ltb_lt in H1, H2. apply Nat.ltb_lt. lia.
  - intros x y z H1 H2. apply Nat.ltb_ge in H1, H2. apply Nat.ltb_ge. lia.
Qed.
Lemma rk_le σ x : rk σ x ≤ length σ.
Proof. induction σ as [|y σ IH]; simpl; [lia|]. destruct (x =? y); lia. Qed.
Lemma rk_in σ x : x ∈ σ → rk σ x < length σ.
Proof.
  induction σ as [|y σ IH]; [by intros ?%elem_of_nil|]. intros H. simpl.
  destruct (Nat.eqb_spec x y); [lia|]. apply elem_of_cons in H as [?|H]; [done|].
  specialize (IH H). lia.
Qed.
Lemma rk_notin σ x : x ∉ σ → rk σ x = length σ.
Proof.
  induction σ as [|y σ IH]; [done|]. intros H. apply not_elem_of_cons in H as [Hy H]. simpl.
  destruct (Nat.eqb_spec x y); [done|]. f_equal. auto.
Qed.
Lemma rk_app_in σ τ x : x ∈ σ → rk (σ ++ τ) x = rk σ x.
Proof.
  induction σ as [|y σ IH]; [by intros ?%elem_of_nil|]. intros H. simpl.
  destruct (Nat.eqb_spec x y); [done|]. apply elem_of_cons in H as [?|H]; [done|].
  f_equal. auto.
Qed.
Lemma rk_app_notin σ τ x : x ∉ σ → rk (σ ++ τ) x = length σ + rk τ x.
Proof.
  induction σ as [|y σ IH]; [done|]. intros H. apply not_elem_of_cons in H as [Hy H]. simpl.
  destruct (Nat.eqb_spec x y); [done|]. f_equal. auto.
Qed.
Lemma gas_spec σ x : gas σ x = true ↔ x ∉ σ.
Proof.
  unfold gas. rewrite Nat.leb_le. split.
  - intros H Hin. apply rk_in in Hin. lia.
  - intros H. rewrite rk_notin by done. lia.
Qed.
Lemma gas_gas σ x y : gas σ x = true → gas σ y = true → lts σ x y = false.
Proof.
  rewrite !gas_spec. intros Hx Hy. unfold lts. rewrite !rk_notin by done. apply Nat.ltb_irrefl.
Qed.
Lemma gas_fro σ x y : gas σ x = true → gas σ y = false → lts σ x y = true.
Proof.
  unfold gas, lts. rewrite Nat.leb_le, Nat.leb_gt. intros. apply Nat.ltb_lt. lia.
Qed.
(** Answers that involve a frozen element are final. *)
Lemma lts_stable σ τ x y : x ∈ σ ∨ y ∈ σ → lts (σ ++ τ) x y = lts σ x y.
Proof.
  unfold lts. intros H.
  destruct (decide (x ∈ σ)) as [Hx|Hx], (decide (y ∈ σ)) as [Hy|Hy]; [..|tauto].
  - by rewrite !rk_app_in.
  - rewrite (rk_app_in _ _ x), rk_app_notin by done. rewrite (rk_notin σ y) by done.
    pose proof (rk_in _ _ Hx). destruct (Nat.ltb_spec (length σ + rk τ y) (rk σ x)),
      (Nat.ltb_spec (length σ) (rk σ x)); auto; lia.
  - rewrite (rk_app_in _ _ y), rk_app_notin by done. rewrite (rk_notin σ x) by done.
    pose proof (rk_in _ _ Hy). destruct (Nat.ltb_spec (rk σ y) (length σ + rk τ x)),
      (Nat.ltb_spec (rk σ y) (length σ)); auto; lia.
Qed.

Section adv.
  Notation P A := (cmp_prog nat A).
  Local Transparent bind wp wpg on_unwind relocate focus silent.
  Local Arguments bind {T Q R A B} !p f.
  Local Arguments wp {T Q R A} ans !p Φ E l.
  Local Arguments wpg {T Q R G A} ans !p Φ E g l.
  Local Arguments on_unwind {T Q R A} c !p.
  Local Arguments relocate {T Q R A} f !p.

  (** The adversary can answer so that [p] returns with [Φ]. *)
  Fixpoint advl {A} (p : P A) (Φ : A → list nat → list nat → Prop) (σ l : list nat) : Prop :=
    match p with
    | Ret a => Φ a σ l
    | Read i k => match l !! i with Some x => advl (k x) Φ σ l | None => False end
    | Write i x k => i < length l ∧ advl k Φ σ (<[i:=x]> l)
    | Ask q k => ∃ τ, (q.1 ∈ σ ++ τ ∨ q.2 ∈ σ ++ τ) ∧
                   advl (k (Some (lts (σ ++ τ) q.1 q.2))) Φ (σ ++ τ) l
    | _ => False
    end.
  Lemma advl_mono {A} (p : P A) (Φ Φ' : A → list nat → list nat → Prop) σ l :
    advl p Φ σ l → (∀ a σ' l', length l' = length l → Φ a σ' l' → Φ' a σ' l') → advl p Φ' σ l.
  Proof.
    revert Φ Φ' σ l.
    induction p as [A a|A e|A i k IH|A i x k IH|A q k IH|A B C p1 IH1 p2 IH2 k IH| |];
      intros Φ Φ' σ l H HΦ; simpl in *; auto.
    - destruct (l !! i); [|done]. eauto.
    - destruct H as [? H]. split; [done|]. eapply IH; [exact H|]. intros ? ? ? Hl.
      rewrite insert_length in Hl. auto.
    - destruct H as (τ & Hτ & H). exists τ. split; [done|]. eauto.
  Qed.
  Lemma advl_bind {A B} (p : P A) (f : A → P B) Φ σ l :
    advl p (λ a σ' l', advl (f a) Φ σ' l') σ l → advl (bind p f) Φ σ l.
  Proof.
    revert B f Φ σ l.
    induction p as [A a|A e|A i k IH|A i x k IH|A q k IH|A B' C p1 IH1 p2 IH2 k IH| |];
      intros B f Φ σ l H; simpl in *; auto.
    - destruct (l !! i); [|done]. eauto.
    - destruct H. eauto.
    - destruct H as (τ & Hτ & H). exists τ. split; [done|]. eauto.
  Qed.

  (** All questions that [p] asks satisfy [Pq]. *)
  Fixpoint asks {A} (Pq : nat * nat → Prop) (p : P A) : Prop :=
    match p with
    | Ret _ | Throw _ | Undef | NoFuel => True
    | Read _ k => ∀ x, asks Pq (k x)
    | Write _ _ k => asks Pq k
    | Ask q k => Pq q ∧ ∀ r, asks Pq (k r)
    | Par _ _ _ => False
    end.
  Lemma asks_bind {A B} Pq (p : P A) (f : A → P B) :
    asks Pq p → (∀ a, asks Pq (f a)) → asks Pq (bind p f).
  Proof.
    revert B f.
    induction p as [A a|A e|A i k IH|A i x k IH|A q k IH|A B' C p1 IH1 p2 IH2 k IH| |];
      intros B f H Hf; simpl in *; auto.
    destruct H. auto.
  Qed.
  Lemma asks_silent {A} Pq (p : P A) : silent p → asks Pq p.
  Proof.
    induction p as [A a|A e|A i k IH|A i x k IH|A q k IH|A B' C p1 IH1 p2 IH2 k IH| |];
      simpl; auto; done.
  Qed.
  Lemma asks_on_unwind {A} Pq (g : P unit) (p : P A) :
    asks Pq g → asks Pq p → asks Pq (on_unwind g p).
  Proof.
    intros Hg.
    induction p as [A a|A e|A i k IH|A i x k IH|A q k IH|A B' C p1 IH1 p2 IH2 k IH| |];
      simpl; auto.
    - intros _. by apply asks_bind.
    - intros []. auto.
  Qed.
  Lemma asks_relocate {A} Pq h (p : P A) : asks Pq p → asks Pq (relocate h p).
  Proof.
    induction p as [A a|A e|A i k IH|A i x k IH|A q k IH|A B' C p1 IH1 p2 IH2 k IH| |];
      simpl; auto.
    intros []. auto.
  Qed.
  Lemma asks_slice {A} Pq n a b (p : nat → P A) : (∀ m, asks Pq (p m)) → asks Pq (slice n a b p).
  Proof.
    intros H. unfold slice. destruct (_ && _); [|done]. apply asks_relocate. auto.
  Qed.
  Lemma asks_is_less (Pq : nat * nat → Prop) x y : Pq (x, y) → asks Pq (is_less x y).
  Proof. intros H. split; [done|]. by intros [|]. Qed.

  (** Programs that only ask about frozen elements do what [wp] says. *)
  Lemma advl_wp {A} (p : P A) Φ σ l :
    asks (λ q, q.1 ∈ σ ∨ q.2 ∈ σ) p →
    wp (ans_lt (lts σ)) p Φ (λ _ _, False) l → advl p (λ a σ' l', σ' = σ ∧ Φ a l') σ l.
  Proof.
    revert Φ l.
    induction p as [A a|A e|A i k IH|A i x k IH|A q k IH|A B' C p1 IH1 p2 IH2 k IH| |];
      intros Φ l Ha H; simpl in *; auto.
    - destruct (l !! i); auto.
    - destruct H. auto.
    - destruct Ha as [Hq Ha]. exists []. rewrite app_nil_r. split; [done|]. apply IH; auto.
      by apply H.
  Qed.

  (** The adversary can answer so that [p] makes at least [B] calls. *)
  Definition adv {A} (p : P A) (B : nat) (σ l : list nat) : Prop :=
    ∃ τ, ∀ g0, wpg (cnt_ans (ans_lt (lts (σ ++ τ)))) p (λ _ g _, g0 + B ≤ g) (λ _ _ _, False) g0 l.
  Lemma adv_bind {A B} (p : P A) (f : A → P B) b σ l :
    advl p (λ a σ' l', adv (f a) b σ' l') σ l → adv (bind p f) b σ l.
  Proof.
    revert B f b σ l.
    induction p as [A a|A e|A i k IH|A i x k IH|A q k IH|A B' C p1 IH1 p2 IH2 k IH| |];
      intros B f b σ l H; simpl in *; auto; try done.
    - destruct (l !! i) as [x|] eqn:Hx; [|done]. destruct (IH x B f b σ l H) as [τ Hτ].
      exists τ. intros g0. simpl. rewrite Hx. apply Hτ.
    - destruct H as [Hi H]. destruct (IH B f b σ _ H) as [τ Hτ]. exists τ. intros g0. split; [done|].
      apply Hτ.
    - destruct H as (τ & Hq & H). destruct (IH _ B f b _ _ H) as [ρ Hρ].
      exists (τ ++ ρ). intros g0. simpl. intros r g' [Hr ->]. rewrite (assoc_L (++)) in *.
      unfold ans_lt in Hr. rewrite lts_stable in Hr by done. subst r.
      eapply wpg_mono; [apply Hρ| |done]. simpl. lia.
  Qed.
  Lemma adv_slice {A} n x y (p : nat → P A) b σ l :
    x ≤ y → y ≤ n → n ≤ length l → adv (p (y - x)) b σ (take (y - x) (drop x l)) →
    adv (slice n x y p) b σ l.
  Proof.
    intros Hx Hy Hn [τ Hτ]. exists τ. intros g0. apply wpg_slice; [done..|].
    eapply wpg_mono; [apply Hτ| |done]. auto.
  Qed.

  (** Inversion of [wp_bind]. *)
  Lemma wp_bind_inv {T Q R A B} (ans : Q → R → Prop) (p : prog T Q R A) (f : A → prog T Q R B) Φ E l :
    wp ans (bind p f) Φ E l → wp ans p (λ a l', wp ans (f a) Φ E l') E l.
  Proof.
    revert B f Φ E l.
    induction p as [A a|A e|A i k IH|A i x k IH|A q k IH|A B' C p1 IH1 p2 IH2 k IH| |];
      intros B f Φ E l H; simpl in *; auto.
    - destruct (l !! i); auto.
    - destruct H. auto.
    - eapply wp_mono; [exact H| |]; simpl; intros ? ? _ H2;
        (eapply wp_mono; [exact H2| |]; simpl; intros ? ? _ H3; auto).
  Qed.
End adv.
Lemma silent_slice_check {T Q R} n a b :
  silent (T:=T) (Q:=Q) (R:=R) (slice n a b (λ _, Ret tt)).
Proof.
  Local Transparent silent focus.
  unfold slice, focus. destruct (_ && _); [apply silent_relocate, silent_ret|done].
  Local Opaque silent focus.
Qed.

Section adv_rules.
  Local Transparent bind.
  Local Arguments bind {T Q R A B} !p f.
  Lemma advl_ret {A} (a : A) (Φ : A → list nat → list nat → Prop) σ l : Φ a σ l → advl (Ret a) Φ σ l.
  Proof. done. Qed.
  Lemma advl_uget n i (Φ : nat → list nat → list nat → Prop) σ l :
    n ≤ length l → i < n → (∀ x, l !! i = Some x → Φ x σ l) → advl (uget n i) Φ σ l.
  Proof.
    intros Hn Hi H. unfold uget. rewrite (proj2 (Nat.ltb_lt i n) Hi). simpl.
    destruct (lookup_lt_is_Some_2 l i) as [x Hx]; [lia|]. rewrite Hx. by apply H.
  Qed.
  Lemma advl_usub a b (Φ : nat → list nat → list nat → Prop) σ l : b ≤ a → Φ (a - b) σ l → advl (usub a b) Φ σ l.
  Proof. intros Hb H. unfold usub. by rewrite (proj2 (Nat.leb_le b a) Hb). Qed.
  Lemma advl_is_less τ x y (Φ : bool → list nat → list nat → Prop) σ l :
    x ∈ σ ++ τ ∨ y ∈ σ ++ τ → Φ (lts (σ ++ τ) x y) (σ ++ τ) l → advl (is_less x y) Φ σ l.
  Proof. intros H1 H2. exists τ. split; [done|]. done. Qed.
End adv_rules.
Lemma asks_ret {A} Pq (a : A) : asks Pq (Ret a).
Proof. done. Qed.
Lemma asks_throw {A} Pq e : asks (A:=A) Pq (Throw e).
Proof. done. Qed.
Lemma asks_undef {A} Pq : asks (A:=A) Pq Undef.
Proof. done. Qed.
Lemma asks_nofuel {A} Pq : asks (A:=A) Pq NoFuel.
Proof. done. Qed.
Global Opaque advl asks.

Create HintDb asks.
Ltac asks_step :=
  match goal with
  | |- asks _ (bind _ _) => apply asks_bind; [|intros ?]
  | |- asks _ (on_unwind _ _) => apply asks_on_unwind
  | |- asks _ (Ret _) => apply asks_ret
  | |- asks _ (Throw _) => apply asks_throw
  | |- asks _ Undef => apply asks_undef
  | |- asks _ NoFuel => apply asks_nofuel
  | |- asks _ (is_less _ _) => apply asks_is_less; auto
  | |- asks _ (slice _ _ _ _) => apply asks_slice; intros ?
  | |- asks _ (match ?x with _ => _ end) => destruct x
  | |- asks _ (let '(_, _) := ?x in _) => destruct x
  | |- asks _ _ => solve [auto with asks]
  | |- asks _ _ => solve [apply asks_silent; auto using silent_get, silent_put, silent_uget, silent_uput, silent_uswap, silent_swap, silent_usub, silent_nonoverlapping, silent_dassert]
  end.
Ltac asks := repeat asks_step.

Section asks.
  Context (c : cfg) (Pq : nat * nat → Prop) (x : nat) (HP : ∀ y, Pq (y, x)).
  Notation ak := (asks Pq).
  Hint Resolve HP : asks core.

  Lemma trace_l_asks n elem i cnt acc : ak (trace_l n x elem i cnt acc).
  Proof. revert elem i acc. induction cnt; intros; simpl; asks. Qed.
  Lemma trace_r_asks n elem i cnt acc : ak (trace_r n x elem i cnt acc).
  Proof. revert elem i acc. induction cnt; intros; simpl; asks. Qed.
  Hint Resolve trace_l_asks trace_r_asks : asks.
  Lemma cycle_asks n l r cnt (tmp : nat) ol ls orr rs : ak (cycle n l r cnt tmp ol ls orr rs).
  Proof. revert ol ls orr rs. induction cnt; intros; simpl; asks. Qed.
  Hint Resolve cycle_asks : asks.
  Lemma exchange_asks n l r offl offr : ak (exchange n l r offl offr).
  Proof. unfold exchange. asks. Qed.
  Hint Resolve exchange_asks : asks.
  Lemma finish_l_asks n l r offs : ak (finish_l n l r offs).
  Proof. revert r. induction offs; intros; simpl; asks. Qed.
  Lemma finish_r_asks n l r offs : ak (finish_r n l r offs).
  Proof. revert l. induction offs; intros; simpl; asks. Qed.
  Hint Resolve finish_l_asks finish_r_asks : asks.
  Lemma width_asks l r : ak (width l r).
  Proof. unfold width. asks. Qed.
  Hint Resolve width_asks : asks.
  Lemma pib_loop_asks fuel n l r bl br offl offr : ak (pib_loop c fuel n x l r bl br offl offr).
  Proof. revert l r bl br offl offr. induction fuel; intros; [apply asks_nofuel|]. cbn [pib_loop]. cbv zeta. asks. Qed.
  Hint Resolve pib_loop_asks : asks.
  Lemma pib_asks n : ak (partition_in_blocks c n x).
  Proof. unfold partition_in_blocks. asks. Qed.
  Hint Resolve pib_asks : asks.
  Lemma pt_scan_l_asks fuel n l r : ak (pt_scan_l fuel n x l r).
  Proof. revert l r. induction fuel; intros; simpl; asks. Qed.
  Lemma pt_scan_r_asks fuel n l r : ak (pt_scan_r fuel n x l r).
  Proof. revert l r. induction fuel; intros; simpl; asks. Qed.
  Hint Resolve pt_scan_l_asks pt_scan_r_asks : asks.

  Definition partition_rest (n : nat) : cmp_prog nat (nat * bool) :=
    bind (on_unwind (uput n 0 x)
        (slice n 1 n (λ m,
           bind (pt_scan_l (S m) m x 0 m) (λ l,
           bind (pt_scan_r (S m) m x l m) (λ r,
           bind (slice m l r (λ w, partition_in_blocks c w x)) (λ k,
           Ret (l + k, r <=? l))))))) (λ '(mid, was_p),
    bind (uput n 0 x) (λ _,
    bind (swap n 0 mid) (λ _,
    Ret (mid, was_p)))).
  Lemma partition_rest_asks n : ak (partition_rest n).
  Proof. unfold partition_rest. asks. Qed.
End asks.

Lemma wp_both {T Q R A} (ans : Q → R → Prop) (p : prog T Q R A) Φ1 Φ2 E1 (E2 : exn → list T → Prop) l :
  wp ans p Φ1 E1 l → wp ans p Φ2 E2 l →
  wp ans p (λ a l', Φ1 a l' ∧ Φ2 a l') E2 l.
Proof.
  intros H1 H2. eapply wp_mono; [by apply (wp_conj ans ans ans p (λ _ _ H, H) (λ _ _ H, H) Φ1 Φ2 E1 E2)| |].
  - auto.
  - by intros e l' _ [_ ?].
Qed.

Section steps.
  Context (c : cfg).
  Implicit Types (σ l : list nat).

  Lemma upanic_lts σ l0 e l' : upanic (ans_lt (lts σ)) l0 e l' → False.
  Proof. intros (_ & (q & Hq) & _). done. Qed.

  (** A silent operation in front of something known by [wp]. *)
  Lemma advl_skip {A B} (p : cmp_prog nat A) (f : A → cmp_prog nat B) Φ E (Ψ : A → list nat → Prop)
      (Φ' : B → list nat → list nat → Prop) σ l :
    silent p → wp (ans_lt (lts σ)) (bind p f) Φ E l →
    wp (ans_lt (lts σ)) p Ψ (λ _ _, False) l →
    (∀ a l', length l' = length l → Ψ a l' → wp (ans_lt (lts σ)) (f a) Φ E l' → advl (f a) Φ' σ l') →
    advl (bind p f) Φ' σ l.
  Proof.
    intros Hs Hwp HΨ H. apply advl_bind. apply wp_bind_inv in Hwp.
    eapply advl_mono; [apply advl_wp; [by apply asks_silent|by eapply wp_both; [exact Hwp|exact HΨ]]|].
    simpl. intros a σ' l' Hl (-> & H1 & H2). by apply H.
  Qed.

  Lemma advl_partition n pivot σ l x :
    n = length l → l !! pivot = Some x → x ∈ σ →
    advl (MPartition.partition c n pivot)
      (λ '(mid, _) σ' l', σ' = σ ∧ l' ≡ₚ l ∧ mid < n ∧
         Forall (λ y, lts σ y x = false) (drop (S mid) l') ∧ l' !! mid = Some x) σ l.
  Proof.
    intros Hn Hx Hin.
    pose proof (lookup_lt_Some _ _ _ Hx) as Hpl.
    pose proof (partition_spec c (ans_lt (lts σ)) n pivot l x Hn Hx) as Hwp.
    unfold MPartition.partition in *.
    eapply advl_skip; [apply silent_swap|exact Hwp| |].
    { apply (wp_swap _ n 0 pivot (λ _ l', l' = swapl 0 pivot l)); [lia|lia|lia|done]. }
    clear Hwp. intros [] l1 Hl1 -> Hwp.
    eapply advl_skip; [|exact Hwp| |].
    { apply silent_slice_check. }
    { apply (wp_slice_check _ n 0 1 (λ _ l', l' = swapl 0 pivot l)); [lia|lia|lia|done]. }
    clear Hwp. intros [] l2 _ -> Hwp.
    eapply advl_skip; [apply silent_get|exact Hwp| |].
    { apply (wp_get _ n 0 (λ y l', l' = swapl 0 pivot l ∧ y = x)); [lia|lia|].
      intros y Hy. split; [done|]. rewrite lookup_swapl in Hy by lia.
      rewrite decide_True in Hy by done. congruence. }
    clear Hwp. intros y l3 _ [-> ->] Hwp.
    change (bind (on_unwind _ _) _) with (partition_rest c x n) in *.
    eapply advl_mono; [apply advl_wp; [apply partition_rest_asks; simpl; auto|]|].
    { eapply wp_mono; [exact Hwp| |].
      - intros a l' Hl' Ha. exact (conj Hl' Ha).
      - intros e l' _ Hu. by eapply upanic_lts. }
    simpl. intros [mid was] σ' l' Hl' (-> & _ & Hp & Hm & H1 & H2).
    pose proof (lookup_lt_Some _ _ _ Hm).
    rewrite swapl_length in Hl'.
    split; [done|]. split; [done|]. split; [lia|]. split; [|done].
    apply rng_drop in H2; [|lia]. eapply Forall_impl; [exact H2|].
    intros z Hz. apply (Hz (lts σ)); [apply lts_swo|]. intros a b r [= ->]. done.
  Qed.

  (** The adversary makes sure that the greater of two elements is frozen. *)
  Lemma advl_sort2 n a b s σ l :
    n ≤ length l → a < n → b < n →
    advl (sort2 n a b s)
      (λ '(a', b', _) σ' l', l' = l ∧ (∃ τ, σ' = σ ++ τ) ∧ length σ' ≤ length σ + 1 ∧
         a' < n ∧ b' < n ∧ ∃ x, l !! b' = Some x ∧ x ∈ σ') σ l.
  Proof.
    intros Hn Ha Hb. unfold sort2.
    apply advl_bind, advl_uget; [done..|]. intros x Hx.
    apply advl_bind, advl_uget; [done..|]. intros y Hy.
    apply advl_bind.
    destruct (decide (x ∈ σ ∨ y ∈ σ)) as [Hin|Hin].
    - apply (advl_is_less []); rewrite app_nil_r; [done|]. apply advl_ret.
      destruct (lts σ x y) eqn:Hl.
      + split; [done|]. split; [exists []; by rewrite app_nil_r|]. split; [lia|].
        split; [done|]. split; [done|]. exists y. split; [done|].
        unfold lts in Hl. apply Nat.ltb_lt in Hl.
        destruct (decide (y ∈ σ)) as [|Hny]; [done|]. rewrite (rk_notin σ y) in Hl by done.
        pose proof (rk_le σ x). lia.
      + split; [done|]. split; [exists []; by rewrite app_nil_r|]. split; [lia|].
        split; [done|]. split; [done|]. exists x. split; [done|].
        unfold lts in Hl. apply Nat.ltb_ge in Hl.
        destruct (decide (x ∈ σ)) as [|Hnx]; [done|]. rewrite (rk_notin σ x) in Hl by done.
        destruct Hin as [?|Hin]; [done|]. apply rk_in in Hin. lia.
    - apply (advl_is_less [x]); [left; apply elem_of_app; right; left|]. apply advl_ret.
      assert (lts (σ ++ [x]) x y = false) as ->.
      { unfold lts. apply Nat.ltb_ge. rewrite !rk_app_notin by tauto. simpl.
        rewrite Nat.eqb_refl. lia. }
      split; [done|]. split; [by eexists|]. split; [rewrite app_length; simpl; lia|].
      split; [done|]. split; [done|]. exists x. split; [done|].
      apply elem_of_app. right. left.
  Qed.

  Lemma ext_trans σ1 σ2 σ3 : (∃ τ, σ2 = σ1 ++ τ) → (∃ τ, σ3 = σ2 ++ τ) → ∃ τ : list nat, σ3 = σ1 ++ τ.
  Proof. intros [τ ->] [ρ ->]. exists (τ ++ ρ). by rewrite (assoc_L (++)). Qed.

  Lemma advl_sort3 n a b d s σ l :
    n ≤ length l → a < n → b < n → d < n →
    advl (sort3 n a b d s)
      (λ '(a', b', d', _) σ' l', l' = l ∧ length σ' ≤ length σ + 3 ∧
         b' < n ∧ ∃ x, l !! b' = Some x ∧ x ∈ σ') σ l.
  Proof.
    intros Hn Ha Hb Hd. unfold sort3.
    apply advl_bind. eapply advl_mono; [by apply advl_sort2|]. cbv beta.
    intros [[a1 b1] s1] σ1 l1 _ (-> & _ & Hσ1 & Ha1 & Hb1 & _).
    apply advl_bind. eapply advl_mono; [by apply advl_sort2|]. cbv beta.
    intros [[b2 d2] s2] σ2 l2 _ (-> & _ & Hσ2 & Hb2 & Hd2 & _).
    apply advl_bind. eapply advl_mono; [by apply advl_sort2|]. cbv beta.
    intros [[a3 b3] s3] σ3 l3 _ (-> & _ & Hσ3 & Ha3 & Hb3 & Hx).
    apply advl_ret. split; [done|]. split; [lia|]. done.
  Qed.
  Lemma advl_sort_adjacent n a s σ l :
    n ≤ length l → 0 < a → a + 1 < n →
    advl (sort_adjacent n a s)
      (λ '(a', _) σ' l', l' = l ∧ length σ' ≤ length σ + 3 ∧ a' < n) σ l.
  Proof.
    intros Hn Ha Han. unfold sort_adjacent. apply advl_bind, advl_usub; [lia|].
    apply advl_bind. eapply advl_mono; [apply advl_sort3; lia|]. cbv beta.
    intros [[[a1 b1] d1] s1] σ1 l1 _ (-> & Hσ & Hb & _). apply advl_ret. auto.
  Qed.

  Lemma advl_choose_pivot n σ l :
    n = length l → 8 ≤ n →
    advl (choose_pivot n)
      (λ '(p, _) σ' l', l' ≡ₚ l ∧ length σ' ≤ length σ + 12 ∧
         ∃ x, l' !! p = Some x ∧ x ∈ σ') σ l.
  Proof.
    intros Hn H8. unfold choose_pivot.
    pose proof (Nat.div_mod n 4). pose proof (Nat.mod_upper_bound n 4).
    set (q := n / 4) in *. clearbody q.
    apply advl_bind. rewrite (proj2 (Nat.leb_le 8 n) H8). apply advl_bind.
    apply (advl_mono _ (λ '(a, b, d, _) σ' l', l' = l ∧ length σ' ≤ length σ + 9 ∧
             a < n ∧ b < n ∧ d < n)).
    { unfold SHORTEST_MEDIAN_OF_MEDIANS. destruct (Nat.leb_spec 50 n).
      - apply advl_bind. eapply advl_mono; [apply advl_sort_adjacent; lia|]. cbv beta.
        intros [a1 s1] σ1 l1 _ (-> & Hσ1 & Ha).
        apply advl_bind. eapply advl_mono; [apply advl_sort_adjacent; lia|]. cbv beta.
        intros [a2 s2] σ2 l2 _ (-> & Hσ2 & Hb).
        apply advl_bind. eapply advl_mono; [apply advl_sort_adjacent; lia|]. cbv beta.
        intros [a3 s3] σ3 l3 _ (-> & Hσ3 & Hd). apply advl_ret.
        split; [done|]. lia.
      - apply advl_ret. split; [done|]. lia. }
    intros [[[a b] d] s] σ1 l1 _ (-> & Hσ1 & Ha & Hb & Hd).
    apply advl_bind. eapply advl_mono; [apply advl_sort3; lia|]. cbv beta.
    intros [[[a2 b2] d2] s2] σ2 l2 _ (-> & Hσ2 & Hb2 & x & Hx & Hin). apply advl_ret.
    destruct (s2 <? MAX_SWAPS).
    - apply advl_ret. split; [done|]. split; [lia|]. eauto.
    - apply advl_bind. eapply advl_mono; [apply advl_wp|]; cbv beta.
      { apply asks_silent, reverse_silent. }
      { by apply reverse_spec. }
      intros [] σ3 l3 _ [-> ->].
      apply advl_bind, advl_usub; [lia|]. apply advl_bind, advl_usub; [lia|]. apply advl_ret.
      split; [symmetry; apply Permutation_rev|]. split; [lia|]. exists x. split; [|done].
      rewrite lookup_rev by lia. rewrite <-Hx. f_equal. lia.
  Qed.

  Lemma adv_before {A B} (p : cmp_prog nat A) (f : A → cmp_prog nat B) b σ l :
    adv p b σ l →
    (∀ a l' lt, length l' = length l → wp (ans_lt lt) (f a) (λ _ _, True) (λ _ _, False) l') →
    adv (bind p f) b σ l.
  Proof.
    intros [τ Hτ] Hf. exists τ. intros g0. apply wpg_bind.
    eapply wpg_mono; [apply Hτ| |done]. cbv beta. intros a g l' Hl Hg.
    eapply wpg_mono; [eapply wpg_grow; [exact Hg|by apply Hf]| |]; cbv beta.
    - by intros ? ? ? _ [? _].
    - by intros ? ? ? _ [_ ?].
  Qed.

  Lemma frozen_part σ l x :
    x ∈ σ → NoDup l → Forall (λ y, lts σ y x = false) l → length l ≤ length σ.
  Proof.
    intros Hx Hnd Hl. apply submseteq_length, NoDup_submseteq; [done|]. intros y Hy.
    pose proof (proj1 (Forall_forall _ _) Hl y Hy) as H. simpl in H.
    destruct (decide (y ∈ σ)) as [|Hn]; [done|]. unfold lts in H.
    rewrite (rk_notin _ _ Hn) in H. apply Nat.ltb_ge in H. apply rk_in in Hx. lia.
  Qed.

  Lemma adv_pai B F M index :
    (∀ n σ l, n = length l → M ≤ n → NoDup l → length σ ≤ F →
       adv (median_of_medians c (S (bit_length n)) n index) B σ l) →
    index < M → 8 * F + 16 ≤ M →
    ∀ fuel limit (wb : bool) n σ l,
    n = length l → n < fuel → NoDup l →
    length σ + 12 * (limit + (if wb then 1 else 0)) ≤ F →
    M + F * (limit + (if wb then 1 else 0)) ≤ n →
    adv (pai_loop c fuel n index None limit wb) B σ l.
  Proof.
    intros Hmom Hidx HM.
    induction fuel as [|f IH]; intros limit wb n σ l Hn Hf Hnd Hσ HnM; [lia|].
    cbn [pai_loop]. unfold SEL_MAX_INSERTION.
    destruct (Nat.leb_spec n 10); [lia|].
    destruct (Nat.eqb_spec limit 0) as [->|Hlim].
    { apply Hmom; [done|lia|done|lia]. }
    apply adv_bind.
    apply (advl_mono _ (λ limit' σ' l', σ' = σ ∧ l' ≡ₚ l ∧
             limit' + 1 = limit + (if wb then 1 else 0))).
    { destruct wb.
      - apply advl_ret. split; [done|]. split; [done|]. lia.
      - apply advl_bind. eapply advl_mono; [apply advl_wp|]; cbv beta.
        + apply asks_silent, break_patterns_silent.
        + by apply break_patterns_spec.
        + intros [] σ' l' _ [-> Hp]. apply advl_usub; [lia|]. split; [done|]. split; [done|]. lia. }
    intros limit' σ1 l1 Hl1 (-> & Hp1 & Hlim').
    apply adv_bind.
    eapply advl_mono; [apply (advl_choose_pivot n σ l1); lia|]. cbv beta.
    intros [pivot ?] σ2 l2 Hl2 (Hp2 & Hσ2 & x & Hx & Hin).
    apply adv_bind, advl_ret.
    apply adv_bind.
    eapply advl_mono; [apply (advl_partition n pivot σ2 l2 x); [lia|done|done]|]. cbv beta.
    intros [mid ?] σ3 l3 Hl3 (-> & Hp3 & Hmid & Hr & Hm).
    assert (Hnd3 : NoDup l3) by (rewrite Hp3, Hp2, Hp1; done).
    assert (Hnm : n - mid ≤ length σ2).
    { pose proof (bound_split l3 mid x Hm) as Hs.
      assert (NoDup (drop mid l3)) as Hndd.
      { rewrite <-(take_drop mid l3) in Hnd3. by apply NoDup_app in Hnd3 as (_ & _ & ?). }
      replace (n - mid) with (length (drop mid l3)) by (rewrite drop_length; lia).
      apply (frozen_part _ _ x); [done|done|].
      rewrite (drop_S _ _ _ Hm). constructor; [|done].
      unfold lts. apply Nat.ltb_irrefl. }
    assert (Hst : F * (limit + (if wb then 1 else 0)) = F * limit' + F).
    { rewrite <-Hlim'. lia. }
    apply adv_bind, advl_usub; [lia|].
    assert (n / 8 <=? Nat.min mid (n - mid) = false) as ->.
    { apply Nat.leb_gt. assert (F + 2 ≤ n / 8) by (apply Nat.div_le_lower_bound; lia). lia. }
    apply adv_bind. eapply advl_mono; [apply advl_wp|]; cbv beta.
    { apply asks_slice. intros ?. apply asks_silent, silent_slice_check. }
    { apply (wp_slice _ n mid n _ (λ _ l', l' = l3)); [lia|lia|lia|].
      apply wp_slice_check; [lia|lia| |].
      - rewrite take_length, drop_length. lia.
      - intros _. rewrite (take_ge (drop mid l3)) by (rewrite drop_length; lia).
        rewrite (drop_ge _ n) by lia.
        rewrite app_nil_r. apply take_drop. }
    intros [] σ3 l4 _ [-> ->].
    apply adv_bind. eapply advl_mono; [apply advl_wp|]; cbv beta.
    { apply asks_silent, silent_get. }
    { apply (wp_get _ n mid (λ _ l', l' = l3)); [lia|lia|done]. }
    intros p σ3 l4 _ [-> ->].
    destruct (Nat.compare_spec mid index); [lia|lia|].
    apply adv_slice; [lia|lia|lia|]. rewrite Nat.sub_0_r, drop_0.
    apply IH; [rewrite take_length; lia|lia| |lia|lia].
    rewrite <-(take_drop mid l3) in Hnd3. by apply NoDup_app in Hnd3 as (? & _ & _).
  Qed.
End steps.

Section refuted.
  Context (c : cfg) (Hdbg : dbg c = false) (Hzst : zst c = false).

  Lemma fz_frozen σ l : NoDup l → fz (gas σ) l ≤ length σ.
  Proof.
    intros Hnd. unfold fz. apply submseteq_length, NoDup_submseteq; [by apply NoDup_filter|].
    intros y [Hg _]%elem_of_list_filter.
    destruct (decide (y ∈ σ)) as [|Hn]; [done|]. apply gas_spec in Hn. congruence.
  Qed.

  Lemma adv_mom F j s :
    let C := level_const F j in 10 < s → C ≤ s →
    ∀ n σ l, n = length l → 2 * s + F + 1 ≤ n → NoDup l → length σ ≤ F →
    adv (median_of_medians c (S (bit_length n)) n s) (s * (s ^ S j / C)) σ l.
  Proof.
    intros C Hs HCs n σ l Hn Hsn Hnd Hσ. exists []. rewrite app_nil_r. intros g0.
    pose proof (level_const_pos F j) as HC. fold C in HC.
    rewrite median_of_medians_unfold. unfold dassert. rewrite Hdbg, Hzst. cbn [andb negb].
    apply wpg_bind, wpg_ret, wpg_bind, wpg_ret.
    pose proof (bit_length_spec n) as Hbl. destruct (bit_length n) as [|d]; [simpl in Hbl; lia|].
    pose proof (fz_frozen σ l Hnd) as Hfz. pose proof (gs_fz (gas σ) l) as Hgf.
    eapply wpg_mono; [apply (mom_low c Hdbg Hzst (lts σ) (lts_swo σ) (gas σ) (gas_gas σ) (gas_fro σ) _ _ n s l s
      (s ^ S j / C) F g0 Hn)| |done]; cbv beta.
    - lia.
    - lia.
    - lia.
    - lia.
    - intros m k Hm Hk. apply (mom_spec c Hzst); [|done].
      pose proof (Nat.div_mod n 12). pose proof (Nat.mod_upper_bound n 12). simpl in Hbl. lia.
    - intros m g Hm1 Hm2 Hm3.
      eapply wpg_mono; [apply (levels c Hdbg Hzst (lts σ) (lts_swo σ) (gas σ) (gas_gas σ) (gas_fro σ) F j d m g)| |done]; cbv beta.
      + lia.
      + pose proof (Nat.div_mod (length m) 12). pose proof (Nat.mod_upper_bound (length m) 12).
        simpl in Hbl. lia.
      + done.
      + intros p g' l' _ (Hg & Hgg & Hsp). split; [|done].
        assert (s ^ S j / C ≤ g' - g); [|lia].
        apply Nat.div_le_upper_bound; [lia|]. etrans; [|exact Hg].
        by apply Nat.pow_le_mono_l.
    - intros [] g l' _ [Hg _]. done.
  Qed.

  Definition cmp_rk (σ : list nat) (x y : nat) : comparison := Nat.compare (rk σ y) (rk σ x).
  Lemma is_lt_cmp_rk σ x y : is_lt (cmp_rk σ) x y = lts σ x y.
  Proof.
    unfold is_lt, cmp_rk, lts. destruct (Nat.compare_spec (rk σ y) (rk σ x)), (Nat.ltb_spec (rk σ y) (rk σ x)); auto; lia.
  Qed.
  Lemma cmp_rk_swo σ : strict_weak_order (is_lt (cmp_rk σ)).
  Proof.
    destruct (lts_swo σ) as [H1 H2 H3]. split.
    - intros x. by rewrite is_lt_cmp_rk.
    - intros x y z. rewrite !is_lt_cmp_rk. apply H2.
    - intros x y z. rewrite !is_lt_cmp_rk. apply H3.
  Qed.

  Lemma adv_select F j s n l :
    12 * 17 ≤ F → 10 < s → level_const F j ≤ s → n = 2 * s + 26 * F + 16 →
    n = length l → NoDup l →
    adv (partition_at_index c n s) (s * (s ^ S j / level_const F j)) [] l.
  Proof.
    intros HF Hs HC Hn Hl Hnd.
    unfold partition_at_index.
    destruct (Nat.leb_spec n s); [lia|]. rewrite Hzst.
    destruct (Nat.eqb_spec s (n - 1)); [lia|]. destruct (Nat.eqb_spec s 0); [lia|].
    apply adv_before.
    - unfold partition_at_index_loop, SEL_LIMIT.
      apply (adv_pai c _ F (2 * s + 9 * F + 16) s).
      + intros m σ l' Hm HM Hnd' Hσ. apply (adv_mom F j s); [done|done|done|lia|done|done].
      + lia.
      + lia.
      + done.
      + lia.
      + done.
      + cbn [length]. lia.
      + lia.
    - intros [] l' lt Hl'. unfold split_at, index0. cbn [fst snd].
      destruct (Nat.leb_spec s n); [|lia]. apply wp_bind, wp_ret.
      cbn [fst snd]. destruct (Nat.leb_spec 1 (n - s)); [|lia]. apply wp_bind, wp_ret.
      cbn [fst snd]. apply wp_bind. apply wp_ret. by apply wp_ret.
  Qed.

  Lemma select_superpolynomial (K d : nat) :
    ∃ (cmp : nat → nat → comparison) (l : list nat) (index : nat),
      strict_weak_order (is_lt cmp) ∧ index < length l ∧
      let '(_, (_, tr), _) :=
        run (logged (pure_compare cmp)) (select_nth_unstable_by c (length l) index) (tt, []) l in
      K * length l ^ d < length tr.
  Proof.
    assert (∃ F, F = 12 * 17) as [F HF] by eauto.
    set (C := level_const F d). pose proof (level_const_pos F d) as HC. fold C in HC.
    set (pad := 26 * F + 16).
    assert (∃ s, s = 11 + pad + C + 2 * C * K * 3 ^ d) as [s Hs] by eauto.
    assert (∃ n, n = 2 * s + 26 * F + 16) as [n Hn] by eauto.
    destruct (adv_select F d s n (seq 0 n)) as [σ Hσ];
      [lia|lia|fold C; lia|done|by rewrite seq_length|apply NoDup_seq|].
    fold C in Hσ. simpl app in Hσ.
    assert (Hns : n ≤ 3 * s) by lia. clearbody pad C. clear HF.
    exists (cmp_rk σ), (seq 0 n), s. rewrite seq_length.
    split; [apply cmp_rk_swo|]. split; [lia|].
    pose proof (wpg_run_compare (ans_lt (lts σ)) (pure_compare (cmp_rk σ)) _ _ _ tt (seq 0 n)
      ltac:(intros ? [x y]; rewrite less_of_pure_compare; unfold pure_less, ans_lt; simpl;
            by rewrite is_lt_cmp_rk) (Hσ 0)) as H.
    unfold select_nth_unstable_by.
    destruct (run _ _ _ _) as [[[a|e| |] [s' tr]] l']; try done. cbv beta in H. rewrite Nat.add_0_l in H.
    set (B := s ^ S d / C) in *.
    assert (HB : s ^ S d ≤ 2 * C * B).
    { unfold B. pose proof (Nat.div_mod (s ^ S d) C) as H1.
      pose proof (Nat.mod_upper_bound (s ^ S d) C) as H2.
      assert (C ≤ s ^ S d).
      { etrans; [|apply (Nat.pow_le_mono_r s 1 (S d)); lia]. rewrite Nat.pow_1_r. lia. }
      assert (1 ≤ s ^ S d / C) by (apply Nat.div_le_lower_bound; lia). nia. }
    assert (Hnd : n ^ d ≤ 3 ^ d * s ^ d).
    { rewrite <-Nat.pow_mul_l. by apply Nat.pow_le_mono_l. }
    assert (Hs1 : 2 * C * K * 3 ^ d < s) by lia.
    assert (Hp : 1 ≤ s ^ d).
    { apply Nat.neq_0_lt_0, Nat.pow_nonzero. lia. }
    clear Hs Hn. clearbody B. clear Hσ.
    assert (2 * C * (K * n ^ d) < 2 * C * (s * B)) as Hlt.
    2: { apply (Nat.lt_le_trans _ (s * B)); [|done]. by apply (Nat.mul_lt_mono_pos_l (2 * C)); [lia|]. }
    assert (2 * C * (K * n ^ d) ≤ 2 * C * K * 3 ^ d * s ^ d).
    { assert (2 * C * K * n ^ d ≤ 2 * C * K * (3 ^ d * s ^ d)) by (by apply Nat.mul_le_mono_l). lia. }
    assert (2 * C * K * 3 ^ d * s ^ d < s * s ^ d) by (apply Nat.mul_lt_mono_pos_r; lia).
    assert (s * s ^ d ≤ s * (2 * C * B)); [|lia].
    etrans; [exact HB|]. nia.
  Qed.
End refuted.
