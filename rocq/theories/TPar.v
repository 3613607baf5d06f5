(** * From [wp] triples to statements about every schedule; proofs of the
    theorems of PropPar.v. *)
From Verif Require Export Footprint PPar Top TSelect.
From stdpp Require Import list.

Local Transparent wp.
Local Arguments wp {T Q R A} ans !p Φ E l.

Section lift.
  Context {T : Type}.
  Implicit Types (l : list T).

  (** What the closure [|a, b| compare(a, b) == Less] answers if [compare]
      answers as [ans] says. *)
  Definition less_ans (ans : T * T → option comparison → Prop) (q : T * T) (r : option bool) : Prop :=
    ∃ r0, ans q r0 ∧
      r = match r0 with Some Lt => Some true | Some _ => Some false | None => None end.
  (** ... and [|a, b| f(a).lt(&f(b))]. *)
  Definition less_key_ans {K} (ans : key_question K → key_answer K → Prop)
      (q : T * T) (r : option bool) : Prop :=
    (∃ k1 k2 b, ans (KeyOf q.1) (AKey k1) ∧ ans (KeyOf q.2) (AKey k2) ∧
       ans (KeyLt k1 k2) (ABool b) ∧ r = Some b) ∨
    r = None ∧ ∃ kq kr, ans kq kr ∧
      match kq, kr with KeyOf _, AKey _ => False | KeyLt _ _, ABool _ => False | _, _ => True end.

  Lemma es_less {A} n (p : cmp_prog T A) ans l Φ E :
    (∀ q, ∃ r, ans q r) → within n p → wp ans p Φ E l → every_schedule ans p l Φ E.
  Proof. intros. by eapply wp_every_schedule. Qed.

  Lemma wp_by_compare {A} (p : cmp_prog T A) ans l Φ E :
    wp (less_ans ans) p Φ E l → wp ans (by_compare p) Φ E l.
  Proof.
    apply wp_with_asks. intros q Φ' E' l' HΦ. cbn. intros r Hr. apply HΦ. exists r. done.
  Qed.
  Lemma wp_by_key {A K} (p : cmp_prog T A) (ans : key_question K → key_answer K → Prop) l Φ E :
    wp (less_key_ans ans) p Φ E l → wp ans (by_key p) Φ E l.
  Proof.
    apply wp_with_asks. intros [a b] Φ' E' l' HΦ. cbn. intros [ka| |] Hka; cbn.
    2-3: apply HΦ; right; split; [done|]; eexists _, _; split; [exact Hka|done].
    intros [kb| |] Hkb; cbn.
    2-3: apply HΦ; right; split; [done|]; eexists _, _; split; [exact Hkb|done].
    intros [|v|] Hv; cbn.
    1,3: apply HΦ; right; split; [done|]; eexists _, _; split; [exact Hv|done].
    apply HΦ. left. eauto 10.
  Qed.
  Lemma es_by_compare {A} n (p : cmp_prog T A) ans l Φ E :
    (∀ q, ∃ r, ans q r) → within n p → wp (less_ans ans) p Φ E l →
    every_schedule ans (by_compare p) l Φ E.
  Proof.
    intros Ht Hw Hwp. eapply wp_every_schedule; [done|by apply within_by_compare|].
    by apply wp_by_compare.
  Qed.
  Lemma es_by_key {A K} n (p : cmp_prog T A) (ans : key_question K → key_answer K → Prop) l Φ E :
    (∀ q, ∃ r, ans q r) → within n p → wp (less_key_ans ans) p Φ E l →
    every_schedule ans (by_key p) l Φ E.
  Proof.
    intros Ht Hw Hwp. eapply wp_every_schedule; [done|by apply (within_by_key n)|].
    by apply wp_by_key.
  Qed.

  Lemma upanic_lt lt l e l' : ¬ upanic (ans_lt lt) l e l'.
  Proof. by intros (_ & (q & Hq) & _). Qed.
End lift.

(** [compare] is the function [cmp]. *)
Definition ans_cmp {T} (cmp : T → T → comparison) (q : T * T) (r : option comparison) : Prop :=
  r = Some (cmp q.1 q.2).
(** The key closure is [f], and [ltk] is the order of the keys. *)
Definition ans_key {T K} (f : T → K) (ltk : K → K → bool) (q : key_question K) (r : key_answer K) : Prop :=
  r = match q with KeyOf a => AKey (f a) | KeyLt k1 k2 => ABool (ltk k1 k2) end.

Section pure.
  Context {T : Type}.
  Implicit Types (l : list T).
  Lemma ans_lt_total (lt : T → T → bool) q : ∃ r, ans_lt lt q r.
  Proof. by eexists. Qed.
  Lemma ans_cmp_total (cmp : T → T → comparison) q : ∃ r, ans_cmp cmp q r.
  Proof. by eexists. Qed.
  Lemma ans_key_total {K} (f : T → K) ltk q : ∃ r, ans_key f ltk q r.
  Proof. by eexists. Qed.
  Lemma less_ans_cmp (cmp : T → T → comparison) q r :
    less_ans (ans_cmp cmp) q r → ans_lt (is_lt cmp) q r.
  Proof. intros (r0 & -> & ->). unfold ans_lt, is_lt. by destruct (cmp q.1 q.2). Qed.
  Lemma less_ans_key {K} (f : T → K) ltk q r :
    less_key_ans (ans_key f ltk) q r → ans_lt (λ a b, ltk (f a) (f b)) q r.
  Proof.
    intros [(k1 & k2 & b & H1 & H2 & H3 & ->)|(-> & kq & kr & Hk & Hn)].
    - unfold ans_key in *. injection H1 as ->. injection H2 as ->. injection H3 as ->. done.
    - unfold ans_key in Hk. subst. by destruct kq.
  Qed.
  (** A triple for the order [lt] gives the schedules of all three entry points. *)
  Lemma es_cmp {A} n (p : cmp_prog T A) cmp l Φ E :
    within n p → wp (ans_lt (is_lt cmp)) p Φ E l → every_schedule (ans_cmp cmp) (by_compare p) l Φ E.
  Proof.
    intros Hw Hwp. eapply es_by_compare; [apply ans_cmp_total|done|].
    eapply wp_mono_ans; [apply less_ans_cmp|exact Hwp|done|done].
  Qed.
  Lemma es_key {A K} n (p : cmp_prog T A) (f : T → K) ltk l Φ E :
    within n p → wp (ans_lt (λ a b, ltk (f a) (f b))) p Φ E l →
    every_schedule (ans_key f ltk) (by_key p) l Φ E.
  Proof.
    intros Hw Hwp. eapply es_by_key; [apply ans_key_total|done|].
    eapply wp_mono_ans; [apply less_ans_key|exact Hwp|done|done].
  Qed.
End pure.

Section sort.
  Context {T : Type} (c : cfg).
  Implicit Types (l : list T).

  Lemma par_quick_sort_wp ans l :
    wp ans (par_quick_sort c (length l)) (λ _ l', l' ≡ₚ l ∧ (zst c = false → ksorted ans l'))
      (upanic ans l) l.
  Proof.
    destruct (zst c) eqn:Hz.
    - unfold par_quick_sort. rewrite Hz. by apply wp_ret.
    - eapply wp_mono; [by apply par_quick_sort_spec| |auto]. intros [] l' _ [??]. auto.
  Qed.
  Lemma par_quick_sort_lt lt l :
    strict_weak_order lt → (zst c = true → ∀ x y : T, x = y) →
    wp (ans_lt lt) (par_quick_sort c (length l))
      (λ _ l', Permutation l l' ∧ sorted_wrt lt l') (λ _ _, False) l.
  Proof.
    intros Hs Hz. eapply wp_mono; [apply par_quick_sort_wp| |].
    - intros [] l' _ [Hp Hso]. split; [by symmetry|].
      destruct (zst c); [by apply one_element_sorted; auto|]. apply ksorted_sorted; auto.
    - intros e l' _ Hu. by eapply upanic_lt.
  Qed.
  Lemma par_quick_sort_any ans l :
    wp ans (par_quick_sort c (length l))
      (λ _ l', Permutation l l')
      (λ e l', e = UserPanic ∧ (∃ q, ans q None) ∧ Permutation l l') l.
  Proof.
    eapply wp_mono; [apply par_quick_sort_wp| |].
    - intros [] l' _ [Hp _]. by symmetry.
    - intros e l' _ (-> & Hq & Hp). by symmetry in Hp.
  Qed.

  Lemma par_sort_unstable_schedules lt l :
    strict_weak_order lt → (zst c = true → ∀ x y : T, x = y) →
    every_schedule (ans_lt lt) (par_sort_unstable c (length l)) l
      (λ _ l', Permutation l l' ∧ sorted_wrt lt l') (λ _ _, False).
  Proof.
    intros. eapply es_less; [apply ans_lt_total|apply within_par_quick_sort|].
    by apply par_quick_sort_lt.
  Qed.
  Lemma par_sort_unstable_by_schedules cmp l :
    strict_weak_order (is_lt cmp) → (zst c = true → ∀ x y : T, x = y) →
    every_schedule (ans_cmp cmp) (par_sort_unstable_by c (length l)) l
      (λ _ l', Permutation l l' ∧ sorted_wrt (is_lt cmp) l') (λ _ _, False).
  Proof.
    intros. eapply es_cmp; [apply within_par_quick_sort|]. by apply par_quick_sort_lt.
  Qed.
  Lemma par_sort_unstable_by_key_schedules {K} (f : T → K) ltk l :
    strict_weak_order (λ a b, ltk (f a) (f b)) → (zst c = true → ∀ x y : T, x = y) →
    every_schedule (ans_key f ltk) (par_sort_unstable_by_key c (length l)) l
      (λ _ l', Permutation l l' ∧ sorted_wrt (λ a b, ltk (f a) (f b)) l') (λ _ _, False).
  Proof.
    intros. eapply es_key; [apply within_par_quick_sort|]. by apply par_quick_sort_lt.
  Qed.
  Lemma less_ans_none (ans : T * T → option comparison → Prop) :
    (∃ q, less_ans ans q None) → ∃ q, ans q None.
  Proof. intros (q & [[]|] & Hq & Hr); try done. eauto. Qed.
  Lemma par_sort_unstable_by_any_schedules ans l :
    (∀ q, ∃ r, ans q r) →
    every_schedule ans (par_sort_unstable_by c (length l)) l
      (λ _ l', Permutation l l')
      (λ e l', e = UserPanic ∧ (∃ q, ans q None) ∧ Permutation l l').
  Proof.
    intros Ht. eapply es_by_compare; [done|apply within_par_quick_sort|].
    eapply wp_mono; [apply par_quick_sort_any|auto|].
    intros e l' _ (-> & Hq & Hp). split; [done|]. split; [by apply less_ans_none|done].
  Qed.
  Lemma par_sort_unstable_by_key_any_schedules {K} (ans : key_question K → key_answer K → Prop) l :
    (∀ q, ∃ r, ans q r) →
    every_schedule ans (par_sort_unstable_by_key c (length l)) l
      (λ _ l', Permutation l l') (λ e l', e = UserPanic ∧ Permutation l l').
  Proof.
    intros Ht. eapply es_by_key; [done|apply within_par_quick_sort|].
    eapply wp_mono; [apply par_quick_sort_any|auto|].
    intros e l' _ (-> & Hq & Hp). done.
  Qed.
End sort.

Section select.
  Context {T : Type} (c : cfg).
  Implicit Types (l : list T).

  Lemma par_select_many_lt lt vlen inds l :
    dbg c = false → fits c (length l) → valid_indices 0 (length l) inds → length inds ≤ vlen →
    strict_weak_order lt → (zst c = true → ∀ x y : T, x = y) →
    wp (ans_lt lt) (par_select_many c (length l) vlen inds)
      (λ r l', r = map Some inds ∧ Permutation l l' ∧
         Forall (λ i, ∃ x, placed lt l' i x ∧ order_statistic lt l i x) inds)
      (λ _ _, False) l.
  Proof.
    intros Hd Hf Hv Hl Hs Hz.
    eapply wp_mono; [by apply par_select_many_spec| |].
    - intros r l' _ (Hp & _ & -> & Hsel). split; [done|]. split; [by symmetry|].
      assert (Hpl : Forall (λ i, ∃ x, placed lt l' i x) inds).
      { destruct (zst c).
        - destruct Hv as [_ Hv]. eapply Forall_impl; [exact Hv|]. intros i Hi. simpl in Hi.
          apply one_element_placed; auto. apply Permutation_length in Hp. simpl in Hi. lia.
        - eapply Forall_impl; [by apply Hsel|]. intros i. by apply selected_placed. }
      eapply Forall_impl; [exact Hpl|]. intros i [x Hx]. exists x. split; [done|].
      by apply (placed_order_statistic lt l l').
    - intros e l' _ [Hp [Hsp|[_ Hn]]]; [|done].
      eapply upanic_lt. by eapply spanic_release.
  Qed.
  Lemma par_select_many_all ans vlen inds l :
    fits c (length l) → length inds ≤ vlen →
    wp ans (par_select_many c (length l) vlen inds)
      (λ r l', valid_indices 0 (length l) inds ∧ r = map Some inds ∧ Permutation l l')
      (λ e l', Permutation l l' ∧
         (e = UserPanic ∧ (∃ q, ans q None) ∨ e = DebugPanic ∧ dbg c = true ∨
          ¬ valid_indices 0 (length l) inds ∧ (e = AssertPanic ∨ e = OverflowPanic ∧ ovf c = true))) l.
  Proof.
    intros Hf Hl. eapply wp_mono; [by apply par_select_many_spec| |].
    - intros r l' _ (Hp & Hv & -> & _). split; [done|]. split; [done|by symmetry].
    - intros e l' _ [Hp He]. split; [by symmetry|].
      destruct He as [[_ [[-> ?]|[-> ?]]]|[[->|[-> ?]] ?]]; auto 10.
  Qed.

  Lemma par_select_many_schedules lt vlen inds l :
    dbg c = false → fits c (length l) → valid_indices 0 (length l) inds → length inds ≤ vlen →
    strict_weak_order lt → (zst c = true → ∀ x y : T, x = y) →
    every_schedule (ans_lt lt) (par_select_many_nth_unstable c (length l) vlen inds) l
      (λ r l', r = map Some inds ∧ Permutation l l' ∧
         Forall (λ i, ∃ x, placed lt l' i x ∧ order_statistic lt l i x) inds)
      (λ _ _, False).
  Proof.
    intros. eapply es_less; [apply ans_lt_total|apply within_par_select_many|].
    by apply par_select_many_lt.
  Qed.
  Lemma par_select_many_by_schedules cmp vlen inds l :
    dbg c = false → fits c (length l) → valid_indices 0 (length l) inds → length inds ≤ vlen →
    strict_weak_order (is_lt cmp) → (zst c = true → ∀ x y : T, x = y) →
    every_schedule (ans_cmp cmp) (par_select_many_nth_unstable_by c (length l) vlen inds) l
      (λ r l', r = map Some inds ∧ Permutation l l' ∧
         Forall (λ i, ∃ x, placed (is_lt cmp) l' i x ∧ order_statistic (is_lt cmp) l i x) inds)
      (λ _ _, False).
  Proof.
    intros. eapply es_cmp; [apply within_par_select_many|]. by apply par_select_many_lt.
  Qed.
  Lemma par_select_many_by_key_schedules {K} (f : T → K) ltk vlen inds l :
    let lt := λ a b, ltk (f a) (f b) in
    dbg c = false → fits c (length l) → valid_indices 0 (length l) inds → length inds ≤ vlen →
    strict_weak_order lt → (zst c = true → ∀ x y : T, x = y) →
    every_schedule (ans_key f ltk) (par_select_many_nth_unstable_by_key c (length l) vlen inds) l
      (λ r l', r = map Some inds ∧ Permutation l l' ∧
         Forall (λ i, ∃ x, placed lt l' i x ∧ order_statistic lt l i x) inds)
      (λ _ _, False).
  Proof.
    intros. eapply es_key; [apply within_par_select_many|]. by apply par_select_many_lt.
  Qed.
  Lemma par_select_many_by_all_schedules ans vlen inds l :
    (∀ q, ∃ r, ans q r) → fits c (length l) → length inds ≤ vlen →
    every_schedule ans (par_select_many_nth_unstable_by c (length l) vlen inds) l
      (λ r l', valid_indices 0 (length l) inds ∧ r = map Some inds ∧ Permutation l l')
      (λ e l', Permutation l l' ∧
         (e = UserPanic ∧ (∃ q, ans q None) ∨ e = DebugPanic ∧ dbg c = true ∨
          ¬ valid_indices 0 (length l) inds ∧ (e = AssertPanic ∨ e = OverflowPanic ∧ ovf c = true))).
  Proof.
    intros Ht Hf Hl. eapply es_by_compare; [done|apply within_par_select_many|].
    eapply wp_mono; [by apply par_select_many_all|auto|].
    intros e l' _ [Hp He]. split; [done|].
    destruct He as [[-> Hq]|[[-> ?]|He]]; [left|right; left; done|auto].
    split; [done|]. by apply less_ans_none.
  Qed.
End select.

(** ** Disjointness of the tasks. *)
Section race.
  Context {T : Type} (c : cfg).
  Implicit Types (l : list T).

  Lemma par_sort_unstable_by_disjoint n :
    fp (λ i, i < n) (par_sort_unstable_by (T:=T) c n).
  Proof. apply within_by_compare, within_par_quick_sort. Qed.
  Lemma par_select_many_by_disjoint n vlen inds :
    fp (λ i, i < n) (par_select_many_nth_unstable_by (T:=T) c n vlen inds).
  Proof. apply within_by_compare, within_par_select_many. Qed.
  Lemma par_sort_unstable_by_sequential ans l :
    (∀ q, ∃ r, ans q r) →
    let p := par_sort_unstable_by c (length l) in
    every_schedule ans p l
      (λ a l', seq_result ans p l (inl a) l') (λ e l', seq_result ans p l (inr e) l').
  Proof.
    intros Ht p. eapply schedules_are_sequential; [done|apply par_sort_unstable_by_disjoint|].
    apply wp_by_compare, par_quick_sort_any.
  Qed.
  Lemma par_select_many_by_sequential ans vlen inds l :
    (∀ q, ∃ r, ans q r) → fits c (length l) → length inds ≤ vlen →
    let p := par_select_many_nth_unstable_by c (length l) vlen inds in
    every_schedule ans p l
      (λ a l', seq_result ans p l (inl a) l') (λ e l', seq_result ans p l (inr e) l').
  Proof.
    intros Ht Hf Hl p. eapply schedules_are_sequential; [done|apply par_select_many_by_disjoint|].
    by apply wp_by_compare, par_select_many_all.
  Qed.
End race.
