(** * TAccessTop: the accesses of the methods. *)
From Verif Require Export TAccessMerge CQuick CMerge CSelect Loud.
From stdpp Require Import list relations.

Lemma pays_bounded {T Q R A} K b (p : prog T Q R A) :
  pays K p (λ _ _, True) free b → accesses_bounded K b p.
Proof.
  intros Hp. split.
  - intros S o s l. pose proof (pays_run K o p _ _ b s [] l Hp) as H.
    destruct (run (logged o) p (s, []) l) as [[r [s' tr]] l']. destruct H as (_ & H & _).
    simpl in H. lia.
  - intros ans l a m c Hs. pose proof (pays_schedule K ans p _ _ b l a m c Hs Hp). lia.
Qed.
Lemma asks_bounded {T Q R Q' R' A} K b (h : Q → prog T Q' R' R) (p : prog T Q R A) :
  (∀ q (Ψ : R → nat → Prop) E b, (∀ r b', b + K ≤ b' → Ψ r b') → pays K (h q) Ψ E b) →
  pays K p (λ _ _, True) free b → accesses_bounded K b (with_asks h p).
Proof.
  intros Hh Hp. apply pays_bounded. by eapply (pays_with_asks K h p b Hh); [| | |exact Hp].
Qed.
Lemma by_compare_bounded {T A} K b (p : cmp_prog T A) :
  pays K p (λ _ _, True) free b → accesses_bounded K b (by_compare p).
Proof.
  apply asks_bounded. intros q Ψ E b0 H. apply pays_ask. intros r. apply pays_ret, H. lia.
Qed.
Lemma by_key_bounded {T A L} K b (p : cmp_prog T A) :
  pays K p (λ _ _, True) free b → accesses_bounded K b (by_key (K:=L) p).
Proof.
  apply asks_bounded. intros [x y] Ψ E b0 H.
  apply pays_ask. intros [k| |]; [|apply pays_ret, H; lia..].
  apply pays_ask. intros [k'| |]; [|apply pays_ret, H; lia..].
  apply pays_ask. intros [k''| |]; apply pays_ret, H; lia.
Qed.
Lemma binary_search_bounded {T} (c : cfg) n (x : T) : accesses_bounded 1 1 (binary_search c n x).
Proof.
  apply asks_bounded; [|by apply binary_search_pays].
  intros q Ψ E b0 H. apply pays_ask. intros r. apply pays_ret, H. lia.
Qed.
Lemma binary_search_by_key_bounded {T K} (c : cfg) n (k : K) :
  accesses_bounded 1 1 (binary_search_by_key (T:=T) c n k).
Proof.
  apply asks_bounded; [|by apply binary_search_pays].
  intros q Ψ E b0 H. apply pays_ask. intros [k'| |]; [|apply pays_ret, H; lia..].
  apply pays_ask. intros [| |]; apply pays_ret, H; lia.
Qed.
Lemma partition_point_bounded {T} (c : cfg) n : accesses_bounded 1 1 (partition_point (T:=T) c n).
Proof.
  apply pays_bounded. unfold partition_point. apply pays_bind.
  eapply (pays_with_asks 1 _ _ 1); [| | |done|by apply (binary_search_pays c n (λ _ _, True) free)].
  - intros q Ψ E b0 H. apply pays_ask. intros r. apply pays_ret, H. lia.
  - intros. by apply pays_ret.
  - done.
Qed.
Lemma partition_dedup_bounded {T} n : accesses_bounded 0 (8 * (n - 1)) (partition_dedup (T:=T) n).
Proof.
  apply asks_bounded; [|by apply partition_dedup_by_pays].
  intros [x y] Ψ E b0 H. apply pays_ask. intros r. apply pays_ret, H. lia.
Qed.
Lemma partition_dedup_by_key_bounded {T K} n :
  accesses_bounded 0 (8 * (n - 1)) (partition_dedup_by_key (T:=T) (K:=K) n).
Proof.
  apply asks_bounded; [|by apply partition_dedup_by_pays].
  intros [x y] Ψ E b0 H. apply pays_ask. intros [k a| |a|]; try (apply pays_ret, H; lia).
  apply pays_ask. intros [k' a'| |a'|]; try (apply pays_ret, H; lia).
  apply pays_ask. intros r. apply pays_ret, H. lia.
Qed.

(** With the bounds on the calls. *)
Lemma accesses_total {T Q R S A} K b (p : prog T Q R A) (o : S → Q → R * S) s l m :
  accesses_bounded K b p →
  (let '(_, (_, tr), _) := run (logged o) p (s, []) l in length tr ≤ m) →
  accesses o p s l ≤ K * m + b.
Proof.
  intros [H _] Hm. specialize (H S o s l). destruct (run _ _ _ _) as [[r [s' tr]] l'].
  etrans; [exact H|]. apply Nat.add_le_mono_r, Nat.mul_le_mono_l, Hm.
Qed.
Lemma counts_calls {T Q R A} (ans : Q → R → Prop) a m (c c' : prog T Q R A * list T) :
  schedule_counts ans a m c c' → calls_made ans m c c'.
Proof.
  induction 1 as [c|a m p p' l c Hs Hc IH|a m p p' i x l c Hs Hl Hc IH|a m p p' i x l c Hs Hl Hc IH|
    a m p p' l c Hs Hc IH].
  - apply made_none.
  - by eapply made_call.
  - eapply made_step; [|exact IH]. exists (Rd i x). split; [by eapply step_mono; [|exact Hs]|done].
  - eapply made_step; [|exact IH]. exists (Wr i x). split; [by eapply step_mono; [|exact Hs]|done].
  - eapply made_step; [|exact IH]. exists Tau. split; [by eapply step_mono; [|exact Hs]|done].
Qed.
(** Every schedule has its counts. *)
Lemma step_call_or {T Q R A} (ans : Q → R → Prop) (p p' : prog T Q R A) act :
  step ans p act p' → (act = Tau ∧ call_step ans p p') ∨ step (λ _ _, False) p act p'.
Proof.
  revert p'.
  induction p as [A a|A e|A i k IH|A i x k IH|A q k IH|A B C p1 IH1 p2 IH2 k IH| |];
    intros p' Hs; simpl in *; try done; eauto.
  - destruct Hs as (r & Hr & -> & ->). left. eauto.
  - destruct Hs as [(p1' & Hs & ->)|[(p2' & Hs & ->)|(x & y & Hx & Hy & -> & ->)]].
    + destruct (IH1 _ Hs) as [[? ?]|?]; [left|right]; eauto 10.
    + destruct (IH2 _ Hs) as [[? ?]|?]; [left|right]; eauto 10.
    + right. eauto 10.
Qed.
Lemma steps_counts {T Q R A} (ans : Q → R → Prop) (c c' : prog T Q R A * list T) :
  rtc (stepm ans) c c' → ∃ a m, schedule_counts ans a m c c'.
Proof.
  induction 1 as [c|[p l] [p' l'] c (act & Hs & He) Hc (a & m & IH)].
  - exists 0, 0. constructor.
  - simpl in Hs, He. destruct (step_call_or _ _ _ _ Hs) as [[-> Hs']|Hs'].
    + simpl in He. subst l'. exists a, (S m). by eapply counts_call.
    + destruct act as [|i x|i x]; simpl in He.
      * subst l'. exists a, m. by eapply counts_join.
      * destruct He as [? ->]. exists (S a), m. by eapply counts_read.
      * destruct He as [? ->]. exists (S a), m. by eapply counts_write.
Qed.

(** The schedule that [run] follows has the counts of the run. *)
Section run.
  Context {T Q R : Type} (ans : Q → R → Prop).
  Notation P A := (prog T Q R A).

  Lemma counts_app {A} a1 m1 a2 m2 (c1 c2 c3 : P A * list T) :
    schedule_counts ans a1 m1 c1 c2 → schedule_counts ans a2 m2 c2 c3 →
    schedule_counts ans (a1 + a2) (m1 + m2) c1 c3.
  Proof.
    intros H1 H2.
    induction H1 as [c|a m p p' l c Hs Hc IH|a m p p' i x l c Hs Hl Hc IH|a m p p' i x l c Hs Hl Hc IH|
      a m p p' l c Hs Hc IH]; simpl; [done|..].
    - eapply counts_call; eauto.
    - eapply counts_read; eauto.
    - eapply counts_write; eauto.
    - eapply counts_join; eauto.
  Qed.
  Lemma counts_left {A B C} a m (p1 p1' : P B) (p2 : P C) (k : B + exn → C + exn → P A) l l' :
    schedule_counts ans a m (p1, l) (p1', l') →
    schedule_counts ans a m (Par p1 p2 k, l) (Par p1' p2 k, l').
  Proof.
    intros H. remember (p1, l) as c eqn:Hc. remember (p1', l') as c' eqn:Hc'. revert p1 l p1' l' Hc Hc'.
    induction H as [c|a m p p' l c Hs Hm IH|a m p p' i x l c Hs Hl Hm IH|a m p p' i x l c Hs Hl Hm IH|
      a m p p' l c Hs Hm IH]; intros q0 l0 q' l0' Hc Hc'; subst.
    - injection Hc' as -> ->. constructor.
    - injection Hc as -> ->. eapply counts_call; [|by eapply IH]. simpl. left. eauto.
    - injection Hc as -> ->. eapply counts_read; [simpl; left; eauto|done|by eapply IH].
    - injection Hc as -> ->. eapply counts_write; [simpl; left; eauto|done|by eapply IH].
    - injection Hc as -> ->. eapply counts_join; [simpl; left; eauto|by eapply IH].
  Qed.
  Lemma counts_right {A B C} a m (p1 : P B) (p2 p2' : P C) (k : B + exn → C + exn → P A) l l' :
    schedule_counts ans a m (p2, l) (p2', l') →
    schedule_counts ans a m (Par p1 p2 k, l) (Par p1 p2' k, l').
  Proof.
    intros H. remember (p2, l) as c eqn:Hc. remember (p2', l') as c' eqn:Hc'. revert p2 l p2' l' Hc Hc'.
    induction H as [c|a m p p' l c Hs Hm IH|a m p p' i x l c Hs Hl Hm IH|a m p p' i x l c Hs Hl Hm IH|
      a m p p' l c Hs Hm IH]; intros q0 l0 q' l0' Hc Hc'; subst.
    - injection Hc' as -> ->. constructor.
    - injection Hc as -> ->. eapply counts_call; [|by eapply IH]. simpl. right. eauto.
    - injection Hc as -> ->. eapply counts_read; [simpl; right; left; eauto|done|by eapply IH].
    - injection Hc as -> ->. eapply counts_write; [simpl; right; left; eauto|done|by eapply IH].
    - injection Hc as -> ->. eapply counts_join; [simpl; right; left; eauto|by eapply IH].
  Qed.
  Lemma run_counts_from {S A} (o : S → Q → R * S) (p : P A) :
    (∀ s q, ans q (o s q).1) → ∀ s tr l,
    let '(r, (s', tr'), l') := run (logged o) p (s, tr) l in
    run o p s l = (r, s', l') ∧
    ∃ m p', length tr' = length tr + m ∧
      schedule_counts ans (accesses o p s l) m (p, l) (p', l') ∧
      match r with
      | Done a => result p' = Some (inl a)
      | Panicked e => result p' = Some (inr e)
      | _ => True
      end.
  Proof.
    intros Ho.
    induction p as [A a|A e|A i g IH|A i x g IH|A q g IH|A B' C p1 IH1 p2 IH2 g IH| |];
      intros s tr l; simpl.
    - split; [done|]. exists 0, (Ret a). split; [lia|]. split; [constructor|done].
    - split; [done|]. exists 0, (Throw e). split; [lia|]. split; [constructor|done].
    - destruct (l !! i) as [x|] eqn:Hx.
      2: { split; [done|]. exists 0, (Read i g). split; [lia|]. split; [constructor|done]. }
      specialize (IH x s tr l). destruct (run (logged _) _ _ _) as [[r [s' tr']] l'].
      destruct IH as (Heq & m & p' & Hm & Hc & Hr). split; [done|]. exists m, p'. split; [done|]. split; [|done].
      eapply counts_read; [simpl; eauto|exact Hx|exact Hc].
    - destruct (decide (i < length l)) as [Hi|Hi].
      2: { split; [done|]. exists 0, (Write i x g). split; [lia|]. split; [constructor|done]. }
      specialize (IH s tr (<[i:=x]> l)). destruct (run (logged _) _ _ _) as [[r [s' tr']] l'].
      destruct IH as (Heq & m & p' & Hm & Hc & Hr). split; [done|]. exists m, p'. split; [done|]. split; [|done].
      eapply counts_write; [simpl; eauto|exact Hi|exact Hc].
    - pose proof (Ho s q) as Hq. destruct (o s q) as [a s1] eqn:Hoq. simpl in Hq.
      specialize (IH a s1 (tr ++ [(q, a)]) l). destruct (run (logged _) _ _ _) as [[r [s' tr']] l'].
      destruct IH as (Heq & m & p' & Hm & Hc & Hr). rewrite app_length in Hm. simpl in Hm.
      split; [done|]. exists (1 + m), p'. split; [lia|]. split; [|done].
      eapply counts_call; [|exact Hc]. simpl. eauto.
    - specialize (IH1 s tr l). destruct (run (logged _) p1 _ _) as [[r1 [s1 tr1]] l1].
      destruct IH1 as (Heq1 & m1 & p1' & Hm1 & Hc1 & Hr1). rewrite Heq1.
      pose proof (counts_left _ m1 p1 p1' p2 g l l1 Hc1) as Hp1.
      specialize (IH2 s1 tr1 l1). destruct (run (logged _) p2 _ _) as [[r2 [s2 tr2]] l2].
      destruct IH2 as (Heq2 & m2 & p2' & Hm2 & Hc2 & Hr2). rewrite Heq2.
      pose proof (counts_app _ _ _ _ _ _ _ Hp1 (counts_right _ m2 p1' p2 p2' g l1 l2 Hc2)) as Hp2.
      destruct r1 as [a1|e1| |]; simpl;
        [..|split; [done|]; exists m1, (Par p1' p2 g); auto|split; [done|]; exists m1, (Par p1' p2 g); auto].
      all: destruct r2 as [a2|e2| |]; simpl;
        [..|split; [done|]; exists (m1 + m2), (Par p1' p2' g); split; [lia|]; auto
           |split; [done|]; exists (m1 + m2), (Par p1' p2' g); split; [lia|]; auto].
      all: match goal with |- context [run (logged _) (_ ?x ?y) _ _] =>
          specialize (IH x y s2 tr2 l2); destruct (run (logged _) (g x y) _ _) as [[r [s3 tr3]] l3];
          destruct IH as (Heq3 & m3 & p3 & Hm3 & Hc3 & Hr3); split; [done|];
          exists ((m1 + m2) + m3), p3; split; [lia|]; split; [|done];
          eapply counts_app; [exact Hp2|]; eapply counts_join; [|exact Hc3];
          simpl; right; right; exists x, y; auto
        end.
    - split; [done|]. exists 0, Undef. split; [lia|]. split; [constructor|done].
    - split; [done|]. exists 0, NoFuel. split; [lia|]. split; [constructor|done].
  Qed.
End run.
Lemma run_counts {T Q R S A} (ans : Q → R → Prop) (o : S → Q → R * S) (p : prog T Q R A) s l :
  (∀ s q, ans q (o s q).1) →
  let '(r, (s', tr), l') := run (logged o) p (s, []) l in
  run o p s l = (r, s', l') ∧
  ∃ p', schedule_counts ans (accesses o p s l) (length tr) (p, l) (p', l') ∧
    match r with
    | Done a => result p' = Some (inl a)
    | Panicked e => result p' = Some (inr e)
    | _ => True
    end.
Proof.
  intros Ho. pose proof (run_counts_from ans o p Ho s [] l) as H.
  destruct (run (logged o) p (s, []) l) as [[r [s' tr]] l']. destruct H as (? & m & p' & -> & ?). eauto.
Qed.

Lemma sort_by_accesses_total {T S} (c : cfg) (o : S → T * T → option comparison * S) s (l : list T) :
  accesses o (sort_by c (length l)) s l ≤ 16 * (20 * length l * (Nat.log2 (length l) + 1)) + (length l + 2).
Proof.
  apply accesses_total; [by apply by_compare_bounded, stable_sort_pays|apply sort_by_cost].
Qed.
Lemma sort_unstable_by_accesses_total {T S} (c : cfg) (cmp : T → T → comparison)
    (o : S → T * T → option comparison * S) s (l : list T) :
  strict_weak_order (is_lt cmp) → answers_as cmp o →
  accesses o (sort_unstable_by c (length l)) s l ≤
    16 * (340 * length l * (Nat.log2 (length l) + 1)) + (2 * length l + 30).
Proof.
  intros. apply accesses_total; [by apply by_compare_bounded, quick_sort_pays|by eapply sort_unstable_by_cost].
Qed.
Lemma sort_unstable_by_accesses_quadratic {T S} (c : cfg)
    (o : S → T * T → option comparison * S) s (l : list T) :
  accesses o (sort_unstable_by c (length l)) s l ≤
    16 * (13 * (length l * length l) + 20 * length l) + (2 * length l + 30).
Proof.
  apply accesses_total; [by apply by_compare_bounded, quick_sort_pays|apply sort_unstable_by_quadratic].
Qed.
Lemma par_sort_by_accesses_total {T} (c : cfg) take_item (ans : T * T → option comparison → Prop)
    (l junk : list T) a m st :
  schedule_counts ans a m (par_sort_by c take_item (length l), l ++ junk) st →
  a ≤ 16 * (20 * length l * (Nat.log2 (length l) + 1)) + (2 * length l * (Nat.log2 (length l) + 3) + 2).
Proof.
  intros H. pose proof (par_sort_by_calls_schedule c take_item ans l junk m st (counts_calls _ _ _ _ _ H)) as Hm.
  destruct (by_compare_bounded 16 (2 * length l * (Nat.log2 (length l) + 3) + 2)
    (par_merge_sort (T:=T) c take_item (length l))) as [_ Hb].
  { by apply par_merge_sort_pays. }
  etrans; [exact (Hb ans _ _ _ _ H)|]. apply Nat.add_le_mono_r, Nat.mul_le_mono_l, Hm.
Qed.
Lemma select_accesses_linear (c : cfg) (M : nat) :
  ∃ K, ∀ (T : Type) (cmp : T → T → comparison) (l : list T) (index : nat),
    strict_weak_order (is_lt cmp) →
    (∀ x, In x l → length (List.filter (λ y, negb (is_lt cmp x y) && negb (is_lt cmp y x)) l) ≤ M) →
    accesses (pure_compare cmp) (select_nth_unstable_by c (length l) index) tt l ≤ K * length l + 30.
Proof.
  destruct (select_linear c M) as [K HK]. exists (16 * K + 2). intros T cmp l index Hswo HM.
  etrans; [apply (accesses_total 16 (2 * length l + 30) _ _ _ _ (K * length l))|].
  - by apply by_compare_bounded, partition_at_index_pays.
  - by apply HK.
  - lia.
Qed.

(** ** The methods. *)
Lemma sort_few {T} (c : cfg) (n : nat) : accesses_bounded 16 (n + 2) (MApi.sort (T:=T) c n).
Proof. by apply pays_bounded, stable_sort_pays. Qed.
Lemma sort_by_few {T} (c : cfg) (n : nat) : accesses_bounded 16 (n + 2) (sort_by (T:=T) c n).
Proof. by apply by_compare_bounded, stable_sort_pays. Qed.
Lemma sort_by_key_few {T K} (c : cfg) (n : nat) : accesses_bounded 16 (n + 2) (sort_by_key (T:=T) (K:=K) c n).
Proof. by apply by_key_bounded, stable_sort_pays. Qed.
Lemma sort_unstable_few {T} (c : cfg) (n : nat) : accesses_bounded 16 (2 * n + 30) (sort_unstable (T:=T) c n).
Proof. by apply pays_bounded, quick_sort_pays. Qed.
Lemma sort_unstable_by_few {T} (c : cfg) (n : nat) : accesses_bounded 16 (2 * n + 30) (sort_unstable_by (T:=T) c n).
Proof. by apply by_compare_bounded, quick_sort_pays. Qed.
Lemma sort_unstable_by_key_few {T K} (c : cfg) (n : nat) : accesses_bounded 16 (2 * n + 30) (sort_unstable_by_key (T:=T) (K:=K) c n).
Proof. by apply by_key_bounded, quick_sort_pays. Qed.
Lemma select_nth_unstable_few {T} (c : cfg) (n index : nat) : accesses_bounded 16 (2 * n + 30) (select_nth_unstable (T:=T) c n index).
Proof. by apply pays_bounded, partition_at_index_pays. Qed.
Lemma select_nth_unstable_by_few {T} (c : cfg) (n index : nat) : accesses_bounded 16 (2 * n + 30) (select_nth_unstable_by (T:=T) c n index).
Proof. by apply by_compare_bounded, partition_at_index_pays. Qed.
Lemma select_nth_unstable_by_key_few {T K} (c : cfg) (n index : nat) : accesses_bounded 16 (2 * n + 30) (select_nth_unstable_by_key (T:=T) (K:=K) c n index).
Proof. by apply by_key_bounded, partition_at_index_pays. Qed.
Lemma select_many_nth_unstable_few {T} (c : cfg) (n : nat) (indices : list nat) : accesses_bounded 16 (2 * n + 30 + 4 * length indices) (select_many_nth_unstable (T:=T) c n indices).
Proof. by apply pays_bounded, select_many_pays. Qed.
Lemma select_many_nth_unstable_by_few {T} (c : cfg) (n : nat) (indices : list nat) : accesses_bounded 16 (2 * n + 30 + 4 * length indices) (select_many_nth_unstable_by (T:=T) c n indices).
Proof. by apply by_compare_bounded, select_many_pays. Qed.
Lemma select_many_nth_unstable_by_key_few {T K} (c : cfg) (n : nat) (indices : list nat) : accesses_bounded 16 (2 * n + 30 + 4 * length indices) (select_many_nth_unstable_by_key (T:=T) (K:=K) c n indices).
Proof. by apply by_key_bounded, select_many_pays. Qed.
Lemma par_sort_few {T} (c : cfg) (take_item : nat → bool) (n : nat) : accesses_bounded 16 (2 * n * (Nat.log2 n + 3) + 2) (par_sort (T:=T) c take_item n).
Proof. by apply pays_bounded, par_merge_sort_pays. Qed.
Lemma par_sort_by_few {T} (c : cfg) (take_item : nat → bool) (n : nat) : accesses_bounded 16 (2 * n * (Nat.log2 n + 3) + 2) (par_sort_by (T:=T) c take_item n).
Proof. by apply by_compare_bounded, par_merge_sort_pays. Qed.
Lemma par_sort_by_key_few {T K} (c : cfg) (take_item : nat → bool) (n : nat) : accesses_bounded 16 (2 * n * (Nat.log2 n + 3) + 2) (par_sort_by_key (T:=T) (K:=K) c take_item n).
Proof. by apply by_key_bounded, par_merge_sort_pays. Qed.
Lemma par_sort_unstable_few {T} (c : cfg) (n : nat) : accesses_bounded 16 (2 * n + 30) (par_sort_unstable (T:=T) c n).
Proof. by apply pays_bounded, par_quick_sort_pays. Qed.
Lemma par_sort_unstable_by_few {T} (c : cfg) (n : nat) : accesses_bounded 16 (2 * n + 30) (par_sort_unstable_by (T:=T) c n).
Proof. by apply by_compare_bounded, par_quick_sort_pays. Qed.
Lemma par_sort_unstable_by_key_few {T K} (c : cfg) (n : nat) : accesses_bounded 16 (2 * n + 30) (par_sort_unstable_by_key (T:=T) (K:=K) c n).
Proof. by apply by_key_bounded, par_quick_sort_pays. Qed.
Lemma par_select_many_nth_unstable_few {T} (c : cfg) (n vlen : nat) (indices : list nat) : accesses_bounded 16 (2 * n + 30 + 34 * length indices) (par_select_many_nth_unstable (T:=T) c n vlen indices).
Proof. by apply pays_bounded, par_select_many_pays. Qed.
Lemma par_select_many_nth_unstable_by_few {T} (c : cfg) (n vlen : nat) (indices : list nat) : accesses_bounded 16 (2 * n + 30 + 34 * length indices) (par_select_many_nth_unstable_by (T:=T) c n vlen indices).
Proof. by apply by_compare_bounded, par_select_many_pays. Qed.
Lemma par_select_many_nth_unstable_by_key_few {T K} (c : cfg) (n vlen : nat) (indices : list nat) : accesses_bounded 16 (2 * n + 30 + 34 * length indices) (par_select_many_nth_unstable_by_key (T:=T) (K:=K) c n vlen indices).
Proof. by apply by_key_bounded, par_select_many_pays. Qed.
Lemma sort_by_cached_key_few {T K} (c : cfg) (sz : sizes) (n : nat) : accesses_bounded 0 (5 * n) (sort_by_cached_key (T:=T) (K:=K) c sz n).
Proof. by apply pays_bounded, sort_by_cached_key_pays. Qed.
Lemma par_sort_by_cached_key_few {T K} (c : cfg) (sz : sizes) (n : nat) : accesses_bounded 0 (5 * n) (par_sort_by_cached_key (T:=T) (K:=K) c sz n).
Proof. by apply pays_bounded, par_sort_by_cached_key_pays. Qed.
Lemma is_sorted_few {T} (n : nat) : accesses_bounded 0 (2 * (n - 1)) (MSearch.is_sorted (T:=T) n).
Proof. by apply pays_bounded, is_sorted_pays_total. Qed.
Lemma is_sorted_by_key_few {T K} (n : nat) : accesses_bounded 0 (2 * (n - 1)) (is_sorted_by_key (T:=T) (K:=K) n).
Proof. by apply by_key_bounded, is_sorted_pays_total. Qed.
Lemma is_sorted_early_few {T} (n : nat) : accesses_bounded 2 2 (MSearch.is_sorted (T:=T) n).
Proof. by apply pays_bounded, is_sorted_pays. Qed.
Lemma contains_few {T} (n : nat) (x : T) : accesses_bounded 0 n (contains n x).
Proof. by apply pays_bounded, contains_pays. Qed.
Lemma partition_dedup_by_few {T} (n : nat) : accesses_bounded 0 (8 * (n - 1)) (partition_dedup_by (T:=T) n).
Proof. by apply pays_bounded, partition_dedup_by_pays. Qed.
Lemma partition_dedup_few {T} (n : nat) : accesses_bounded 0 (8 * (n - 1)) (partition_dedup (T:=T) n).
Proof. apply partition_dedup_bounded. Qed.
Lemma partition_dedup_by_key_few {T K} (n : nat) : accesses_bounded 0 (8 * (n - 1)) (partition_dedup_by_key (T:=T) (K:=K) n).
Proof. apply partition_dedup_by_key_bounded. Qed.
Lemma binary_search_by_few {T} (c : cfg) (n : nat) : accesses_bounded 1 1 (binary_search_by (T:=T) c n).
Proof. by apply pays_bounded, binary_search_pays. Qed.
Lemma binary_search_few {T} (c : cfg) (n : nat) (x : T) : accesses_bounded 1 1 (binary_search c n x).
Proof. apply binary_search_bounded. Qed.
Lemma binary_search_by_key_few {T K} (c : cfg) (n : nat) (k : K) : accesses_bounded 1 1 (binary_search_by_key (T:=T) c n k).
Proof. apply binary_search_by_key_bounded. Qed.
Lemma partition_point_few {T} (c : cfg) (n : nat) : accesses_bounded 1 1 (partition_point (T:=T) c n).
Proof. apply partition_point_bounded. Qed.

(** For examples. *)
Lemma run_counts_done {T Q R S A} (ans : Q → R → Prop) (o : S → Q → R * S) (p : prog T Q R A) s l a m x
    (Φ : list T → Prop) :
  (∀ s q, ans q (o s q).1) → accesses o p s l = a →
  (let '(r, (_, tr), l') := run (logged o) p (s, []) l in r = Done x ∧ length tr = m ∧ Φ l') →
  ∃ p' l', schedule_counts ans a m (p, l) (p', l') ∧ result p' = Some (inl x) ∧ Φ l'.
Proof.
  intros Ho <- H'. pose proof (run_counts ans o p s l Ho) as H.
  destruct (run (logged o) p (s, []) l) as [[r [s' tr]] l']. destruct H' as (-> & <- & HΦ).
  destruct H as (_ & p' & Hc & Hr). eauto.
Qed.
