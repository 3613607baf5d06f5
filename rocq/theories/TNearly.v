(** * Nearly sorted arrays are few sorted sequences one after another. *)
From Verif Require Export TParRuns.
From stdpp Require Import list.

Section nearly.
  Context {T : Type} (lt : T → T → bool).
  Notation monotone := (TRuns.monotone lt).

  Lemma strongly_take (R : T → T → Prop) i l : StronglySorted R l → StronglySorted R (take i l).
  Proof.
    intros H. revert i. induction H as [|x l Hl IH Hx]; intros [|i]; simpl; constructor; auto.
    by apply Forall_take.
  Qed.
  Lemma monotone_take i p : monotone p → monotone (take i p).
  Proof. intros [H|H]; [left|right]; by apply strongly_take. Qed.
  Lemma monotone_drop i p : monotone p → monotone (drop i p).
  Proof. intros [H|H]; [left|right]; by apply strongly_drop. Qed.
  Lemma monotone_one x : monotone [x].
  Proof. left. repeat constructor. Qed.

  (** Another element in one place. *)
  Lemma monotone_insert ls i x :
    Forall monotone ls →
    ∃ ls', concat ls' = <[i:=x]> (concat ls) ∧ length ls' ≤ length ls + 2 ∧ Forall monotone ls'.
  Proof.
    intros H. revert i. induction H as [|p ls Hp Hls IH]; intros i; simpl.
    { exists []. simpl. auto with lia. }
    destruct (decide (i < length p)) as [Hi|Hi].
    - exists (take i p :: [x] :: drop (S i) p :: ls). split.
      + rewrite insert_app_l by done. rewrite insert_take_drop by done. simpl.
        by rewrite <-app_assoc.
      + split; [simpl; lia|]. rewrite !Forall_cons. auto using monotone_take, monotone_drop, monotone_one.
    - destruct (IH (i - length p)) as (ls' & H1 & H2 & H3). exists (p :: ls'). split.
      + rewrite insert_app_r_alt by lia. simpl. by rewrite H1.
      + split; [simpl; lia|]. by constructor.
  Qed.
  Lemma monotone_changed l0 (changes : list (nat * T)) :
    monotone l0 →
    ∃ ls, concat ls = fold_right (λ c l, <[c.1 := c.2]> l) l0 changes ∧
      length ls ≤ 2 * length changes + 1 ∧ Forall monotone ls.
  Proof.
    intros H. induction changes as [|[i x] cs (ls & H1 & H2 & H3)]; simpl.
    - exists [l0]. simpl. rewrite app_nil_r. auto.
    - destruct (monotone_insert ls i x H3) as (ls' & H4 & H5 & H6). exists ls'.
      rewrite H4, H1. split; [done|]. split; [lia|done].
  Qed.
End nearly.

Lemma log_weaken a b k m n : k ≤ m → (a * Nat.log2 k + b) * n ≤ (a * Nat.log2 m + b) * n.
Proof.
  intros H. apply Nat.mul_le_mono_r, Nat.add_le_mono_r, Nat.mul_le_mono_l. by apply Nat.log2_le_mono.
Qed.

Lemma sort_by_nearly {T S} (c : cfg) (cmp : T → T → comparison)
    (o : S → T * T → option comparison * S) s (l0 : list T) (changes : list (nat * T)) :
  answers_as cmp o →
  sorted_wrt (is_lt cmp) l0 ∨ StronglySorted (λ a b, is_lt cmp b a = true) l0 →
  let l := fold_right (λ c l, <[c.1 := c.2]> l) l0 changes in
  let '(_, (_, tr), _) := run (logged o) (sort_by c (length l)) (s, []) l in
  length tr ≤ (8 * Nat.log2 (2 * length changes + 1) + 70) * length l.
Proof.
  intros Ho H l. destruct (monotone_changed (is_lt cmp) l0 changes H) as (ls & Hl & Hk & Hls).
  fold l in Hl. pose proof (sort_by_runs c cmp o s ls Ho Hls) as Hr. rewrite Hl in Hr.
  destruct (run _ _ _ _) as [[r [s' tr]] l']. etrans; [exact Hr|]. by apply log_weaken.
Qed.
Lemma par_sort_by_nearly {T} (c : cfg) take_item (cmp : T → T → comparison)
    (ans : T * T → option comparison → Prop) (l0 : list T) (changes : list (nat * T))
    (junk : list T) m st :
  (∀ q, ∃ r, ans q r) → (∀ x y r, ans (x, y) (Some r) → r = cmp x y) →
  sorted_wrt (is_lt cmp) l0 ∨ StronglySorted (λ a b, is_lt cmp b a = true) l0 →
  let l := fold_right (λ c l, <[c.1 := c.2]> l) l0 changes in
  length junk = length l →
  calls_made ans m (par_sort_by c take_item (length l), l ++ junk) st →
  m ≤ (2 * Nat.log2 (2 * length changes + 1) + 130) * length l.
Proof.
  intros Ht Ha H l HJ Hm. destruct (monotone_changed (is_lt cmp) l0 changes H) as (ls & Hl & Hk & Hls).
  fold l in Hl. rewrite <-Hl in *. etrans; [by eapply par_sort_by_schedule_runs|]. by apply log_weaken.
Qed.

Lemma sort_by_key_nearly {T K S} (c : cfg) (f : T → K) (ltk : K → K → bool)
    (o : S → key_question (T:=T) K → key_answer K * S) s (l0 : list T) (changes : list (nat * T)) :
  answers_as_key f ltk o →
  sorted_wrt (λ a b, ltk (f a) (f b)) l0 ∨ StronglySorted (λ a b, ltk (f b) (f a) = true) l0 →
  let l := fold_right (λ c l, <[c.1 := c.2]> l) l0 changes in
  let '(_, (_, tr), _) := run (logged o) (sort_by_key c (length l)) (s, []) l in
  key_calls tr ≤ (16 * Nat.log2 (2 * length changes + 1) + 140) * length l.
Proof.
  intros Ho H l. destruct (monotone_changed (λ a b, ltk (f a) (f b)) l0 changes H) as (ls & Hl & Hk & Hls).
  fold l in Hl. pose proof (sort_by_key_runs c f ltk o s ls Ho Hls) as Hr. rewrite Hl in Hr.
  destruct (run _ _ _ _) as [[r [s' tr]] l']. etrans; [exact Hr|]. by apply log_weaken.
Qed.
Lemma par_sort_by_key_nearly {T K} (c : cfg) take_item (f : T → K) (ltk : K → K → bool)
    (ans : key_question (T:=T) K → key_answer K → Prop) (l0 : list T) (changes : list (nat * T))
    (junk : list T) m st :
  (∀ q, ∃ r, ans q r) → (∀ a k, ans (KeyOf a) (AKey k) → k = f a) →
  (∀ k1 k2 b, ans (KeyLt k1 k2) (ABool b) → b = ltk k1 k2) →
  sorted_wrt (λ a b, ltk (f a) (f b)) l0 ∨ StronglySorted (λ a b, ltk (f b) (f a) = true) l0 →
  let l := fold_right (λ c l, <[c.1 := c.2]> l) l0 changes in
  length junk = length l →
  calls_made ans m (par_sort_by_key c take_item (length l), l ++ junk) st →
  m ≤ 3 * ((2 * Nat.log2 (2 * length changes + 1) + 130) * length l).
Proof.
  intros Ht Hf Hk0 H l HJ Hm.
  destruct (monotone_changed (λ a b, ltk (f a) (f b)) l0 changes H) as (ls & Hl & Hk & Hls).
  fold l in Hl. rewrite <-Hl in *. etrans; [by eapply par_sort_by_key_schedule_runs|].
  apply Nat.mul_le_mono_l. by apply log_weaken.
Qed.

(** Elements appended to a sorted array. *)
Lemma monotone_appended {T} (lt : T → T → bool) l0 new :
  TRuns.monotone lt l0 →
  ∃ ls, concat ls = l0 ++ new ∧ length ls = length new + 1 ∧ Forall (TRuns.monotone lt) ls.
Proof.
  intros H. exists (l0 :: map (λ x, [x]) new). simpl. split; [|split].
  - f_equal. induction new as [|x new IH]; simpl; congruence.
  - rewrite map_length. lia.
  - constructor; [done|]. induction new; simpl; constructor; auto using monotone_one.
Qed.
Lemma sort_by_append {T S} (c : cfg) (cmp : T → T → comparison)
    (o : S → T * T → option comparison * S) s (l0 new : list T) :
  answers_as cmp o →
  sorted_wrt (is_lt cmp) l0 ∨ StronglySorted (λ a b, is_lt cmp b a = true) l0 →
  let l := l0 ++ new in
  let '(_, (_, tr), _) := run (logged o) (sort_by c (length l)) (s, []) l in
  length tr ≤ (8 * Nat.log2 (length new + 1) + 70) * length l.
Proof.
  intros Ho H l. destruct (monotone_appended (is_lt cmp) l0 new H) as (ls & Hl & <- & Hls).
  fold l in Hl. rewrite <-Hl. exact (sort_by_runs c cmp o s ls Ho Hls).
Qed.
Lemma par_sort_by_append {T} (c : cfg) take_item (cmp : T → T → comparison)
    (ans : T * T → option comparison → Prop) (l0 new junk : list T) m st :
  (∀ q, ∃ r, ans q r) → (∀ x y r, ans (x, y) (Some r) → r = cmp x y) →
  sorted_wrt (is_lt cmp) l0 ∨ StronglySorted (λ a b, is_lt cmp b a = true) l0 →
  let l := l0 ++ new in
  length junk = length l →
  calls_made ans m (par_sort_by c take_item (length l), l ++ junk) st →
  m ≤ (2 * Nat.log2 (length new + 1) + 130) * length l.
Proof.
  intros Ht Ha H l HJ Hm. destruct (monotone_appended (is_lt cmp) l0 new H) as (ls & Hl & <- & Hls).
  fold l in Hl. rewrite <-Hl in *. by eapply par_sort_by_schedule_runs.
Qed.
