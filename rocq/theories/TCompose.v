(** * TCompose: consequences for wrappers, zero-sized types and compositions. *)
From Verif Require Export TPanic PSearch TSearch Unique.
From stdpp Require Import list.

(** The comparator that [|a, b| ...] of the key variants induces: it calls the
    key function on [a], then on [b], then compares the keys. *)
Definition compare_of_key {T K S} (o : S → key_question (T:=T) K → key_answer K * S) :
    S → T * T → option comparison * S :=
  λ s '(a, b),
    match o s (KeyOf a) with
    | (AKey ka, s1) =>
        match o s1 (KeyOf b) with
        | (AKey kb, s2) =>
            match o s2 (KeyLt ka kb) with
            | (ABool true, s3) => (Some Lt, s3)
            | (ABool false, s3) => (Some Gt, s3)
            | (_, s3) => (None, s3)
            end
        | (_, s2) => (None, s2)
        end
    | (_, s1) => (None, s1)
    end.

Section keys.
  Context {T K S : Type} (c : cfg).
  Implicit Types (o : S → key_question (T:=T) K → key_answer K * S).

  Lemma by_key_is_by {A} o (p : cmp_prog T A) s l :
    run o (by_key p) s l = run (compare_of_key o) (by_compare p) s l.
  Proof.
    rewrite run_by_key, run_by_compare. apply run_ext. intros s' [a b].
    unfold less_of_key, less_of_compare, compare_of_key.
    destruct (o s' (KeyOf a)) as [[ka| |] s1]; try done.
    destruct (o s1 (KeyOf b)) as [[kb| |] s2]; try done.
    by destruct (o s2 (KeyLt ka kb)) as [[?|[]|] s3].
  Qed.
  Lemma by_pure_key_is_by {A} (f : T → K) (cmpk : K → K → comparison) (p : cmp_prog T A) l :
    run (pure_key f (is_lt cmpk)) (by_key p) tt l =
    run (pure_compare (λ a b, cmpk (f a) (f b))) (by_compare p) tt l.
  Proof. by rewrite run_by_pure_key, run_by_pure_compare. Qed.

  Lemma sort_by_key_by o n s l :
    run o (sort_by_key c n) s l = run (compare_of_key o) (sort_by c n) s l.
  Proof. apply by_key_is_by. Qed.
  Lemma sort_unstable_by_key_by o n s l :
    run o (sort_unstable_by_key c n) s l = run (compare_of_key o) (sort_unstable_by c n) s l.
  Proof. apply by_key_is_by. Qed.
  Lemma select_nth_by_key_by o n index s l :
    run o (select_nth_unstable_by_key c n index) s l =
    run (compare_of_key o) (select_nth_unstable_by c n index) s l.
  Proof. apply by_key_is_by. Qed.
  Lemma select_many_by_key_by o n inds s l :
    run o (select_many_nth_unstable_by_key c n inds) s l =
    run (compare_of_key o) (select_many_nth_unstable_by c n inds) s l.
  Proof. apply by_key_is_by. Qed.
  Lemma is_sorted_by_key_by o n s l :
    run o (is_sorted_by_key n) s l = run (less_of_key o) (is_sorted_by n) s l.
  Proof. apply run_by_key. Qed.
  Lemma binary_search_by_key_by (o : S → keyc_question (T:=T) K → keyc_answer K * S) b n s l :
    run o (binary_search_by_key c n b) s l = run (cmp_of_keyc b o) (binary_search_by c n) s l.
  Proof. apply run_binary_search_by_key. Qed.
End keys.
Lemma sort_by_pure_key {T K} (c : cfg) (f : T → K) (cmpk : K → K → comparison) n l :
  run (pure_key f (is_lt cmpk)) (sort_by_key c n) tt l =
    run (pure_compare (λ a b, cmpk (f a) (f b))) (sort_by c n) tt l ∧
  run (pure_key f (is_lt cmpk)) (sort_unstable_by_key c n) tt l =
    run (pure_compare (λ a b, cmpk (f a) (f b))) (sort_unstable_by c n) tt l.
Proof. split; apply by_pure_key_is_by. Qed.

(** Zero-sized elements. *)
Section zst.
  Context {T S : Type} (c : cfg).
  Lemma sort_zst (o : S → T * T → option comparison * S) s l :
    zst c = true → run o (sort_by c (length l)) s l = (Done tt, s, l).
  Proof. intros Hz. unfold sort_by. rewrite run_by_compare. unfold stable_sort. by rewrite Hz. Qed.
  Lemma sort_unstable_zst (o : S → T * T → option comparison * S) s l :
    zst c = true → run o (sort_unstable_by c (length l)) s l = (Done tt, s, l).
  Proof. intros Hz. unfold sort_unstable_by. rewrite run_by_compare. unfold quick_sort. by rewrite Hz. Qed.
  Lemma select_nth_zst (o : S → T * T → option comparison * S) s index l :
    zst c = true → index < length l →
    run o (select_nth_unstable_by c (length l) index) s l =
      (Done ((0, index), index, (index + 1, length l - (index + 1))), s, l).
  Proof.
    intros Hz Hi. unfold select_nth_unstable_by. rewrite run_by_compare.
    unfold partition_at_index. rewrite Hz.
    destruct (Nat.leb_spec (length l) index); [lia|]. unfold split_at, index0.
    rewrite run_bind. cbn [run].
    destruct (Nat.leb_spec index (0, length l).2); [|simpl in *; lia].
    rewrite run_bind. cbn [run fst snd].
    destruct (Nat.leb_spec 1 (length l - index)); [|lia].
    rewrite run_bind. cbn [run fst snd]. rewrite run_bind. simpl.
    by rewrite Nat.sub_add_distr.
  Qed.
End zst.

(** Idempotence and independence of the input order. *)
Section idem.
  Context {T : Type} (c : cfg) (lt : T → T → bool).

  Lemma sort_sorted_id l :
    strict_weak_order lt → (zst c = true → ∀ x y : T, x = y) → sorted_wrt lt l →
    run (pure_less lt) (MApi.sort c (length l)) tt l = (Done tt, tt, l).
  Proof.
    intros Hswo Hz Hs.
    destruct (stable_sort_sorts c lt l Hswo Hz) as (l' & Hr & Hp & Hs' & Ho).
    unfold MApi.sort. rewrite Hr. f_equal. symmetry. by apply (stable_unique lt).
  Qed.
  Lemma sort_unstable_order_independent l1 l2 :
    strict_weak_order lt → (zst c = true → ∀ x y : T, x = y) →
    (∀ x y, x ∈ l1 → y ∈ l1 → equivb lt x y = true → x = y) →
    Permutation l1 l2 →
    run (pure_less lt) (sort_unstable c (length l1)) tt l1 =
    run (pure_less lt) (sort_unstable c (length l2)) tt l2.
  Proof.
    intros Hswo Hz Ht Hp.
    destruct (quick_sort_sorts c lt l1 Hswo Hz) as (l1' & Hr1 & Hp1 & Hs1).
    destruct (quick_sort_sorts c lt l2 Hswo Hz) as (l2' & Hr2 & Hp2 & Hs2).
    unfold sort_unstable. rewrite Hr1, Hr2. f_equal.
    apply (sorted_unique lt); [done| | |done|done].
    - intros x y. rewrite <-!Hp1. apply Ht.
    - by rewrite <-Hp1, Hp, Hp2.
  Qed.
  (** The stable and the unstable sort agree when equal elements are
      indistinguishable. *)
  Lemma sort_agrees l :
    strict_weak_order lt → (zst c = true → ∀ x y : T, x = y) →
    (∀ x y, x ∈ l → y ∈ l → equivb lt x y = true → x = y) →
    run (pure_less lt) (sort_unstable c (length l)) tt l =
    run (pure_less lt) (MApi.sort c (length l)) tt l.
  Proof.
    intros Hswo Hz Ht.
    destruct (quick_sort_sorts c lt l Hswo Hz) as (l1' & Hr1 & Hp1 & Hs1).
    destruct (stable_sort_sorts c lt l Hswo Hz) as (l2' & Hr2 & Hp2 & Hs2 & _).
    unfold sort_unstable, MApi.sort. rewrite Hr1, Hr2. f_equal.
    apply (sorted_unique lt); [done| | |done|done].
    - intros x y. rewrite <-!Hp1. apply Ht.
    - by rewrite <-Hp1, Hp2.
  Qed.
End idem.
