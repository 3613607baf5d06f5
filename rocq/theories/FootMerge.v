(** * Footprint of the parallel stable sort: tasks running in parallel touch
    disjoint parts of the array and of the buffer. *)
From Verif Require Export Footprint MParMerge.
From stdpp Require Import list.

Section chunk.
  Context {T : Type} (c : cfg).
  Notation P A := (cmp_prog T A).

  Lemma within_mono {A} n n' (p : P A) : n ≤ n' → within n p → within n' p.
  Proof. intros Hn. apply fp_mono. simpl. lia. Qed.
  Lemma within_le_slice {A} n n' a b (p : nat → P A) :
    n ≤ n' → (∀ m, within m (p m)) → within n' (slice n a b p).
  Proof. intros Hn Hp. eapply within_mono; [exact Hn|]. by apply within_slice. Qed.

  Lemma within_pm_insert_loop n (tmp : T) i cnt : within n (pm_insert_loop n tmp i cnt).
  Proof. revert i. induction cnt; intros i; cbn [pm_insert_loop]; fp_go. Qed.
  Hint Resolve within_pm_insert_loop : fp.
  Lemma within_pm_insert_head n : within n (pm_insert_head n : P unit).
  Proof. unfold pm_insert_head. fp_go. Qed.
  Hint Resolve within_pm_insert_head : fp.

  Lemma within_le_get n n' i : n ≤ n' → within n' (get n i : P T).
  Proof. intros H. eapply within_mono; [exact H|]. apply within_get. Qed.
  Lemma within_le_uget n n' i : n ≤ n' → within n' (uget n i : P T).
  Proof. intros H. eapply within_mono; [exact H|]. apply within_uget. Qed.
  Lemma within_le_put n n' i (x : T) : n ≤ n' → within n' (put n i x : P unit).
  Proof. intros H. eapply within_mono; [exact H|]. apply within_put. Qed.
  Lemma within_bget n cap i : within (n + cap) (bget n cap i : P T).
  Proof.
    unfold bget, within. destruct (Nat.ltb_spec i cap); [|apply fp_undef].
    apply fp_Read; [lia|]. intros. apply fp_ret.
  Qed.
  Lemma within_bput n cap i (x : T) : within (n + cap) (bput n cap i x : P unit).
  Proof.
    unfold bput, within. destruct (Nat.ltb_spec i cap); [|apply fp_undef].
    apply fp_Write; [lia|]. intros. apply fp_ret.
  Qed.
  Hint Resolve within_bget within_bput : fp.
  Hint Extern 1 (within _ (get _ _)) => apply within_le_get; lia : fp.
  Hint Extern 1 (within _ (uget _ _)) => apply within_le_uget; lia : fp.
  Hint Extern 1 (within _ (put _ _ _)) => apply within_le_put; lia : fp.

  Lemma within_pm_copy_out n cap base cnt : within (n + cap) (pm_copy_out n cap base cnt : P unit).
  Proof. unfold pm_copy_out. fp_go. Qed.
  Lemma within_pm_hole_drop n cap s e d : within (n + cap) (pm_hole_drop n cap s e d : P unit).
  Proof. unfold pm_hole_drop. fp_go. Qed.
  Hint Resolve within_pm_copy_out within_pm_hole_drop : fp.
  Lemma within_pm_merge_fwd fuel n cap mid l r o :
    within (n + cap) (pm_merge_fwd fuel n cap mid l r o : P unit).
  Proof. revert l r o. induction fuel; intros; cbn [pm_merge_fwd]; fp_go. Qed.
  Lemma within_pm_merge_bwd fuel n cap l r o :
    within (n + cap) (pm_merge_bwd fuel n cap l r o : P unit).
  Proof. revert l r o. induction fuel; intros; cbn [pm_merge_bwd]; fp_go. Qed.
  Hint Resolve within_pm_merge_fwd within_pm_merge_bwd : fp.
  Lemma within_pm_merge n cap mid : within (n + cap) (pm_merge n cap mid : P unit).
  Proof. unfold pm_merge. fp_go. Qed.
  Lemma within_slice_buf {A} n cap a b (p : nat → P A) :
    (∀ m, within (m + cap) (p m)) → within (n + cap) (slice_buf n a b p).
  Proof.
    intros Hp. unfold slice_buf.
    destruct (Nat.leb_spec a b), (Nat.leb_spec b n); simpl; try apply within_throw.
    eapply fp_mono; [|apply (fp_relocate (λ i, i < b - a + cap))]; [| |apply Hp]; simpl.
    - intros j (i & Hi & ->). destruct (Nat.ltb_spec i (b - a)); lia.
    - intros i j Hi Hj. destruct (Nat.ltb_spec i (b - a)), (Nat.ltb_spec j (b - a)); lia.
  Qed.
  Lemma within_pm_streak w n n' s : n ≤ n' → within n' (pm_streak w n s : P nat).
  Proof. intros Hn. induction s; cbn [pm_streak]; fp_go. Qed.
  Lemma within_pm_find_run n n' e : n ≤ n' → within n' (pm_find_run n e : P (nat + ms_result)).
  Proof.
    intros Hn. unfold pm_find_run. eapply within_mono; [exact Hn|].
    pose proof (λ w s, within_pm_streak w n n s (le_n n)) as Hst.
    pose proof (λ m, within_reverse m : within m (MPartition.reverse m : P unit)) as Hrev.
    fp_go.
  Qed.
  Lemma within_pm_extend n n' e s : n ≤ n' → within n' (pm_extend n e s : P nat).
  Proof. intros Hn. eapply within_mono; [exact Hn|]. induction s; cbn [pm_extend]; fp_go. Qed.
  Lemma within_run_get n runs r : within n (run_get runs r : P run_t).
  Proof. unfold run_get. fp_go. Qed.
  Hint Resolve within_run_get : fp.
  Lemma within_pm_collapse_loop fuel n cap runs :
    within (n + cap) (pm_collapse_loop fuel n cap runs : P (list run_t)).
  Proof.
    revert runs. induction fuel; intros; cbn [pm_collapse_loop]; [fp_go|].
    destruct (pm_collapse runs); [|fp_go].
    do 2 (apply within_bind; [fp_go|intros ?]).
    apply within_bind; [|auto]. apply within_slice_buf. intros m. apply within_pm_merge.
  Qed.
  Lemma within_pm_sort_loop fuel n cap e runs :
    within (n + cap) (pm_sort_loop c fuel n cap e runs : P ms_result).
  Proof.
    revert e runs. induction fuel; intros; cbn [pm_sort_loop]; [fp_go|].
    destruct (0 <? e); [|fp_go].
    apply within_bind; [apply within_pm_find_run; lia|intros [start|res]; [|fp_go]].
    apply within_bind; [apply within_pm_extend; lia|intros ?].
    apply within_bind; [fp_go|intros ?].
    apply within_bind; [apply within_pm_collapse_loop|intros ?]. auto.
  Qed.
  Lemma within_pm_merge_sort n cap : within (n + cap) (pm_merge_sort c n cap : P ms_result).
  Proof. apply within_pm_sort_loop. Qed.
End chunk.

Section merge.
  Context {T : Type} (c : cfg).
  Notation P A := (cmp_prog T A).
  Local Transparent bind on_unwind.
  Local Arguments bind {T Q R A B} !p f.
  Local Arguments on_unwind {T Q R A} c !p.

  Lemma fp_unwound {A B} F (d : P unit) e (f : A → P B) :
    fp F d → fp F (bind (on_unwind d (Throw e)) f).
  Proof.
    intros Hd. simpl. eapply (fp_bind_rets F (λ _, False)); [|by apply rets_bind|done].
    apply fp_bind; [done|]. intros _. apply fp_throw.
  Qed.

  Lemma fp_vget (F : nat → Prop) (v : view) i :
    (i < v.2 → F (v.1 + i)) → fp F (vget v i : P T).
  Proof.
    intros H. unfold vget. destruct (Nat.ltb_spec i v.2); [|apply fp_throw].
    apply fp_Read; [auto|]. intros. apply fp_ret.
  Qed.
  Lemma fp_vput (F : nat → Prop) (v : view) i (x : T) :
    (i < v.2 → F (v.1 + i)) → fp F (vput v i x : P unit).
  Proof.
    intros H. unfold vput. destruct (Nat.ltb_spec i v.2); [|apply fp_throw].
    apply fp_Write; [auto|]. intros. apply fp_ret.
  Qed.
  Lemma fp_vcopy (F : nat → Prop) (u v : view) j i (x : T) :
    (i < v.2 → F (v.1 + i)) → fp F (vcopy u j v i x : P unit).
  Proof. intros H. unfold vcopy. destruct (_ =? _); [apply fp_undef|by apply fp_vput]. Qed.
  Lemma fp_for_up (F : nat → Prop) a cnt (body : nat → P unit) :
    (∀ i, a ≤ i < a + cnt → fp F (body i)) → fp F (for_up a cnt body).
  Proof.
    revert a. induction cnt as [|k IH]; intros a Hb; simpl; [apply fp_ret|].
    apply fp_bind; [apply Hb; lia|intros _]. apply IH. intros. apply Hb. lia.
  Qed.
  Lemma fp_is_less (F : nat → Prop) (a b : T) : fp F (is_less a b).
  Proof. apply fp_Ask. intros [|]; [apply fp_ret|apply fp_throw]. Qed.

  Definition in_view (v : view) (i : nat) : Prop := v.1 ≤ i < v.1 + v.2.

  Lemma fp_split_search_right fuel left right lm a b (F : nat → Prop) :
    (∀ i, in_view left i → F i) → (∀ i, in_view right i → F i) →
    fp F (split_search_right fuel left right lm a b : P nat).
  Proof.
    intros Hl Hr. revert a b.
    induction fuel as [|f IH]; intros a b; cbn [split_search_right]; [apply fp_nofuel|].
    destruct (a <? b); [|apply fp_ret]. cbv zeta.
    apply fp_bind; [apply fp_vget; intros; apply Hr; unfold in_view; lia|intros y].
    apply fp_bind; [apply fp_vget; intros; apply Hl; unfold in_view; lia|intros x].
    apply fp_bind; [apply fp_is_less|intros []]; auto.
  Qed.
  Lemma fp_split_search_left fuel left right lm a b (F : nat → Prop) :
    (∀ i, in_view left i → F i) → (∀ i, in_view right i → F i) →
    fp F (split_search_left fuel left right lm a b : P nat).
  Proof.
    intros Hl Hr. revert a b.
    induction fuel as [|f IH]; intros a b; cbn [split_search_left]; [apply fp_nofuel|].
    destruct (a <? b); [|apply fp_ret]. cbv zeta.
    apply fp_bind; [apply fp_vget; intros; apply Hr; unfold in_view; lia|intros y].
    apply fp_bind; [apply fp_vget; intros; apply Hl; unfold in_view; lia|intros x].
    apply fp_bind; [apply fp_is_less|intros []]; auto.
  Qed.
  Lemma fp_split_for_merge left right (F : nat → Prop) :
    (∀ i, in_view left i → F i) → (∀ i, in_view right i → F i) →
    fp F (split_for_merge left right : P (nat * nat)).
  Proof.
    intros Hl Hr. unfold split_for_merge. destruct (_ <=? _);
      (apply fp_bind; [|intros; apply fp_ret]);
      [by apply fp_split_search_right|by apply fp_split_search_left].
  Qed.

  (** The destination of a merge is as long as the two sources together. *)
  Definition mergeF (left right : view) (db : nat) (i : nat) : Prop :=
    in_view left i ∨ in_view right i ∨ db ≤ i < db + (left.2 + right.2).

  Lemma fp_state_drop left right dest ls rs ds :
    ds = ls + rs → rs ≤ right.2 →
    fp (mergeF left right dest.1) (state_drop left right dest ls rs ds : P unit).
  Proof.
    intros -> Hrs. unfold state_drop, usub.
    destruct (Nat.leb_spec ls left.2); [|apply fp_throw]. simpl.
    apply fp_bind.
    { apply fp_for_up. intros i Hi. apply fp_bind; [apply fp_vget|intros x; apply fp_vcopy];
        unfold mergeF, in_view; lia. }
    intros _.
    destruct (Nat.leb_spec rs right.2); [|apply fp_throw]. simpl.
    apply fp_for_up. intros i Hi. apply fp_bind; [apply fp_vget|intros x; apply fp_vcopy];
        unfold mergeF, in_view; lia.
  Qed.
  Lemma fp_seq_merge fuel left right dest ls rs ds :
    ds = ls + rs → rs ≤ right.2 →
    fp (mergeF left right dest.1) (seq_merge fuel left right dest ls rs ds : P unit).
  Proof.
    revert ls rs ds. induction fuel as [|f IH]; intros ls rs ds Hds Hrs; cbn [seq_merge]; [apply fp_nofuel|].
    cbv zeta. pose proof (fp_state_drop left right dest ls rs ds Hds Hrs) as Hd.
    destruct (Nat.ltb_spec ls left.2); cbn [andb]; [|done].
    destruct (Nat.ltb_spec rs right.2); [|done].
    apply fp_bind; [apply fp_on_unwind; [done|]; apply fp_vget; unfold mergeF, in_view; lia|intros x].
    apply fp_bind; [apply fp_on_unwind; [done|]; apply fp_vget; unfold mergeF, in_view; lia|intros y].
    apply fp_bind; [apply fp_on_unwind; [done|]; apply fp_is_less|intros []].
    - apply fp_bind; [apply fp_on_unwind; [done|]; apply fp_vcopy; unfold mergeF, in_view; lia|intros _].
      apply IH; lia.
    - apply fp_bind; [apply fp_on_unwind; [done|]; apply fp_vcopy; unfold mergeF, in_view; lia|intros _].
      apply IH; lia.
  Qed.

  Lemma fp_rayon_join {B C} (F F1 F2 : nat → Prop) (p1 : P B) (p2 : P C) :
    (∀ i, F1 i → F i) → (∀ i, F2 i → F i) → (∀ i, F1 i → F2 i → False) →
    fp F1 p1 → fp F2 p2 → fp F (rayon_join p1 p2).
  Proof.
    intros H1 H2 Hd Hp1 Hp2. eapply fp_Par; [exact H1|exact H2|exact Hd|done|done|].
    intros [b|e1] [d|e2]; first [apply fp_ret|apply fp_throw].
  Qed.

  Local Opaque rayon_join.
  (** The two sources and the destination of a merge lie apart. *)
  Definition apart (a la b lb : nat) : Prop := a + la ≤ b ∨ b + lb ≤ a.
  Definition merge_apart (left right : view) (db : nat) : Prop :=
    apart left.1 left.2 right.1 right.2 ∧
    apart left.1 left.2 db (left.2 + right.2) ∧ apart right.1 right.2 db (left.2 + right.2).

  Lemma fp_par_merge fuel left right dest :
    merge_apart left right dest.1 →
    fp (mergeF left right dest.1) (par_merge fuel left right dest : P unit).
  Proof.
    revert left right dest.
    induction fuel as [|f IH]; intros [lb ll] [rb rl] [db dl] Hap; cbn [par_merge]; [apply fp_nofuel|].
    cbv zeta.
    destruct (merge_sequential _ _); [apply fp_seq_merge; simpl; lia|].
    pose proof (fp_state_drop (lb, ll) (rb, rl) (db, dl) 0 0 0 eq_refl (Nat.le_0_l _)) as Hd.
    simpl fst in *. simpl snd in *.
    set (d := state_drop _ _ _ _ _ _) in *. clearbody d.
    unfold merge_apart, apart in Hap. simpl in Hap.
    apply fp_bind.
    { apply fp_on_unwind; [done|]. apply fp_split_for_merge; intros; [by left|by right; left]. }
    intros [lm rm]. unfold vsplit; simpl.
    destruct (Nat.leb_spec lm ll); [|by apply fp_unwound]. simpl.
    destruct (Nat.leb_spec rm rl); [|by apply fp_unwound]. simpl.
    destruct (Nat.leb_spec (lm + rm) dl); [|apply fp_throw]. simpl.
    apply fp_bind; [|intros; apply fp_ret].
    eapply fp_rayon_join; [| | |apply IH|apply IH]; unfold mergeF, in_view, merge_apart, apart; simpl; lia.
  Qed.

  Local Opaque par_merge.
  (** Chunks that follow each other from [a] to [b]. *)
  Fixpoint chain (a : nat) (chunks : list (nat * nat)) (b : nat) : Prop :=
    match chunks with
    | [] => a = b
    | (x, y) :: r => x = a ∧ x ≤ y ∧ chain y r b
    end.
  Lemma chain_le a ch b : chain a ch b → a ≤ b.
  Proof. revert a. induction ch as [|[x y] ch IH]; simpl; intros a; [lia|]. intros (-> & H & Hc%IH). lia. Qed.
  Lemma chain_app a c1 c2 b : chain a (c1 ++ c2) b ↔ ∃ m, chain a c1 m ∧ chain m c2 b.
  Proof.
    revert a. induction c1 as [|[x y] c1 IH]; simpl; intros a.
    - naive_solver.
    - setoid_rewrite IH. naive_solver.
  Qed.

  Definition recF (vb bb a b i : nat) : Prop := vb + a ≤ i < vb + b ∨ bb + a ≤ i < bb + b.

  Lemma fp_copy_on_drop (src dest : view) s k (F : nat → Prop) :
    (∀ i, src.1 + s ≤ i < src.1 + s + k → F i) → (∀ i, dest.1 + s ≤ i < dest.1 + s + k → F i) →
    fp F (copy_on_drop src dest s k : P unit).
  Proof.
    intros H1 H2. unfold copy_on_drop. apply fp_for_up. intros i Hi.
    apply fp_bind; [apply fp_vget|intros x; apply fp_vcopy]; intros; [apply H1|apply H2]; lia.
  Qed.

  Lemma fp_pm_recurse fuel vb bb n chunks a b (into_buf : bool) :
    chain a chunks b → b ≤ n → apart vb n bb n →
    fp (recF vb bb a b) (pm_recurse c fuel (vb, n) (bb, n) chunks into_buf : P unit).
  Proof.
    intros Hch Hb Hap. revert chunks a b into_buf Hch Hb.
    induction fuel as [|f IH]; intros chunks a b into_buf Hch Hb; cbn [pm_recurse]; [apply fp_nofuel|].
    cbv zeta. apply fp_bind; [unfold dassert; destruct (_ && _); [apply fp_throw|apply fp_ret]|intros _].
    destruct (Nat.eqb_spec (length chunks) 1) as [H1|H1].
    { destruct into_buf; [|apply fp_ret].
      destruct chunks as [|[x y] [|]]; simpl in *; try lia.
      destruct Hch as (-> & Hxy & <-).
      apply fp_for_up. intros i Hi.
      apply fp_bind; [apply fp_vget|intros; apply fp_vcopy]; unfold recF; simpl; lia. }
    unfold chunk_get at 1.
    destruct (chunks !! 0) as [[start e0]|] eqn:H0; [|apply fp_throw]. simpl.
    assert (start = a) as ->.
    { destruct chunks as [|[x y] ch]; simpl in *; [done|]. by simplify_eq; destruct Hch as [-> _]. }
    unfold chunk_get at 1.
    destruct (chunks !! (length chunks / 2)) as [[mid e1]|] eqn:Hm; [|apply fp_throw]. simpl.
    unfold usub at 1. destruct (Nat.leb_spec 1 (length chunks)) as [Hlen|]; [|apply fp_throw]. simpl.
    unfold chunk_get at 1.
    destruct (chunks !! (length chunks - 1)) as [[e2 end_]|] eqn:He; [|apply fp_throw]. simpl.
    assert (end_ = b) as ->.
    { clear -Hch He Hlen. destruct (exists_last (l := chunks)) as (ch & [x y] & ->); [by intros ->; simpl in *; lia|].
      rewrite app_length in He. simpl in He. replace (_ + 1 - 1) with (length ch) in He by lia.
      rewrite list_lookup_middle in He by done. simplify_eq.
      apply chain_app in Hch as (m & _ & _ & _ & H). done. }
    pose proof (take_drop_middle _ _ _ Hm) as Hsplit.
    assert (Hchl : chain a (take (length chunks / 2) chunks) mid ∧ chain mid (drop (length chunks / 2) chunks) b).
    { rewrite <-(take_drop (length chunks / 2) chunks) in Hch.
      apply chain_app in Hch as (m & Hc1 & Hc2). erewrite drop_S in Hc2 |- * by exact Hm.
      simpl in Hc2. destruct Hc2 as (<- & ? & ?). simpl. done. }
    destruct Hchl as [Hc1 Hc2]. pose proof (chain_le _ _ _ Hc1). pose proof (chain_le _ _ _ Hc2).
    set (src := if into_buf then (vb, n) : view else (bb, n) : view).
    set (dest := if into_buf then (bb, n) : view else (vb, n) : view).
    replace (if into_buf then ((vb, n) : view, (bb, n) : view) else ((bb, n) : view, (vb, n) : view))
      with (src, dest) by (unfold src, dest; by destruct into_buf).
    assert (Hs : src.2 = n ∧ dest.2 = n ∧
      ((src.1 = vb ∧ dest.1 = bb) ∨ (src.1 = bb ∧ dest.1 = vb))).
    { unfold src, dest. destruct into_buf; simpl; auto. }
    clearbody src dest. destruct Hs as (Hs1 & Hs2 & Hs3).
    unfold usub at 1. destruct (Nat.leb_spec a b); [|apply fp_throw]. simpl.
    unfold apart in Hap.
    apply fp_bind.
    { apply fp_on_unwind.
      - apply fp_copy_on_drop; unfold recF; lia.
      - eapply fp_rayon_join; [| | |apply (IH _ a mid); [done|lia]|apply (IH _ mid b); [done|lia]];
          unfold recF; lia. }
    intros _. unfold vslice at 1. rewrite Hs1.
    destruct (Nat.leb_spec a mid); [|lia]. destruct (Nat.leb_spec mid n); [|apply fp_throw]. simpl.
    unfold vslice at 1. rewrite Hs1.
    destruct (Nat.leb_spec mid b); [|lia]. destruct (Nat.leb_spec b n); [|lia]. simpl.
    unfold vslice at 1. rewrite Hs2.
    destruct (Nat.leb_spec a n); [|lia]. rewrite Nat.leb_refl. simpl.
    eapply fp_mono; [|apply fp_par_merge].
    - unfold mergeF, in_view, recF. simpl. lia.
    - unfold merge_apart, apart. simpl. lia.
  Qed.
End merge.

Section bridge.
  Context {T Q R : Type}.
  Notation P A := (prog T Q R A).
  (** Chunk and buffer part of a task on [m] elements from [l] on. *)
  Definition chunkF (n l m i : nat) : Prop := l ≤ i < l + m ∨ n + l ≤ i < n + l + m.
  Inductive tasks_fp {B} (n : nat) : nat → list (P B) → Prop :=
    | tasks_fp_nil l : tasks_fp n l []
    | tasks_fp_cons l m l' t ts :
        l + m ≤ n → l + m ≤ l' → fp (chunkF n l m) t → tasks_fp n l' ts → tasks_fp n l (t :: ts).
  Lemma fp_par_each {B} n l (ts : list (P B)) :
    tasks_fp n l ts → fp (λ i, l ≤ i < n ∨ n + l ≤ i < n + n) (par_each ts).
  Proof.
    induction 1 as [l|l m l' t ts Hn Hl Ht Hts IH]; simpl; [apply fp_ret|].
    eapply fp_Par; [| | |exact Ht|exact IH|]; unfold chunkF; simpl; [lia..|].
    intros b [bs|e]; [apply fp_ret|apply fp_throw].
  Qed.
  Lemma tasks_fp_first {B} n l (ts : list (P B)) take_item i :
    tasks_fp n l ts → tasks_fp n l (bridge_first take_item i ts).
  Proof.
    intros H. revert i. induction H as [l|l m l' t ts Hn Hl Ht Hts IH]; intros i; simpl; [constructor|].
    econstructor; [exact Hn|exact Hl| |apply IH].
    destruct (take_item i); [|apply fp_ret]. apply fp_bind; [done|intros; apply fp_ret].
  Qed.
  Lemma tasks_fp_rest {B} n l (ts : list (P B)) rs :
    tasks_fp n l ts → tasks_fp n l (bridge_rest rs ts).
  Proof.
    intros H. revert rs. induction H as [l|l m l' t ts Hn Hl Ht Hts IH]; intros [|[b|] rs]; simpl;
      try constructor; (econstructor; [exact Hn|exact Hl| |apply IH]); [apply fp_ret|done].
  Qed.
  Lemma fp_all_done {B} F (rs : list (B + exn)) : fp F (all_done rs : P (list B)).
  Proof.
    induction rs as [|[b|e] rs IH]; simpl; [apply fp_ret| |apply fp_throw].
    apply fp_bind; [done|intros; apply fp_ret].
  Qed.
  Lemma within_par_bridge {B} n (ts : list (P B)) take_item :
    tasks_fp n 0 ts → within (n + n) (par_bridge take_item ts).
  Proof.
    intros Hts. assert (Hle : ∀ i, 0 ≤ i < n ∨ n + 0 ≤ i < n + n → i < n + n) by lia.
    unfold par_bridge. apply within_bind.
    { eapply fp_mono; [exact Hle|]. by apply fp_par_each, tasks_fp_first. }
    intros rs. apply within_bind; [apply fp_all_done|intros rs'].
    apply within_bind; [|intros; apply fp_all_done].
    eapply fp_mono; [exact Hle|]. by apply fp_par_each, tasks_fp_rest.
  Qed.
End bridge.

Section sort.
  Context {T : Type} (c : cfg).
  Notation P A := (cmp_prog T A).
  Local Transparent bind.
  Local Arguments bind {T Q R A B} !p f.

  Lemma fp_chunk_task n l m : l + m ≤ n → fp (chunkF n l m) (chunk_task c n l m : P ms_result).
  Proof.
    intros Hn. unfold chunk_task.
    eapply fp_mono; [|apply (fp_relocate (λ i, i < m + m))]; [| |apply within_pm_merge_sort]; simpl.
    - intros j (i & Hi & ->). unfold chunkF. destruct (Nat.ltb_spec i m); lia.
    - intros i j Hi Hj. destruct (Nat.ltb_spec i m), (Nat.ltb_spec j m); lia.
  Qed.
  Lemma chunk_length_pos : 0 < CHUNK_LENGTH.
  Proof. unfold CHUNK_LENGTH. lia. Qed.
  Local Opaque CHUNK_LENGTH.
  Lemma tasks_fp_chunks f n l :
    tasks_fp n l (map (λ '(l, m), chunk_task c n l m) (axis_chunks f n l) : list (P ms_result)).
  Proof.
    revert l. induction f as [|f IH]; intros l; cbn [axis_chunks map]; [constructor|].
    destruct (Nat.ltb_spec l n); [|constructor]. cbn [map].
    econstructor; [| |apply fp_chunk_task|apply IH]; lia.
  Qed.

  (** Chunks and results, in order and without gaps. *)
  Fixpoint rchain (a : nat) (rest : list (nat * nat * ms_result)) (n : nat) : Prop :=
    match rest with
    | [] => a ≤ n
    | (x, y, _) :: r => x = a ∧ x ≤ y ∧ rchain y r n
    end.
  Lemma rets_bind_dep {A B} (Ψ1 : A → Prop) (Ψ : B → Prop) (p : P A) (f : A → P B) :
    rets Ψ1 p → (∀ a, Ψ1 a → rets Ψ (f a)) → rets Ψ (bind p f).
  Proof.
    revert B Ψ f.
    induction p as [A a|A e|A i k IH|A i x k IH|A q k IH|A B' C p1 IH1 p2 IH2 k IH| |];
      intros B Ψ f Hp Hf; simpl in *; eauto.
  Qed.
  Lemma rets_pm_concat n a b res rest :
    a ≤ b → rchain b rest n → rets (λ ch, ∃ e, chain a ch e ∧ e ≤ n) (pm_concat n a b res rest : P _).
  Proof.
    revert a b res. induction rest as [|[[x y] r] rest IH]; intros a b res Hab Hr; cbn [pm_concat]; cbv zeta.
    { apply rets_bind. intros _. simpl in *. exists b. auto. }
    simpl in Hr. destruct Hr as (-> & Hxy & Hr).
    apply rets_bind. intros [].
    - apply IH; [lia|done].
    - apply rets_bind. intros _. eapply rets_bind_dep; [by apply (IH b y)|].
      intros ch (e & Hch & He). simpl. exists e. auto.
  Qed.
  Lemma rchain_axis f n l results :
    l ≤ n → n ≤ l + f → rchain l (zip_with (λ '(l, m) res, (l, l + m, res)) (axis_chunks f n l) results) n.
  Proof.
    revert l results. induction f as [|f IH]; intros l results Hl Hf; simpl; [done|].
    destruct (Nat.ltb_spec l n); [|done]. destruct results as [|r rs]; simpl; [done|].
    split; [done|]. split; [lia|].
    destruct (decide (l + CHUNK_LENGTH ≤ n)) as [Hle|Hgt].
    - pose proof chunk_length_pos.
      replace (l + _ `min` _) with (l + CHUNK_LENGTH) by lia. apply IH; lia.
    - replace (l + _ `min` _) with n by lia.
      destruct f; simpl; [done|]. destruct (Nat.ltb_spec (l + CHUNK_LENGTH) n); [lia|]. simpl. done.
  Qed.
  Lemma within_pm_concat n n' a b res rest :
    n ≤ n' → within n' (pm_concat n a b res rest : P (list (nat * nat))).
  Proof.
    intros Hn. eapply within_mono; [exact Hn|].
    pose proof (λ m, within_reverse m : within m (MPartition.reverse m : P unit)) as Hrev.
    revert a b res. induction rest as [|[[x y] r] rest IH]; intros a b res; cbn [pm_concat]; fp_go.
  Qed.

  Lemma within_par_merge_sort take_item n :
    within (n + n) (par_merge_sort c take_item n : P unit).
  Proof.
    unfold par_merge_sort. destruct (zst c); [apply within_ret|].
    destruct (n <=? PM_MAX_INSERTION).
    { destruct (2 <=? n); [|apply within_ret]. apply within_for_down. intros i.
      apply within_le_slice; [lia|]. intros m. apply within_pm_insert_head. }
    destruct (n <=? CHUNK_LENGTH).
    { apply within_bind; [apply within_pm_merge_sort|intros res].
      destruct (ms_eqb res Descending); [|apply within_ret].
      eapply within_mono; [|apply within_reverse]. lia. }
    cbv zeta. apply within_bind; [apply within_par_bridge, tasks_fp_chunks|].
    intros results.
    pose proof (rchain_axis n n 0 results (Nat.le_0_l n) (le_n n)) as Hr.
    destruct (zip_with _ _ _) as [|[[a b] res] rest].
    { eapply fp_mono; [|apply (fp_pm_recurse c 1 0 n n [] 0 0)]; [unfold recF; lia|done|lia|unfold apart; lia]. }
    simpl in Hr. destruct Hr as (-> & Hab & Hr).
    eapply fp_bind_rets; [apply (within_pm_concat n (n + n)); lia|by apply rets_pm_concat|].
    intros ch (e & Hch & He).
    eapply fp_mono; [|apply (fp_pm_recurse c _ 0 n n ch 0 e)]; [unfold recF; lia|done|done|unfold apart; lia].
  Qed.
End sort.
