(** * The parallel stable sort with [usize] words is the one of the model. *)
From Verif Require Export MWordPar Exact TWordMerge.
From stdpp Require Import list.
From Coq Require Import NArith.

Section unwind.
  Local Transparent bind on_unwind.
  Lemma unwind_usub_ok {T Q R A} (d : prog T Q R unit) a b (f : nat → prog T Q R A) :
    b ≤ a → bind (on_unwind d (usub a b)) f = f (a - b).
  Proof. intros H. unfold usub. by rewrite (proj2 (Nat.leb_le _ _)). Qed.
  Lemma unwind_of_ret {T Q R A B} (d : prog T Q R unit) (a : A) (f : A → prog T Q R B) :
    bind (on_unwind d (Ret a)) f = f a.
  Proof. done. Qed.
End unwind.

Section chunk.
  Context {T : Type} (c : cfg).
  Notation P A := (cmp_prog T A).
  Notation any := (λ _, True).

  Lemma exact_get n i : exactly (λ _, i < n) (get (T:=T) (Q:=T*T) (R:=option bool) n i) (get n i).
  Proof. unfold get. destruct (Nat.ltb_spec i n); by repeat constructor. Qed.
  Lemma exact_any {A} (p : P A) : exactly any p p.
  Proof. by apply exact_refl. Qed.
  Lemma exact_step_bind {A B} (φ : B → Prop) (p : P A) (f g : A → P B) :
    (∀ a, exactly φ (f a) (g a)) → exactly φ (bind p f) (bind p g).
  Proof. intros H. eapply exact_bind; [apply exact_any|auto]. Qed.
  Lemma exact_unwind_bind {A B} (φ : B → Prop) d d' (p : P A) (f g : A → P B) :
    exactly any d d' → (∀ a, exactly φ (f a) (g a)) →
    exactly φ (bind (on_unwind d p) f) (bind (on_unwind d' p) g).
  Proof. intros Hd H. eapply exact_bind; [apply exact_on_unwind; [exact Hd|apply exact_any]|auto]. Qed.

  Lemma exact_insert_loop n tmp i cnt : 1 ≤ i →
    exactly any (pm_insert_loop_w (T:=T) c n tmp i cnt) (pm_insert_loop n tmp i cnt).
  Proof.
    revert i. induction cnt as [|k IH]; intros i Hi; cbn [pm_insert_loop_w pm_insert_loop]; [apply exact_any|].
    apply exact_unwind_bind; [apply exact_any|]. intros y.
    apply exact_unwind_bind; [apply exact_any|]. intros []; [|apply exact_any].
    rewrite unwind_wsub_ok by done. apply exact_unwind_bind; [apply exact_any|]. intros _. apply IH. lia.
  Qed.
  Lemma exact_insert_head n : exactly any (pm_insert_head_w (T:=T) c n) (pm_insert_head n).
  Proof.
    unfold pm_insert_head_w, pm_insert_head. destruct (2 <=? n); [|apply exact_any].
    do 2 (apply exact_step_bind; intros ?). apply exact_step_bind. intros []; [|apply exact_any].
    do 3 (apply exact_step_bind; intros ?). apply exact_insert_loop. lia.
  Qed.
  Lemma exact_copy_out n cap base cnt : allowed c n → base + cnt ≤ n →
    exactly any (pm_copy_out_w (T:=T) c n cap base cnt) (pm_copy_out n cap base cnt).
  Proof.
    intros Hn Hb. unfold allowed in *. apply exact_for_up. intros i _ Hi. rewrite uadd_ok by lia.
    apply exact_any.
  Qed.
  Lemma exact_hole_drop n cap start end_ dest : allowed c n → start ≤ end_ → end_ ≤ n →
    dest + (end_ - start) ≤ n →
    exactly any (pm_hole_drop_w (T:=T) c n cap start end_ dest) (pm_hole_drop n cap start end_ dest).
  Proof.
    intros Hn H1 H2 H3. unfold allowed in *. unfold pm_hole_drop_w, pm_hole_drop.
    rewrite wsub_ok, usub_ok by done. apply exact_for_up. intros i _ Hi.
    rewrite uadd_ok by lia. apply exact_step_bind. intros x. rewrite uadd_ok by lia. apply exact_any.
  Qed.
  Lemma exact_merge_fwd f n cap mid left right out : allowed c n →
    left ≤ mid → mid ≤ right → right ≤ n → out + mid = left + right →
    exactly any (pm_merge_fwd_w (T:=T) c f n cap mid left right out) (pm_merge_fwd f n cap mid left right out).
  Proof.
    intros Hn. revert left right out. induction f as [|f IH]; intros left right out H1 H2 H3 H4;
      cbn [pm_merge_fwd_w pm_merge_fwd]; [apply exact_any|]. cbv zeta.
    assert (Hd : exactly any (pm_hole_drop_w (T:=T) c n cap left mid out) (pm_hole_drop n cap left mid out)).
    { apply exact_hole_drop; [done|lia..]. }
    destruct (Nat.ltb_spec left mid); cbn [andb]; [|exact Hd].
    destruct (Nat.ltb_spec right n); [|exact Hd].
    assert (Hw : (N.of_nat n + 1 < words c)%N) by (pose proof (words_ge c); unfold allowed in *; lia).
    do 2 (apply exact_step_bind; intros ?). apply exact_unwind_bind; [exact Hd|]. intros [].
    - rewrite unwind_uadd_ok by lia. rewrite bind_of_ret, unwind_uadd_ok by lia.
      apply exact_step_bind. intros _. apply exact_unwind_bind; [exact Hd|]. intros _.
      rewrite !Nat.add_1_r. apply IH; lia.
    - rewrite unwind_uadd_ok by lia. rewrite bind_of_ret, unwind_uadd_ok by lia.
      apply exact_step_bind. intros _. apply exact_unwind_bind; [exact Hd|]. intros _.
      rewrite !Nat.add_1_r. apply IH; lia.
  Qed.
  Lemma exact_merge_bwd f n cap left right out : allowed c n →
    out ≤ n → out = left + right →
    exactly any (pm_merge_bwd_w (T:=T) c f n cap left right out) (pm_merge_bwd f n cap left right out).
  Proof.
    intros Hn. revert left right out. induction f as [|f IH]; intros left right out H1 H2;
      cbn [pm_merge_bwd_w pm_merge_bwd]; [apply exact_any|]. cbv zeta.
    assert (Hd : ∀ l r, l + r ≤ n →
      exactly any (pm_hole_drop_w (T:=T) c n cap 0 r l) (pm_hole_drop n cap 0 r l)).
    { intros. apply exact_hole_drop; [done|lia..]. }
    destruct (Nat.ltb_spec 0 left); cbn [andb]; [|apply Hd; lia].
    destruct (Nat.ltb_spec 0 right); [|apply Hd; lia].
    rewrite unwind_wsub_ok by lia. apply exact_step_bind. intros x.
    rewrite unwind_wsub_ok by lia. apply exact_step_bind. intros y.
    apply exact_unwind_bind; [apply Hd; lia|]. intros [].
    - rewrite unwind_wsub_ok, bind_of_ret, unwind_wsub_ok, unwind_usub_ok by lia.
      apply exact_step_bind. intros _. apply exact_unwind_bind; [apply Hd; lia|]. intros _. apply IH; lia.
    - rewrite bind_of_ret, unwind_wsub_ok, unwind_wsub_ok, unwind_usub_ok by lia.
      apply exact_step_bind. intros _. apply exact_unwind_bind; [apply Hd; lia|]. intros _. apply IH; lia.
  Qed.
  Lemma exact_merge n cap mid : allowed c n → mid ≤ n →
    exactly any (pm_merge_w (T:=T) c n cap mid) (pm_merge n cap mid).
  Proof.
    intros Hn Hm. unfold pm_merge_w, pm_merge. rewrite !wsub_ok, usub_ok by done.
    destruct (mid <=? n - mid).
    - eapply exact_bind; [apply exact_copy_out; [done|lia]|]. intros _ _. apply exact_merge_fwd; [done|lia..].
    - eapply exact_bind; [apply exact_copy_out; [done|lia]|]. intros _ _.
      apply exact_merge_bwd; [done|lia..].
  Qed.
  Lemma exact_slice_buf n a b (p q : nat → P unit) :
    (a ≤ b → b ≤ n → exactly any (p (b - a)) (q (b - a))) →
    exactly any (slice_buf n a b p) (slice_buf n a b q).
  Proof.
    intros H. unfold slice_buf. destruct (_ && _) eqn:E; [|constructor].
    apply andb_prop in E as [?%Nat.leb_le ?%Nat.leb_le]. apply exact_relocate; auto.
  Qed.

  (** ** Runs *)
  Lemma exact_streak f want n start : start < f →
    exactly (λ r, r ≤ start) (pm_streak_w (T:=T) c f want n start) (pm_streak want n start).
  Proof.
    revert start. induction f as [|f IH]; intros start Hf; [lia|].
    destruct start as [|s]; cbn [pm_streak_w pm_streak].
    - rewrite (proj2 (Nat.ltb_ge 0 0)) by lia. constructor. lia.
    - rewrite (proj2 (Nat.ltb_lt 0 (S s))) by lia. apply exact_step_bind. intros a.
      rewrite wsub_ok by lia. replace (S s - 1) with s by lia. apply exact_step_bind. intros b.
      apply exact_step_bind. intros r. destruct (Bool.eqb r want); [|constructor; lia].
      rewrite wsub_ok by lia. replace (S s - 1) with s by lia.
      eapply exact_mono; [apply IH; lia|]. simpl. lia.
  Qed.
  Lemma exact_reverse_loop fuel n half i : allowed c n → half ≤ n → i ≤ half → half - i < fuel →
    exactly any (reverse_loop_w (T:=T) c fuel n half (n - half) i)
      (for_up i (half - i) (λ i, bind (usub (half - 1) i) (λ j, swap n i (n - half + j)))).
  Proof.
    intros Hn Hh. revert i. induction fuel as [|f IH]; intros i Hi Hf; [lia|].
    cbn [reverse_loop_w]. destruct (Nat.ltb_spec i half).
    - replace (half - i) with (S (half - S i)) by lia. cbn [for_up].
      rewrite wsub_ok by lia. rewrite wsub_ok, usub_ok by lia.
      apply exact_step_bind. intros _. unfold allowed in *. rewrite uadd_ok by lia.
      rewrite Nat.add_1_r. apply IH; lia.
    - replace (half - i) with 0 by lia. by constructor.
  Qed.
  Lemma exact_reverse n : allowed c n → exactly any (reverse_w (T:=T) c n) (MPartition.reverse n).
  Proof.
    intros Hn. unfold reverse_w, MPartition.reverse. cbv zeta.
    pose proof (Nat.div_le_upper_bound n 2 n ltac:(lia) ltac:(lia)).
    rewrite wsub_ok by done. pose proof (exact_reverse_loop (S (n / 2)) n (n / 2) 0) as Hr.
    rewrite Nat.sub_0_r in Hr. apply Hr; [done|done|lia|lia].
  Qed.
  Lemma exact_find_run n end_ : allowed c n → 1 ≤ end_ → end_ ≤ n →
    exactly (λ r, ∀ s, r = inl s → s < end_) (pm_find_run_w (T:=T) c n end_) (pm_find_run n end_).
  Proof.
    intros Hn H1 He. unfold pm_find_run_w, pm_find_run. rewrite wsub_ok, usub_ok by done.
    destruct (Nat.ltb_spec 0 (end_ - 1)); [|constructor; intros ? [= <-]; lia]. cbv zeta.
    rewrite wsub_ok by lia. rewrite uadd_ok by (unfold allowed in *; lia).
    do 2 (apply exact_step_bind; intros ?). apply exact_step_bind. intros r.
    eapply exact_bind; [apply exact_streak; lia|]. cbv beta. intros start Hs. destruct r.
    - destruct (_ && _); [by constructor|].
      eapply exact_bind; [apply exact_slice; intros; apply exact_reverse; eapply allowed_le; [exact Hn|lia]|].
      intros _ _. constructor. intros ? [= <-]. lia.
    - rewrite wsub_ok, usub_ok by lia. destruct (_ =? _); constructor; [done|]. intros ? [= <-]. lia.
  Qed.
  Lemma exact_extend f n end_ start : start < f → start ≤ end_ →
    exactly (λ r, r ≤ start) (pm_extend_w (T:=T) c f n end_ start) (pm_extend n end_ start).
  Proof.
    revert start. induction f as [|f IH]; intros start Hf Hs; [lia|].
    destruct start as [|s]; cbn [pm_extend_w pm_extend].
    - rewrite (proj2 (Nat.ltb_ge 0 0)) by lia. constructor. lia.
    - rewrite (proj2 (Nat.ltb_lt 0 (S s))) by lia. rewrite wsub_ok, usub_ok by lia.
      destruct (_ <? MIN_RUN); [|constructor; lia].
      rewrite wsub_ok by lia. replace (S s - 1) with s by lia.
      eapply exact_bind; [apply exact_slice; intros; apply exact_insert_head|]. intros _ _.
      eapply exact_mono; [apply IH; lia|]. simpl. lia.
  Qed.

  (** ** The stack of runs, from the end of the array downwards. *)
  Fixpoint hanging (hi : nat) (runs : list run_t) (lo : nat) : Prop :=
    match runs with
    | [] => hi = lo
    | r :: rs => r_start r + r_len r = hi ∧ hanging (r_start r) rs lo
    end.
  Lemma hanging_le hi runs lo : hanging hi runs lo → lo ≤ hi.
  Proof. revert hi. induction runs as [|r rs IH]; simpl; [lia|]. intros s [? H%IH]. lia. Qed.
  Lemma hanging_lookup hi runs lo k r :
    hanging hi runs lo → runs !! k = Some r → lo ≤ r_start r ∧ r_start r + r_len r ≤ hi.
  Proof.
    revert hi k. induction runs as [|r' rs IH]; intros s k H Hk; [done|].
    destruct H as [Hs H]. destruct k as [|k]; simpl in Hk.
    - injection Hk as ->. apply hanging_le in H. lia.
    - destruct (IH _ _ H Hk). lia.
  Qed.
  Lemma hanging_next hi runs lo k a b : hanging hi runs lo →
    runs !! k = Some a → runs !! (k + 1) = Some b → r_start b + r_len b = r_start a.
  Proof.
    revert hi k. induction runs as [|r' rs IH]; intros s k H Ha Hb; [done|].
    destruct H as [Hs H]. destruct k as [|k]; simpl in *.
    - injection Ha as ->. destruct rs as [|b' rs]; [done|]. simpl in *. injection Hb as ->. lia.
    - by apply (IH (r_start r') k).
  Qed.
  Lemma hanging_merge hi runs lo k a b : hanging hi runs lo →
    runs !! k = Some a → runs !! (k + 1) = Some b →
    hanging hi (delete (k + 1) (<[k := Run (r_start b) (r_len b + r_len a)]> runs)) lo.
  Proof.
    revert hi k. induction runs as [|r' rs IH]; intros s k H Ha Hb; [done|].
    destruct H as [Hs H]. destruct k as [|k]; simpl in *.
    - injection Ha as ->. destruct rs as [|b' rs]; [done|]. simpl in *. injection Hb as ->.
      destruct H as [? H]. split; [lia|done].
    - split; [done|]. by apply IH.
  Qed.
  Lemma hanging_snoc hi runs lo start : hanging hi runs lo → start ≤ lo →
    hanging hi (runs ++ [Run start (lo - start)]) start.
  Proof.
    revert hi. induction runs as [|r rs IH]; intros hi H Hs; simpl in *; [subst; split; [lia|done]|].
    destruct H as [? H]. split; [done|]. by apply IH.
  Qed.

  Lemma and_then_ret (b d : bool) (q : P bool) : (b = true → q = Ret d) → and_then (Ret b) q = Ret (b && d).
  Proof. intros H. unfold and_then. rewrite bind_of_ret. destruct b; [by apply H|done]. Qed.
  Lemma or_else_ret (b d : bool) (p q : P bool) :
    p = Ret b → q = Ret d → or_else p q = Ret (b || d).
  Proof. intros -> ->. unfold or_else. rewrite bind_of_ret. by destruct b. Qed.
  Lemma pm_collapse_word n runs : allowed c n → bounded n runs →
    pm_collapse_w (T:=T) c runs = Ret (pm_collapse runs).
  Proof.
    intros Hn Hb. unfold allowed in Hn. unfold pm_collapse_w, pm_collapse. cbv zeta.
    set (len k := r_len (runs !!! k)). set (m := length runs).
    assert (Hat : ∀ k, 1 ≤ k ≤ m → len (m - k) ≤ n).
    { intros k Hk. pose proof (bounded_at n runs (m - k) Hb). unfold len, m in *. lia. }
    erewrite (and_then_ret (2 <=? m)).
    2: { intros H2%Nat.leb_le. apply or_else_ret; [|apply or_else_ret; [|apply or_else_ret]].
      - rewrite run_at_ok by (unfold m in *; lia). reflexivity.
      - rewrite !run_at_ok by (unfold m in *; lia). reflexivity.
      - apply and_then_ret. intros H3%Nat.leb_le. rewrite !run_at_ok by (unfold m in *; lia).
        rewrite uadd_ok by (pose proof (Hat 1); pose proof (Hat 2); unfold m, len in *; lia). reflexivity.
      - apply and_then_ret. intros H4%Nat.leb_le. rewrite !run_at_ok by (unfold m in *; lia).
        rewrite uadd_ok by (pose proof (Hat 2); pose proof (Hat 3); unfold m, len in *; lia). reflexivity. }
    rewrite bind_of_ret. fold m. rewrite !orb_assoc.
    destruct (Nat.leb_spec 2 m); cbn [andb]; [|done].
    match goal with |- (if ?b then _ else _) = Ret (if ?b' then _ else _) => change b' with b; destruct b; [|done] end.
    erewrite and_then_ret.
    2: { intros H3%Nat.leb_le. rewrite !run_at_ok by (unfold m in *; lia). reflexivity. }
    rewrite bind_of_ret. fold m.
    match goal with |- (if ?b then _ else _) = Ret (if ?b' then _ else _) => change b' with b; destruct b eqn:E end.
    - apply andb_prop in E as [H3%Nat.leb_le _]. by rewrite wsub_ok.
    - by rewrite wsub_ok.
  Qed.
  Lemma pm_collapse_lt runs r : pm_collapse runs = Some r → r + 1 < length runs.
  Proof.
    unfold pm_collapse. cbv zeta. destruct (Nat.leb_spec 2 (length runs)); cbn [andb]; [|done].
    destruct (_ || _); [|done]. destruct (Nat.leb_spec 3 (length runs)); cbn [andb].
    - destruct (_ <? _); intros [= <-]; lia.
    - intros [= <-]; lia.
  Qed.
  Lemma exact_run_get runs k :
    exactly (λ r, runs !! k = Some r) (run_get (T:=T) runs k) (run_get runs k).
  Proof. unfold run_get. destruct (runs !! k); by constructor. Qed.
  Lemma exact_collapse_loop f n cap lo runs : allowed c n → hanging n runs lo → length runs ≤ S n →
    exactly (λ rs, hanging n rs lo ∧ length rs ≤ length runs)
      (pm_collapse_loop_w (T:=T) c f n cap runs) (pm_collapse_loop f n cap runs).
  Proof.
    intros Hn. revert runs. induction f as [|f IH]; intros runs Hh Hl;
      cbn [pm_collapse_loop_w pm_collapse_loop]; [constructor|].
    rewrite (pm_collapse_word n); [|done|].
    2: { intros k r Hk. destruct (hanging_lookup _ _ _ _ _ Hh Hk). lia. }
    rewrite bind_of_ret. destruct (pm_collapse runs) as [r|] eqn:E; [|by constructor].
    apply pm_collapse_lt in E. pose proof (words_ge c).
    rewrite uadd_ok by (unfold allowed in *; lia).
    eapply exact_bind; [apply exact_run_get|]. cbv beta. intros b Hb.
    eapply exact_bind; [apply exact_run_get|]. cbv beta. intros a Ha.
    destruct (hanging_lookup _ _ _ _ _ Hh Ha), (hanging_lookup _ _ _ _ _ Hh Hb).
    pose proof (hanging_next _ _ _ _ _ _ Hh Ha Hb).
    rewrite uadd_ok by (unfold allowed in *; lia).
    eapply exact_bind.
    { apply exact_slice_buf. intros. apply exact_merge; [eapply allowed_le; [exact Hn|lia]|lia]. }
    intros _ _. rewrite uadd_ok by (unfold allowed in *; lia). rewrite uadd_ok by (unfold allowed in *; lia).
    assert (Hd : length (delete (r + 1) (<[r:=Run (r_start b) (r_len b + r_len a)]> runs)) ≤ length runs).
    { rewrite length_delete by (rewrite list_lookup_insert_ne by lia; eauto). rewrite insert_length. lia. }
    eapply exact_mono; [apply IH; [by apply hanging_merge|lia]|]. cbv beta. intros rs [? ?]. split; [done|lia].
  Qed.
  Lemma exact_sort_loop f n cap end_ runs : allowed c n → hanging n runs end_ → length runs + f ≤ S n →
    exactly any (pm_sort_loop_w (T:=T) c f n cap end_ runs) (pm_sort_loop c f n cap end_ runs).
  Proof.
    intros Hn. revert end_ runs. induction f as [|f IH]; intros end_ runs Hh Hl;
      cbn [pm_sort_loop_w pm_sort_loop]; [constructor|].
    pose proof (hanging_le _ _ _ Hh). destruct (Nat.ltb_spec 0 end_); [|apply exact_any].
    eapply exact_bind; [apply exact_find_run; [done|lia..]|]. cbv beta. intros [s|res] Hs; [|by constructor].
    specialize (Hs s eq_refl). eapply exact_bind; [apply exact_extend; lia|]. cbv beta. intros start ?.
    rewrite wsub_ok, usub_ok by lia.
    eapply exact_bind.
    { apply (exact_collapse_loop _ n cap start); [done|apply hanging_snoc; [done|lia]|].
      rewrite app_length. simpl. lia. }
    cbv beta. intros rs [? Hr]. rewrite app_length in Hr. simpl in Hr. apply IH; [done|lia].
  Qed.
  Lemma exact_merge_sort n cap : allowed c n →
    exactly any (pm_merge_sort_w (T:=T) c n cap) (pm_merge_sort c n cap).
  Proof. intros Hn. apply exact_sort_loop; [done|done|simpl; lia]. Qed.
End chunk.

Section merge.
  Context {T : Type} (c : cfg).
  Notation P A := (cmp_prog T A).
  Notation any := (λ _, True).

  Lemma half_bounds a b : a < b → a ≤ a + (b - a) / 2 < b.
  Proof. intros. pose proof (Nat.div_lt (b - a) 2). lia. Qed.
  Lemma exact_search_right f n left right left_mid a b : allowed c n → a ≤ b → b ≤ n →
    exactly (λ r, a ≤ r ≤ b) (split_search_right_w (T:=T) c f left right left_mid a b)
      (split_search_right f left right left_mid a b).
  Proof.
    intros Hn. revert a b. induction f as [|f IH]; intros a b Ha Hb;
      cbn [split_search_right_w split_search_right]; [constructor|].
    destruct (Nat.ltb_spec a b); [|constructor; lia]. cbv zeta. pose proof (half_bounds a b H).
    rewrite wsub_ok by lia. rewrite uadd_ok by (unfold allowed in *; lia).
    do 2 (apply exact_step_bind; intros ?). apply exact_step_bind. intros [].
    - rewrite uadd_ok by (unfold allowed in *; lia). eapply exact_mono; [apply IH; lia|]. simpl. lia.
    - eapply exact_mono; [apply IH; lia|]. simpl. lia.
  Qed.
  Lemma exact_search_left f n left right right_mid a b : allowed c n → a ≤ b → b ≤ n →
    exactly (λ r, a ≤ r ≤ b) (split_search_left_w (T:=T) c f left right right_mid a b)
      (split_search_left f left right right_mid a b).
  Proof.
    intros Hn. revert a b. induction f as [|f IH]; intros a b Ha Hb;
      cbn [split_search_left_w split_search_left]; [constructor|].
    destruct (Nat.ltb_spec a b); [|constructor; lia]. cbv zeta. pose proof (half_bounds a b H).
    rewrite wsub_ok by lia. rewrite uadd_ok by (unfold allowed in *; lia).
    do 2 (apply exact_step_bind; intros ?). apply exact_step_bind. intros [].
    - eapply exact_mono; [apply IH; lia|]. simpl. lia.
    - rewrite uadd_ok by (unfold allowed in *; lia). eapply exact_mono; [apply IH; lia|]. simpl. lia.
  Qed.
  Lemma exact_split left right n : allowed c n → left.2 + right.2 ≤ n →
    exactly any (split_for_merge_w (T:=T) c left right) (split_for_merge left right).
  Proof.
    intros Hn H. unfold split_for_merge_w, split_for_merge. cbv zeta. destruct (_ <=? _).
    - eapply exact_bind; [apply (exact_search_right _ n); [done|lia..]|]. intros. apply exact_any.
    - eapply exact_bind; [apply (exact_search_left _ n); [done|lia..]|]. intros. apply exact_any.
  Qed.
  Lemma exact_state_drop n left right dest ls rs ds : allowed c n → left.2 + right.2 ≤ n →
    ls ≤ left.2 → rs ≤ right.2 → ds = ls + rs →
    exactly any (state_drop_w (T:=T) c left right dest ls rs ds) (state_drop left right dest ls rs ds).
  Proof.
    intros Hn H H1 H2 ->. unfold allowed in *. unfold state_drop_w, state_drop.
    rewrite wsub_ok, usub_ok by done. eapply exact_bind.
    - apply exact_for_up. intros i _ Hi. rewrite uadd_ok by lia. apply exact_step_bind. intros x.
      rewrite uadd_ok by lia. apply exact_any.
    - intros _ _. rewrite wsub_ok, usub_ok by done. apply exact_for_up. intros i _ Hi.
      rewrite uadd_ok by lia. apply exact_step_bind. intros x.
      rewrite uadd_ok by lia. rewrite uadd_ok by lia. apply exact_any.
  Qed.
  Lemma exact_seq_merge f n left right dest ls rs ds : allowed c n → left.2 + right.2 ≤ n →
    ls ≤ left.2 → rs ≤ right.2 → ds = ls + rs →
    exactly any (seq_merge_w (T:=T) c f left right dest ls rs ds) (seq_merge f left right dest ls rs ds).
  Proof.
    intros Hn H. revert ls rs ds. induction f as [|f IH]; intros ls rs ds H1 H2 H3;
      cbn [seq_merge_w seq_merge]; [constructor|]. cbv zeta.
    assert (Hd : exactly any (state_drop_w (T:=T) c left right dest ls rs ds) (state_drop left right dest ls rs ds)).
    { by apply (exact_state_drop n). }
    destruct (Nat.ltb_spec ls left.2); cbn [andb]; [|exact Hd].
    destruct (Nat.ltb_spec rs right.2); [|exact Hd].
    do 2 (apply exact_unwind_bind; [exact Hd|intros ?]). apply exact_unwind_bind; [exact Hd|]. intros [].
    - apply exact_unwind_bind; [exact Hd|]. intros _.
      rewrite unwind_uadd_ok by (unfold allowed in *; lia). rewrite unwind_uadd_ok by (unfold allowed in *; lia).
      rewrite !Nat.add_1_r. apply IH; lia.
    - apply exact_unwind_bind; [exact Hd|]. intros _.
      rewrite unwind_uadd_ok by (unfold allowed in *; lia). rewrite unwind_uadd_ok by (unfold allowed in *; lia).
      rewrite !Nat.add_1_r. apply IH; lia.
  Qed.
  Lemma merge_sequential_word n ll rl : allowed c n → ll + rl ≤ n →
    merge_sequential_w (T:=T) c ll rl = Ret (merge_sequential ll rl).
  Proof.
    intros Hn H. unfold merge_sequential_w, merge_sequential. destruct (_ || _); [done|].
    by rewrite uadd_ok by (unfold allowed in *; lia).
  Qed.
  Lemma exact_vsplit (v : view) at_ :
    exactly (λ p, p.1.2 = at_ ∧ p.2.2 = v.2 - at_ ∧ at_ ≤ v.2) (vsplit (T:=T) v at_) (vsplit v at_).
  Proof. unfold vsplit. destruct (Nat.leb_spec at_ v.2); by constructor. Qed.
  Lemma exact_join {B C} (ψ : B → Prop) (ξ : C → Prop) (p1 q1 : P B) (p2 q2 : P C) :
    exactly ψ p1 q1 → exactly ξ p2 q2 → exactly any (rayon_join p1 p2) (rayon_join q1 q2).
  Proof.
    intros H1 H2. unfold rayon_join. eapply exact_par; [exact H1|exact H2|]. intros b d _ _.
    destruct b, d; by constructor.
  Qed.
  Lemma exact_par_merge f n left right dest : allowed c n → left.2 + right.2 ≤ n →
    exactly any (par_merge_w (T:=T) c f left right dest) (par_merge f left right dest).
  Proof.
    intros Hn. revert left right dest. induction f as [|f IH]; intros left right dest H;
      cbn [par_merge_w par_merge]; [constructor|]. cbv zeta.
    rewrite (merge_sequential_word n) by done. rewrite unwind_of_ret.
    destruct (merge_sequential left.2 right.2).
    { apply (exact_seq_merge _ n); [done|done|lia..]. }
    assert (Hd : exactly any (state_drop_w (T:=T) c left right dest 0 0 0) (state_drop left right dest 0 0 0)).
    { apply (exact_state_drop n); [done|done|lia..]. }
    eapply exact_bind; [apply exact_on_unwind; [exact Hd|by apply (exact_split _ _ n)]|].
    intros [lm rm] _.
    eapply exact_bind; [apply exact_on_unwind; [exact Hd|apply exact_vsplit]|].
    cbv beta. intros [ll lr] (H1 & H2 & H3). simpl in *.
    eapply exact_bind; [apply exact_on_unwind; [exact Hd|apply exact_vsplit]|].
    cbv beta. intros [rl rr] (H4 & H5 & H6). simpl in *.
    rewrite uadd_ok by (unfold allowed in *; lia).
    apply exact_step_bind. intros [dl dr].
    eapply exact_bind; [eapply exact_join; apply IH; lia|]. intros. apply exact_any.
  Qed.
  Lemma exact_copy_on_drop n src dest start len : allowed c n → start + len ≤ n →
    exactly any (copy_on_drop_w (T:=T) c src dest start len) (copy_on_drop src dest start len).
  Proof.
    intros Hn H. apply exact_for_up. intros i _ Hi.
    rewrite uadd_ok by (unfold allowed in *; lia). rewrite uadd_ok by (unfold allowed in *; lia).
    apply exact_any.
  Qed.

  (** ** Adjacent chunks *)
  Fixpoint linked (lo : nat) (chunks : list (nat * nat)) (hi : nat) : Prop :=
    match chunks with
    | [] => lo = hi
    | (a, b) :: rest => a = lo ∧ a < b ∧ linked b rest hi
    end.
  Lemma linked_le lo chunks hi : linked lo chunks hi → lo ≤ hi.
  Proof.
    revert lo. induction chunks as [|[a b] rest IH]; intros lo H; simpl in *; [lia|].
    destruct H as (-> & ? & H%IH). lia.
  Qed.
  Lemma linked_lookup lo chunks hi i a b :
    linked lo chunks hi → chunks !! i = Some (a, b) → lo ≤ a ∧ a < b ∧ b ≤ hi.
  Proof.
    revert lo i. induction chunks as [|[a' b'] rest IH]; intros lo i H Hi; [done|].
    destruct H as (-> & ? & H). destruct i as [|i]; simpl in Hi.
    - injection Hi as <- <-. apply linked_le in H. lia.
    - destruct (IH _ _ H Hi) as (? & ? & ?). lia.
  Qed.
  Lemma linked_first lo chunks hi a b : linked lo chunks hi → chunks !! 0 = Some (a, b) → a = lo.
  Proof. destruct chunks as [|[a' b'] rest]; [done|]. intros (-> & _) [= <- <-]. done. Qed.
  Lemma linked_split lo chunks hi k : linked lo chunks hi →
    ∃ mid, linked lo (take k chunks) mid ∧ linked mid (drop k chunks) hi.
  Proof.
    revert lo k. induction chunks as [|[a b] rest IH]; intros lo k H.
    - exists lo. destruct k; simpl in *; auto.
    - destruct k as [|k]; [exists lo; by split|]. destruct H as (-> & ? & H). simpl.
      destruct (IH b k H) as (mid & ? & ?). exists mid. auto.
  Qed.
  Lemma linked_mono lo chunks hi : linked lo chunks hi → lo + length chunks ≤ hi.
  Proof.
    revert lo. induction chunks as [|[a b] rest IH]; intros lo H; simpl in *; [lia|].
    destruct H as (-> & ? & H%IH). lia.
  Qed.
  Lemma exact_chunk_get chunks i :
    exactly (λ x, chunks !! i = Some x) (chunk_get (T:=T) chunks i) (chunk_get chunks i).
  Proof. unfold chunk_get. destruct (chunks !! i); by constructor. Qed.
  Lemma exact_vslice (v : view) a b :
    exactly (λ w, w.2 = b - a ∧ a ≤ b ∧ b ≤ v.2) (vslice (T:=T) v a b) (vslice v a b).
  Proof.
    unfold vslice. destruct (_ && _) eqn:E; constructor.
    by apply andb_prop in E as [?%Nat.leb_le ?%Nat.leb_le].
  Qed.
  Lemma exact_recurse f n v buf chunks lo hi into_buf : allowed c n → linked lo chunks hi → hi ≤ n →
    exactly any (pm_recurse_w (T:=T) c f v buf chunks into_buf) (pm_recurse c f v buf chunks into_buf).
  Proof.
    intros Hn. revert chunks lo hi into_buf. induction f as [|f IH]; intros chunks lo hi into_buf Hl Hh;
      cbn [pm_recurse_w pm_recurse]; [constructor|]. cbv zeta.
    apply exact_step_bind. intros _. destruct (Nat.eqb_spec (length chunks) 1); [apply exact_any|].
    eapply exact_bind; [apply exact_chunk_get|]. cbv beta. intros [start b0] H0.
    eapply exact_bind; [apply exact_chunk_get|]. cbv beta. intros [mid b1] H1.
    pose proof (lookup_lt_Some _ _ _ H0). rewrite wsub_ok, usub_ok by lia.
    eapply exact_bind; [apply exact_chunk_get|]. cbv beta. intros [a2 end_] H2.
    destruct (linked_lookup _ _ _ _ _ _ Hl H2) as (? & ? & ?).
    pose proof (linked_first _ _ _ _ _ Hl H0). subst start.
    destruct (linked_split _ _ _ (length chunks / 2) Hl) as (m & HL & HR).
    pose proof (linked_le _ _ _ HR).
    set (src := if into_buf then v else buf). set (dest := if into_buf then buf else v).
    replace (if into_buf then (v, buf) else (buf, v)) with (src, dest) by (by destruct into_buf).
    rewrite wsub_ok, usub_ok by lia.
    eapply exact_bind.
    { apply exact_on_unwind; [apply (exact_copy_on_drop n); [done|lia]|].
      eapply exact_join; [eapply IH; [exact HL|lia]|eapply IH; [exact HR|lia]]. }
    intros _ _.
    eapply exact_bind; [apply exact_vslice|]. cbv beta. intros sl (E1 & ? & ?).
    eapply exact_bind; [apply exact_vslice|]. cbv beta. intros sr (E2 & ? & ?).
    apply exact_step_bind. intros dst. apply (exact_par_merge _ n); [done|lia].
  Qed.
End merge.

Section sort.
  Context {T : Type} (c : cfg).
  Notation P A := (cmp_prog T A).
  Notation any := (λ _, True).

  Lemma exact_par_each {B} (ts us : list (P B)) : Forall2 (exactly any) ts us →
    exactly any (par_each ts) (par_each us).
  Proof.
    induction 1 as [|t u ts us Ht _ IH]; simpl; [by constructor|].
    eapply exact_par; [exact Ht|exact IH|]. intros b [bs|e] _ _; by constructor.
  Qed.
  Lemma exact_bridge_first {B} take_item i (ts us : list (P B)) : Forall2 (exactly any) ts us →
    Forall2 (exactly any) (bridge_first take_item i ts) (bridge_first take_item i us).
  Proof.
    intros H. revert i. induction H as [|t u ts us Ht _ IH]; intros i; simpl; constructor; [|apply IH].
    destruct (take_item i); [|apply exact_any]. eapply exact_bind; [exact Ht|]. intros. apply exact_any.
  Qed.
  Lemma exact_bridge_rest {B} rs (ts us : list (P B)) : Forall2 (exactly any) ts us →
    Forall2 (exactly any) (bridge_rest rs ts) (bridge_rest rs us).
  Proof.
    intros H. revert rs. induction H as [|t u ts us Ht _ IH]; intros [|[b|] rs]; simpl; constructor;
      [apply exact_any|apply IH|exact Ht|apply IH].
  Qed.
  Lemma exact_bridge {B} take_item (ts us : list (P B)) : Forall2 (exactly any) ts us →
    exactly any (par_bridge take_item ts) (par_bridge take_item us).
  Proof.
    intros H. unfold par_bridge. eapply exact_bind; [by apply exact_par_each, exact_bridge_first|].
    intros rs _. apply exact_step_bind. intros bs.
    eapply exact_bind; [by apply exact_par_each, exact_bridge_rest|]. intros. apply exact_any.
  Qed.

  Lemma exact_chunk_task n i m : allowed c n → CHUNK_LENGTH * i + m ≤ n →
    exactly any (chunk_task_w (T:=T) c n i m) (chunk_task c n (CHUNK_LENGTH * i) m).
  Proof.
    intros Hn H. unfold chunk_task_w, chunk_task.
    generalize dependent CHUNK_LENGTH. intros C H.
    rewrite umul_ok by (rewrite <-Nat2N.inj_mul; unfold allowed in *; lia).
    rewrite uadd_ok by (unfold allowed in *; lia).
    apply exact_relocate, exact_merge_sort. eapply allowed_le; [exact Hn|lia].
  Qed.
  Lemma exact_tasks fuel n i : allowed c n →
    Forall2 (exactly any) (imap (λ k '(l, m), chunk_task_w (T:=T) c n (i + k) m) (axis_chunks fuel n (CHUNK_LENGTH * i)))
      (map (λ '(l, m), chunk_task c n l m) (axis_chunks fuel n (CHUNK_LENGTH * i))).
  Proof.
    intros Hn. revert i. induction fuel as [|f IH]; intros i; [constructor|].
    cbn [axis_chunks]. destruct (Nat.ltb_spec (CHUNK_LENGTH * i) n); [|constructor].
    rewrite imap_cons. cbn [map]. constructor.
    - rewrite Nat.add_0_r. apply exact_chunk_task; [done|]. generalize dependent CHUNK_LENGTH. intros. lia.
    - replace (CHUNK_LENGTH * i + CHUNK_LENGTH) with (CHUNK_LENGTH * S i).
      2: { generalize CHUNK_LENGTH. intros. lia. }
      erewrite imap_ext; [apply (IH (S i))|]. intros k [l m] _. cbn [compose]. f_equal. lia.
  Qed.
  Lemma linked_axis fuel n l (rs : list ms_result) : l ≤ n →
    ∃ hi, hi ≤ n ∧ linked l (map fst (zip_with (λ '(l, m) res, (l, l + m, res)) (axis_chunks fuel n l) rs)) hi.
  Proof.
    assert (HC : 0 < CHUNK_LENGTH) by (unfold CHUNK_LENGTH; apply Nat.lt_0_succ).
    revert l rs. induction fuel as [|f IH]; intros l rs Hl; [by exists l|].
    cbn [axis_chunks]. destruct (Nat.ltb_spec l n); [|by exists l].
    destruct rs as [|r rs]; [by exists l|]. cbn [zip_with map fst linked].
    generalize dependent CHUNK_LENGTH. intros C HC. destruct (decide (l + C ≤ n)).
    - destruct (IH (l + C) rs) as (hi & ? & Hi); [done|]. exists hi. split; [done|]. split; [done|].
      rewrite Nat.min_l by lia. split; [lia|exact Hi].
    - exists n. split; [done|]. split; [done|]. rewrite Nat.min_r by lia. split; [lia|].
      replace (l + (n - l)) with n by lia. destruct f; [done|]. cbn [axis_chunks].
      rewrite (proj2 (Nat.ltb_ge _ _)) by lia. done.
  Qed.
  Lemma exact_concat n a b res rest hi : allowed c n → linked a ((a, b) :: map fst rest) hi → hi ≤ n →
    exactly (λ chunks, linked a chunks hi) (pm_concat_w (T:=T) c n a b res rest) (pm_concat n a b res rest).
  Proof.
    intros Hn. revert a b res. induction rest as [|[[x y] r] rest IH]; intros a b res (_ & Hb & Hl) Hh;
      cbn [pm_concat_w pm_concat]; cbv zeta.
    - eapply (exact_bind any).
      { destruct (ms_eqb _ _); [|apply exact_any]. apply exact_slice. intros. apply exact_reverse.
        eapply allowed_le; [exact Hn|lia]. }
      intros _ _. constructor. simpl in *. done.
    - simpl in Hl. destruct Hl as (-> & ? & Hl).
      eapply (exact_bind any).
      { destruct (_ && _); [|apply exact_any]. apply exact_step_bind. intros p.
        rewrite wsub_ok, usub_ok by lia. apply exact_any. }
      intros [] _.
      + apply IH; [|done]. simpl. split; [done|]. split; [lia|done].
      + eapply (exact_bind any).
        { destruct (ms_eqb _ _); [|apply exact_any]. apply exact_slice. intros. apply exact_reverse.
          eapply allowed_le; [exact Hn|lia]. }
        intros _ _. eapply exact_bind; [apply (IH b y r); [|done]; simpl; auto|].
        cbv beta. intros chunks Hc. constructor. simpl. auto.
  Qed.
  Lemma exact_par_merge_sort take_item n : allowed c n →
    exactly any (par_merge_sort_w (T:=T) c take_item n) (par_merge_sort c take_item n).
  Proof.
    intros Hn. unfold par_merge_sort_w, par_merge_sort. destruct (zst c); [apply exact_any|].
    destruct (n <=? PM_MAX_INSERTION).
    { destruct (Nat.leb_spec 2 n); [|apply exact_any]. rewrite wsub_ok by lia.
      apply exact_for_down. intros. apply exact_slice. intros. apply exact_insert_head. }
    destruct (n <=? CHUNK_LENGTH).
    { eapply exact_bind; [by apply exact_merge_sort|]. intros res _.
      destruct (ms_eqb _ _); [by apply exact_reverse|apply exact_any]. }
    cbv zeta. eapply (exact_bind any).
    { apply exact_bridge. pose proof (exact_tasks n n 0 Hn) as H. rewrite Nat.mul_0_r in H. exact H. }
    intros results _. destruct (linked_axis n n 0 results ltac:(lia)) as (hi & Hh & Hl).
    revert Hl. generalize (zip_with (λ '(l, m) res, (l, l + m, res)) (axis_chunks n n 0) results).
    intros [|[[a b] res] rest] Hl.
    - apply (exact_recurse c _ n _ _ [] 0 0); [done|done|lia].
    - simpl in Hl. destruct Hl as (-> & Hb & Hl).
      eapply exact_bind; [apply (exact_concat n 0 b res rest hi); [done|simpl; auto|done]|].
      cbv beta. intros chunks Hc. by apply (exact_recurse c _ n _ _ chunks 0 hi).
  Qed.

  (** ** The methods, with sequential execution of the tasks and with any schedule. *)
  Lemma par_sort_word {S} (o : S → T * T → option bool * S) take_item s n l : allowed c n →
    run o (par_sort_w c take_item n) s l = run o (par_sort c take_item n) s l.
  Proof. intros Hn. exact (proj1 (exact_run o _ _ _ (exact_par_merge_sort take_item n Hn) s l)). Qed.
  Lemma par_sort_by_word {S} (o : S → T * T → option comparison * S) take_item s n (l : list T) : allowed c n →
    run o (par_sort_by_w c take_item n) s l = run o (par_sort_by c take_item n) s l.
  Proof.
    intros Hn. refine (proj1 (exact_run o _ _ _ _ s l)).
    apply exact_with_asks, exact_par_merge_sort, Hn.
  Qed.
  Lemma par_sort_by_key_word {S K} (o : S → key_question (T:=T) K → key_answer K * S) take_item s n l : allowed c n →
    run o (par_sort_by_key_w c take_item n) s l = run o (par_sort_by_key c take_item n) s l.
  Proof.
    intros Hn. refine (proj1 (exact_run o _ _ _ _ s l)).
    apply exact_with_asks, exact_par_merge_sort, Hn.
  Qed.
End sort.

(** The theorems about [par_sort] under every schedule, for words. *)
From Verif Require Import TParMerge.
From stdpp Require Import relations.

Section top.
  Context {T : Type} (c : cfg) (take_item : nat → bool).

  Lemma par_sort_word_schedules ans n mem Φ E : allowed c n →
    every_schedule ans (par_sort (T:=T) c take_item n) mem Φ E →
    every_schedule ans (par_sort_w c take_item n) mem Φ E.
  Proof. intros Hn. eapply exact_schedules. exact (exact_par_merge_sort c take_item n Hn). Qed.
  Lemma par_sort_by_word_schedules ans n mem Φ E : allowed c n →
    every_schedule ans (par_sort_by (T:=T) c take_item n) mem Φ E →
    every_schedule ans (par_sort_by_w c take_item n) mem Φ E.
  Proof. intros Hn. eapply exact_schedules. apply exact_with_asks, exact_par_merge_sort, Hn. Qed.
  Lemma par_sort_by_key_word_schedules {K} ans n mem Φ E : allowed c n →
    every_schedule ans (par_sort_by_key (T:=T) (K:=K) c take_item n) mem Φ E →
    every_schedule ans (par_sort_by_key_w c take_item n) mem Φ E.
  Proof. intros Hn. eapply exact_schedules. apply exact_with_asks, exact_par_merge_sort, Hn. Qed.

  (** Configurations reached on the way are the same, too. *)
  Lemma par_sort_by_word_steps ans n mem mem' p : allowed c n →
    rtc (stepm ans) (par_sort_by_w (T:=T) c take_item n, mem) (p, mem') →
    ∃ q, rtc (stepm ans) (par_sort_by c take_item n, mem) (q, mem') ∧ result p = result q.
  Proof.
    intros Hn Hs. destruct (exact_steps ans (λ _, True) _ (par_sort_by c take_item n) _ _ _
      ltac:(apply exact_with_asks, exact_par_merge_sort, Hn) Hs) as (q & ? & He).
    exists q. split; [done|]. exact (proj1 (exact_result _ _ _ He)).
  Qed.

  Lemma par_sort_word_sorts lt (l junk : list T) : allowed c (length l) →
    strict_weak_order lt → (zst c = true → ∀ x y : T, x = y) → length junk = length l →
    every_schedule (ans_lt lt) (par_sort_w c take_item (length l)) (l ++ junk)
      (λ _ m, let l' := take (length l) m in
         Permutation l l' ∧ sorted_wrt lt l' ∧ same_order_of_equals lt l l') (λ _ _, False).
  Proof. intros Hn H Hz Hj. by apply par_sort_word_schedules, par_sort_schedules. Qed.
  Lemma par_sort_by_word_sorts cmp (l junk : list T) : allowed c (length l) →
    strict_weak_order (is_lt cmp) → (zst c = true → ∀ x y : T, x = y) → length junk = length l →
    every_schedule (ans_cmp cmp) (par_sort_by_w c take_item (length l)) (l ++ junk)
      (λ _ m, let l' := take (length l) m in
         Permutation l l' ∧ sorted_wrt (is_lt cmp) l' ∧ same_order_of_equals (is_lt cmp) l l')
      (λ _ _, False).
  Proof. intros Hn H Hz Hj. by apply par_sort_by_word_schedules, par_sort_by_schedules. Qed.
  Lemma par_sort_by_key_word_sorts {K} (f : T → K) ltk (l junk : list T) : allowed c (length l) →
    let lt := λ a b, ltk (f a) (f b) in
    strict_weak_order lt → (zst c = true → ∀ x y : T, x = y) → length junk = length l →
    every_schedule (ans_key f ltk) (par_sort_by_key_w c take_item (length l)) (l ++ junk)
      (λ _ m, let l' := take (length l) m in
         Permutation l l' ∧ sorted_wrt lt l' ∧ same_order_of_equals lt l l') (λ _ _, False).
  Proof. intros Hn lt H Hz Hj. by apply par_sort_by_key_word_schedules, par_sort_by_key_schedules. Qed.
  Lemma par_sort_by_word_any ans (l junk : list T) : allowed c (length l) →
    (∀ q, ∃ r, ans q r) → length junk = length l →
    every_schedule ans (par_sort_by_w c take_item (length l)) (l ++ junk)
      (λ _ m, Permutation l (take (length l) m))
      (λ e m, e = UserPanic ∧ (∃ a b, a ∈ l ∧ b ∈ l ∧ ans (a, b) None) ∧
         Permutation l (take (length l) m)).
  Proof. intros Hn H Hj. by apply par_sort_by_word_schedules, par_sort_by_any_schedules. Qed.
End top.
