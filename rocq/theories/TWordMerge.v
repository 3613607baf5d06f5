(** * TWordMerge: merge sort with [usize] arithmetic does what the model does. *)
From Verif Require Export TWord.
From Coq Require Import NArith.

Section merge_word.
  Context {T : Type} (c : cfg).
  Notation P A := (cmp_prog T A).
  Implicit Types (n : nat) (buf : list T).

  Lemma tracks_copy_out cap n base i cnt buf : (N.of_nat (base + i + cnt) < words c)%N →
    tracks (λ _, True) (copy_out_w (T:=T) c cap n base i cnt buf) (copy_out cap n base i cnt buf).
  Proof.
    revert i buf. induction cnt as [|k IH]; intros i buf H; cbn [copy_out_w copy_out]; [by constructor|].
    rewrite uadd_ok by lia. fbind. intros x _. fbind. intros _ _. apply IH. lia.
  Qed.
  Lemma tracks_hole_drop n buf start end_ dest : (N.of_nat (dest + end_) < words c)%N →
    tracks (λ _, True) (merge_hole_drop_w (T:=T) c n buf start end_ dest) (merge_hole_drop n buf start end_ dest).
  Proof.
    intros H. unfold merge_hole_drop_w, merge_hole_drop. fbind. intros ? [-> ?].
    apply tracks_for_up. intros i ? ?. rewrite uadd_ok by lia. fbind. intros x _.
    rewrite uadd_ok by lia. by apply tracks_refl.
  Qed.
  Lemma mild_hole_drop n buf start end_ dest : mild (merge_hole_drop (T:=T) n buf start end_ dest).
  Proof.
    unfold merge_hole_drop. apply mild_bind.
    { unfold usub. destruct (_ <=? _); constructor. by right. }
    intros len. apply mild_for_up. intros i. apply mild_bind; [|intros; apply mild_put].
    unfold buf_get. destruct (buf !! _); constructor.
  Qed.
  Lemma tracks_merge_fwd f n mid buf left right out :
    allowed c n → mid ≤ n → out ≤ n →
    tracks (λ _, True) (merge_fwd_w (T:=T) c f n mid buf left right out) (merge_fwd f n mid buf left right out).
  Proof.
    intros Hn Hm. revert left right out. induction f as [|f IH]; intros left right out Ho;
      [apply tracks_doomed; constructor|].
    cbn [merge_fwd_w merge_fwd]. cbv zeta. unfold allowed in Hn.
    destruct (Nat.ltb_spec left mid); cbn [andb]; [|apply tracks_hole_drop; lia].
    destruct (Nat.ltb_spec right n); [|apply tracks_hole_drop; lia].
    fbind. intros x _. fbind. intros y _.
    eapply (tracks_bind (λ _, True)).
    { apply tracks_on_unwind; [apply mild_hole_drop|apply tracks_hole_drop; lia|by apply tracks_refl]. }
    intros is_l _. fbind. intros _ _. eapply tracks_bind.
    { apply tracks_on_unwind; [apply mild_hole_drop|apply tracks_hole_drop; lia|apply tracks_put]. }
    cbv beta. intros _ ?. rewrite unwind_uadd_ok by lia. rewrite Nat.add_1_r. destruct is_l.
    - rewrite unwind_uadd_ok by lia. rewrite Nat.add_1_r. apply IH. lia.
    - rewrite unwind_uadd_ok by lia. rewrite Nat.add_1_r. apply IH. lia.
  Qed.
  Lemma tracks_merge_bwd f n buf left right out :
    (N.of_nat (left + right) < words c)%N →
    tracks (λ _, True) (merge_bwd_w (T:=T) c f n buf left right out) (merge_bwd f n buf left right out).
  Proof.
    revert left right out. induction f as [|f IH]; intros left right out Hb;
      [apply tracks_doomed; constructor|].
    cbn [merge_bwd_w merge_bwd]. cbv zeta.
    destruct (Nat.ltb_spec 0 left); cbn [andb]; [|apply tracks_hole_drop; lia].
    destruct (Nat.ltb_spec 0 right); [|apply tracks_hole_drop; lia].
    rewrite unwind_wsub_ok by lia. fbind. intros x _. rewrite unwind_wsub_ok by lia.
    fbind. intros y _. eapply (tracks_bind (λ _, True)).
    { apply tracks_on_unwind; [apply mild_hole_drop|apply tracks_hole_drop; lia|by apply tracks_refl]. }
    intros [] _.
    - rewrite unwind_wsub_ok by lia. rewrite bind_of_ret. eapply tracks_bind.
      { apply tracks_on_unwind; [apply mild_hole_drop|apply tracks_hole_drop; lia|apply tracks_wsub]. }
      intros ? [-> ?]. fbind. intros _ _. eapply (tracks_bind (λ _, True)).
      { apply tracks_on_unwind; [apply mild_hole_drop|apply tracks_hole_drop; lia|by apply tracks_refl]. }
      intros _ _. apply IH. lia.
    - rewrite bind_of_ret. rewrite unwind_wsub_ok by lia. eapply tracks_bind.
      { apply tracks_on_unwind; [apply mild_hole_drop|apply tracks_hole_drop; lia|apply tracks_wsub]. }
      intros ? [-> ?]. fbind. intros _ _. eapply (tracks_bind (λ _, True)).
      { apply tracks_on_unwind; [apply mild_hole_drop|apply tracks_hole_drop; lia|by apply tracks_refl]. }
      intros _ _. apply IH. lia.
  Qed.
  Lemma tracks_merge cap n mid : allowed c n →
    tracks (λ _, True) (merge_w (T:=T) c cap n mid) (MMerge.merge cap n mid).
  Proof.
    intros Hn. unfold merge_w, MMerge.merge. fbind. intros ? [-> ?]. unfold allowed in Hn.
    destruct (mid <=? n - mid).
    - eapply tracks_bind; [apply tracks_copy_out; lia|]. intros buf _.
      apply tracks_merge_fwd; [done|lia|lia].
    - rewrite wsub_ok by done. eapply tracks_bind; [apply tracks_copy_out; lia|]. intros buf _.
      rewrite wsub_ok by done. apply tracks_merge_bwd. lia.
  Qed.

  Lemma tracks_streak_loop want f n end_ : allowed c n → 1 ≤ end_ → end_ ≤ n →
    tracks (λ e, e ≤ n) (streak_loop_w (T:=T) c want f n end_) (streak_loop want f n end_).
  Proof.
    intros Hn. revert end_. induction f as [|f IH]; intros e H1 He; [apply tracks_doomed; constructor|].
    cbn [streak_loop_w streak_loop]. destruct (Nat.ltb_spec e n); [|by constructor].
    fbind. intros a _. rewrite wsub_ok by done. fbind. intros b _. fbind. intros r _.
    destruct (Bool.eqb r want); [|by constructor]. unfold allowed in Hn. rewrite uadd_ok by lia.
    rewrite Nat.add_1_r. apply IH; lia.
  Qed.
  Lemma tracks_find_streak n : allowed c n →
    tracks (λ '(e, _), e ≤ n) (find_streak_w (T:=T) c n) (find_streak n).
  Proof.
    intros Hn. unfold find_streak_w, find_streak. destruct (Nat.ltb_spec n 2); [by constructor|].
    fbind. intros a _. fbind. intros b _. fbind. intros r _.
    eapply tracks_bind; [apply tracks_streak_loop; lia || done|]. intros e ?. by constructor.
  Qed.
  Lemma tracks_sorted_batch n start end_ : allowed c n →
    tracks (λ e, e ≤ n) (provide_sorted_batch_w (T:=T) c n start end_) (provide_sorted_batch c n start end_).
  Proof.
    intros Hn. unfold provide_sorted_batch_w, provide_sorted_batch. fbind.
    intros _ [?%Nat.leb_le ?%Nat.leb_le]%andb_prop. rewrite wsub_ok by done. cbv zeta.
    destruct (_ && _); [|by constructor]. pose proof (words_ge c). unfold allowed in Hn.
    rewrite uadd_ok by (unfold MIN_INSERTION_RUN; lia).
    eapply (tracks_bind (λ _, True)).
    - apply tracks_slice. intros. apply tracks_shift_left. unfold allowed. lia.
    - intros _ _. constructor. lia.
  Qed.

  (** ** The stack of runs *)
  Fixpoint chained (s : nat) (runs : list run_t) (e : nat) : Prop :=
    match runs with
    | [] => s = e
    | r :: rs => r_start r = s ∧ chained (s + r_len r) rs e
    end.
  Lemma chained_le s runs e : chained s runs e → s ≤ e.
  Proof. revert s. induction runs as [|r rs IH]; simpl; [lia|]. intros s [_ H%IH]. lia. Qed.
  Lemma chained_lookup s runs e k r :
    chained s runs e → runs !! k = Some r → s ≤ r_start r ∧ r_start r + r_len r ≤ e.
  Proof.
    revert s k. induction runs as [|r' rs IH]; intros s k H Hk; [done|].
    destruct H as [Hs H]. destruct k as [|k]; simpl in Hk.
    - injection Hk as ->. apply chained_le in H. lia.
    - destruct (IH _ _ H Hk). lia.
  Qed.
  Lemma chained_next s runs e k a b :
    chained s runs e → runs !! k = Some a → runs !! (k + 1) = Some b → r_start b = r_start a + r_len a.
  Proof.
    revert s k. induction runs as [|r' rs IH]; intros s k H Ha Hb; [done|].
    destruct H as [Hs H]. destruct k as [|k]; simpl in *.
    - injection Ha as ->. destruct rs as [|b' rs]; [done|]. simpl in *. injection Hb as ->. lia.
    - by apply (IH (s + r_len r') k).
  Qed.
  Lemma chained_merge s runs e k a b :
    chained s runs e → runs !! k = Some a → runs !! (k + 1) = Some b →
    chained s (delete k (<[k + 1 := Run (r_start a) (r_len a + r_len b)]> runs)) e.
  Proof.
    revert s k. induction runs as [|r' rs IH]; intros s k H Ha Hb; [done|].
    destruct H as [Hs H]. destruct k as [|k]; simpl in *.
    - injection Ha as ->. destruct rs as [|b' rs]; [done|]. simpl in *. injection Hb as ->.
      split; [done|]. destruct H as [_ H]. by rewrite Nat.add_assoc.
    - split; [done|]. by apply IH.
  Qed.
  Lemma chained_snoc s runs e len : chained s runs e → chained s (runs ++ [Run e len]) (e + len).
  Proof.
    revert s. induction runs as [|r rs IH]; intros s H; simpl in *; [by subst|].
    destruct H as [? H]. split; [done|]. by apply IH.
  Qed.

  Definition bounded (n : nat) (runs : list run_t) : Prop :=
    ∀ k r, runs !! k = Some r → r_start r + r_len r ≤ n.
  Lemma run_at_ok {A} runs k (f : run_t → P A) : 1 ≤ k ≤ length runs →
    bind (run_at (T:=T) c runs k) f = f (runs !!! (length runs - k)).
  Proof.
    intros H. unfold run_at. unfold wsub. rewrite (proj2 (Nat.leb_le _ _)) by lia.
    rewrite bind_of_ret. unfold run_get.
    destruct (lookup_lt_is_Some_2 runs (length runs - k)) as [x Hx]; [lia|].
    rewrite Hx, bind_of_ret. f_equal. symmetry. by apply list_lookup_total_correct.
  Qed.
  Lemma bounded_at n runs k : bounded n runs → k < length runs →
    r_start (runs !!! k) + r_len (runs !!! k) ≤ n.
  Proof.
    intros H Hk. destruct (lookup_lt_is_Some_2 runs k Hk) as [x Hx].
    rewrite (list_lookup_total_correct _ _ _ Hx). by apply (H k).
  Qed.
  Lemma tracks_or_else p q (b d : bool) :
    tracks (λ r, r = b) p (Ret b) → (b = false → tracks (λ r, r = d) q (Ret d)) →
    tracks (λ r, r = b || d) (or_else (T:=T) p q) (Ret (b || d)).
  Proof.
    intros Hp Hq. unfold or_else.
    replace (Ret (b || d)) with (bind (Ret b) (λ b, if b : bool then Ret true else @Ret T (T * T) (option bool) _ d))
      by (rewrite bind_of_ret; by destruct b).
    eapply tracks_bind; [exact Hp|]. intros ? ->. destruct b; [by constructor|]. by apply Hq.
  Qed.
  Lemma tracks_and_then (b d : bool) q :
    (b = true → tracks (λ r, r = d) q (Ret d)) →
    tracks (λ r, r = b && d) (and_then (T:=T) (Ret b) q) (Ret (b && d)).
  Proof. intros Hq. unfold and_then. rewrite bind_of_ret. destruct b; [by apply Hq|by constructor]. Qed.
  Lemma tracks_collapse n runs : allowed c n → bounded n runs →
    tracks (λ o, o = collapse runs n) (collapse_w (T:=T) c runs n) (Ret (collapse runs n)).
  Proof.
    intros Hn Hb. unfold allowed in Hn. unfold collapse_w. cbv zeta.
    set (len k := r_len (runs !!! k)). set (m := length runs).
    assert (Hat : ∀ k, 1 ≤ k ≤ m → len (m - k) ≤ n ∧ r_start (runs !!! (m - k)) + len (m - k) ≤ n).
    { intros k Hk. pose proof (bounded_at n runs (m - k) Hb). unfold len, m in *. lia. }
    set (b1 := r_start (runs !!! (m - 1)) + len (m - 1) =? n).
    set (b2 := len (m - 2) <=? len (m - 1)).
    set (b3 := (3 <=? m) && (len (m - 3) <=? len (m - 2) + len (m - 1))).
    set (b4 := (4 <=? m) && (len (m - 4) <=? len (m - 3) + len (m - 2))).
    set (t := (3 <=? m) && (len (m - 3) <? len (m - 1))).
    change (collapse runs n) with
      (if (2 <=? m) && (b1 || b2 || b3 || b4) then if t then Some (m - 3) else Some (m - 2) else None).
    match goal with |- tracks _ (bind ?g ?f) ?q => assert (Hg : tracks (λ r, r = (2 <=? m) && (b1 || b2 || b3 || b4)) g
      (Ret ((2 <=? m) && (b1 || b2 || b3 || b4)))) end.
    { apply tracks_and_then. intros H2%Nat.leb_le. rewrite <-!orb_assoc.
      apply tracks_or_else; [|intros _; apply tracks_or_else; [|intros _; apply tracks_or_else; [|intros _]]].
      - rewrite !run_at_ok by (unfold m in *; lia). rewrite uadd_ok by (pose proof (Hat 1); unfold m, len in *; lia).
        by constructor.
      - rewrite !run_at_ok by (unfold m in *; lia). by constructor.
      - apply tracks_and_then. intros H3%Nat.leb_le. rewrite !run_at_ok by (unfold m in *; lia).
        rewrite uadd_ok by (pose proof (Hat 1); pose proof (Hat 2); unfold m, len in *; lia). by constructor.
      - apply tracks_and_then. intros H4%Nat.leb_le. rewrite !run_at_ok by (unfold m in *; lia).
        rewrite uadd_ok by (pose proof (Hat 2); pose proof (Hat 3); unfold m, len in *; lia). by constructor. }
    match goal with |- tracks ?φ (bind ?g ?f) (Ret ?q) =>
      replace (@Ret T (T * T) (option bool) _ q) with (bind (@Ret T (T * T) (option bool) _ ((2 <=? m) && (b1 || b2 || b3 || b4)))
        (λ b, @Ret T (T * T) (option bool) _ q)) by (by rewrite bind_of_ret) end.
    eapply tracks_bind; [exact Hg|]. cbv beta. intros go ->.
    destruct ((2 <=? m) && (b1 || b2 || b3 || b4)) eqn:E; [|by constructor].
    apply andb_prop in E as [H2%Nat.leb_le _].
    match goal with |- tracks ?φ (bind ?g ?f) (Ret ?q) =>
      replace (@Ret T (T * T) (option bool) _ q) with (bind (@Ret T (T * T) (option bool) _ t)
        (λ b, @Ret T (T * T) (option bool) _ q)) by (by rewrite bind_of_ret) end.
    eapply (tracks_bind (λ r, r = t)).
    { apply tracks_and_then. intros H3%Nat.leb_le. rewrite !run_at_ok by (unfold m in *; lia). by constructor. }
    intros ? ->. destruct t eqn:Et.
    - apply andb_prop in Et as [H3%Nat.leb_le _]. rewrite wsub_ok by done. by constructor.
    - rewrite wsub_ok by done. by constructor.
  Qed.
  Lemma collapse_lt runs n r : collapse runs n = Some r → r + 1 < length runs.
  Proof.
    unfold collapse. cbv zeta. destruct (Nat.leb_spec 2 (length runs)); cbn [andb]; [|done].
    destruct (_ || _); [|done]. destruct (Nat.leb_spec 3 (length runs)); cbn [andb].
    - destruct (_ <? _); intros [= <-]; lia.
    - intros [= <-]; lia.
  Qed.
  Lemma tracks_run_get runs k :
    tracks (λ r, runs !! k = Some r) (run_get (T:=T) runs k) (run_get runs k).
  Proof. unfold run_get. destruct (runs !! k); constructor. done. Qed.
  Lemma tracks_collapse_loop f cap n e runs :
    allowed c n → chained 0 runs e → e ≤ n → length runs ≤ S n →
    tracks (λ rs, chained 0 rs e ∧ length rs ≤ length runs)
      (collapse_loop_w (T:=T) c f cap n runs) (collapse_loop f cap n runs).
  Proof.
    intros Hn Hc He. revert runs Hc. induction f as [|f IH]; intros runs Hc Hl;
      [apply tracks_doomed; constructor|].
    cbn [collapse_loop_w collapse_loop]. eapply tracks_bind_ret.
    { apply tracks_collapse; [done|]. intros k r Hk. destruct (chained_lookup _ _ _ _ _ Hc Hk). lia. }
    intros _. destruct (collapse runs n) as [r|] eqn:Ho; [|by constructor]. apply collapse_lt in Ho.
    pose proof (words_ge c). pose proof Hn as Hn'. unfold allowed in Hn'.
    eapply tracks_bind; [apply tracks_run_get|]. intros a Ha. rewrite uadd_ok by lia.
    eapply tracks_bind; [apply tracks_run_get|]. intros b Hb.
    destruct (chained_lookup _ _ _ _ _ Hc Ha), (chained_lookup _ _ _ _ _ Hc Hb).
    pose proof (chained_next _ _ _ _ _ _ Hc Ha Hb).
    rewrite uadd_ok by lia. eapply (tracks_bind (λ _, True)).
    { apply tracks_slice. intros. apply tracks_merge. eapply allowed_le; [exact Hn|lia]. }
    intros _ _. rewrite !uadd_ok by lia.
    assert (Hlen : length (delete r (<[r + 1:=Run (r_start a) (r_len a + r_len b)]> runs)) ≤ length runs).
    { rewrite length_delete by (apply lookup_lt_is_Some_2; rewrite insert_length; lia).
      rewrite insert_length. lia. }
    eapply tracks_mono; [apply IH; [by apply chained_merge|lia]|]. cbv beta. intros rs [? ?]. split; [done|lia].
  Qed.
  Lemma tracks_merge_sort_loop f cap n start runs :
    allowed c n → chained 0 runs start → start ≤ n → length runs + f ≤ S n →
    tracks (λ _, True) (merge_sort_loop_w (T:=T) c f cap n start start runs)
      (merge_sort_loop c f cap n start start runs).
  Proof.
    intros Hn. revert start runs. induction f as [|f IH]; intros start runs Hc Hs Hl;
      [apply tracks_doomed; constructor|].
    cbn [merge_sort_loop_w merge_sort_loop]. destruct (Nat.ltb_spec start n); [|by constructor].
    eapply tracks_bind.
    { apply (tracks_slice (λ '(e, _), e ≤ n - start)). intros. apply tracks_find_streak.
      eapply allowed_le; [exact Hn|lia]. }
    intros [e was] He. pose proof Hn as Hn'. unfold allowed in Hn'. rewrite uadd_ok by lia.
    eapply (tracks_bind (λ _, True)).
    { destruct was; [|by constructor]. apply tracks_slice. intros. apply tracks_reverse.
      eapply allowed_le; [exact Hn|lia]. }
    intros _ _. eapply tracks_bind; [by apply tracks_sorted_batch|]. intros end_ Hend. cbv beta in Hend.
    fbind. intros ? [-> ?].
    assert (Hc' : chained 0 (runs ++ [Run start (end_ - start)]) end_).
    { replace end_ with (start + (end_ - start)) at 2 by lia. by apply chained_snoc. }
    assert (Hl' : length (runs ++ [Run start (end_ - start)]) = S (length runs)).
    { rewrite app_length. simpl. lia. }
    eapply tracks_bind; [apply (tracks_collapse_loop _ _ _ end_); [done..|lia]|].
    cbv beta. intros rs [? ?]. apply IH; [done..|lia].
  Qed.
  Lemma tracks_stable_sort n : allowed c n →
    tracks (λ _, True) (stable_sort_w (T:=T) c n) (stable_sort c n).
  Proof.
    intros Hn. unfold stable_sort_w, stable_sort, merge_sort_w, merge_sort.
    destruct (zst c); [by constructor|]. fbind. intros _ _.
    destruct (n <=? _).
    { destruct (2 <=? n); [by apply tracks_shift_left|by constructor]. }
    eapply tracks_bind; [apply tracks_merge_sort_loop; simpl; lia || done|].
    intros runs _. by apply tracks_refl.
  Qed.
End merge_word.
