(** * TWordQuick: the parallel unstable sort and selection with [usize] arithmetic do what
    the model does. *)
From Verif Require Export Sane MWordQuick TWord TPar.
From stdpp Require Import list relations.
From Coq Require Import NArith.

Section alone.
  Local Transparent polite silent quiet.
  Lemma quiet_alone {T A} (p : cmp_prog T A) : quiet p → alone p.
  Proof.
    induction p as [A a|A e|A i k IH|A i x k IH|A q k IH|A B C p1 IH1 p2 IH2 k IH| |];
      simpl; auto; done.
  Qed.
  Lemma polite_alone {T A} (p : cmp_prog T A) : polite none_bad p → alone p.
  Proof.
    induction p as [A a|A e|A i k IH|A i x k IH|A q k IH|A B C p1 IH1 p2 IH2 k IH| |];
      simpl; auto.
    intros H r. destruct (H r) as [Hb Hg]. destruct r as [b|].
    - apply IH, Hg. by unfold none_bad.
    - by apply quiet_alone, Hb.
  Qed.
End alone.

(** ** The model's tasks do not panic badly. *)
Section sane.
  Context {T : Type} (c : cfg) (ans : T * T → option bool → Prop).
  Notation any := (λ _ _, True).
  Implicit Types (l : list T).

  Lemma sane_prim {A} (p : cmp_prog T A) (Ψ Φ : A → list T → Prop) (Ex : exn → list T → Prop) l :
    polite none_bad p → wp ans p Ψ Ex l → (∀ e l', Ex e l' → ¬ bad e) →
    (∀ a l', length l' = length l → Ψ a l' → Φ a l') → sane ans p Φ any l.
  Proof.
    intros Hp Hw HE HΦ. eapply sane_mono; [eapply sane_alone; [by apply polite_alone|exact Hw|exact HE]| |]; auto.
  Qed.
  Lemma upanic_not_bad l e l' : upanic ans l e l' → ¬ bad e.
  Proof. intros (-> & _ & _) [|]; done. Qed.

  Lemma par_qs_recurse_sane fuel n pred limit wb wp l :
    n = length l → n < fuel →
    sane ans (par_qs_recurse c fuel n pred limit wb wp) any any l.
  Proof.
    revert n pred limit wb wp l.
    induction fuel as [|f IHf]; intros n pred limit wb wp l Hn Hf; [lia|].
    cbn [par_qs_recurse].
    unfold QS_MAX_INSERTION. destruct (Nat.leb_spec n 20) as [Hs|Hs].
    { destruct (Nat.leb_spec 2 n); [|done].
      eapply sane_prim; [apply insertion_sort_shift_left_polite|
        by apply (insertion_sort_shift_left_spec c ans n 1 l); [|lia]|apply upanic_not_bad|done]. }
    destruct (Nat.eqb_spec limit 0) as [Hl|Hl].
    { eapply sane_prim; [apply heap_sort_polite|by apply (heap_sort_spec ans n l)|apply upanic_not_bad|done]. }
    apply sane_bind.
    eapply (sane_prim _ (λ _ l', l' ≡ₚ l) _ (upanic ans l)).
    { destruct wb; [polite|]. apply polite_bind; [apply silent_polite, break_patterns_silent|intros; polite]. }
    { destruct wb; [by apply wp_ret|]. apply wp_bind.
      wp_apply (break_patterns_spec ans c n l (upanic ans l)); [done| |by auto].
      intros [] l' _ Hp. apply wp_usub; [lia|done]. }
    { apply upanic_not_bad. }
    intros limit' l1 Hl1 _.
    apply sane_bind. eapply sane_prim;
      [apply choose_pivot_polite|apply (choose_pivot_spec ans n l1); lia|apply upanic_not_bad|].
    intros [pivot likely] l2 Hl2 [_ Hpiv].
    apply sane_bind. eapply (sane_prim _ (λ _ _, True) _ (upanic ans l2)).
    { destruct (_ && _); polite. apply partial_insertion_sort_polite. }
    { destruct (_ && _); [|by apply wp_ret].
      wp_apply (partial_insertion_sort_spec c ans n l2); [lia|by auto|by auto]. }
    { apply upanic_not_bad. }
    intros b l3 Hl3 _. destruct b; [done|].
    destruct (lookup_lt_is_Some_2 l3 pivot) as [p Hp]; [lia|].
    apply sane_bind. eapply (sane_prim _ (λ b l', l' = l3) _ (upanic ans l3)).
    { destruct pred; polite. }
    { destruct pred as [q|]; [|by apply wp_ret].
      apply wp_bind, wp_get; [lia|lia|]. intros x Hx.
      apply wp_bind, wp_is_less; [|intros Hr; by eapply upanic_intro].
      intros r Hr. by apply wp_ret. }
    { apply upanic_not_bad. }
    intros eq l' _ ->. destruct eq.
    { apply sane_bind. eapply sane_prim;
        [apply partition_equal_polite|apply (partition_equal_spec ans n pivot l3 p); [lia|done]|apply upanic_not_bad|].
      intros mid l4 Hl4 (_ & Hmid & Hmid0 & _). specialize (Hmid0 ltac:(lia)).
      eapply sane_mono; [apply sane_slice; [lia|lia|lia|]|done|done]. intros m Hm. apply IHf; lia. }
    apply sane_bind. eapply sane_prim;
      [apply partition_polite|apply (partition_spec c ans n pivot l3 p); [lia|done]|apply upanic_not_bad|].
    intros [mid was_p] l4 Hl4 (_ & Hmp & _).
    pose proof (lookup_lt_Some _ _ _ Hmp) as Hmid.
    apply sane_bind. unfold usub. rewrite (proj2 (Nat.leb_le _ _)) by lia. cbn [sane].
    apply sane_bind. eapply sane_mono; [apply sane_slice; [lia|lia|lia|]| |done].
    { intros m Hm. eapply sane_mono; [apply sane_slice; [lia|lia|lia|done]|done|done]. }
    intros [] l5 _ Hl5.
    apply sane_bind. unfold get. rewrite (proj2 (Nat.ltb_lt _ _)) by lia. cbn [sane].
    destruct (lookup_lt_is_Some_2 l5 mid) as [p' Hp']; [lia|]. rewrite Hp'. cbn [sane].
    assert (Hleft : ∀ b1 b2 m, length m = n →
      sane ans (slice n 0 mid (λ m, par_qs_recurse c f m pred limit' b1 b2))
        (λ _ m', length m' = n) (λ _ m', length m' = n) m).
    { intros b1 b2 m Hm. apply sane_slice; [lia|lia|lia|]. intros m' Hm'. apply IHf; lia. }
    assert (Hright : ∀ b1 b2 m, length m = n →
      sane ans (slice n (mid + 1) n (λ m, par_qs_recurse c f m (Some p') limit' b1 b2))
        (λ _ m', length m' = n) (λ _ m', length m' = n) m).
    { intros b1 b2 m Hm. apply sane_slice; [lia|lia|lia|]. intros m' Hm'. apply IHf; lia. }
    destruct (sequential _).
    - destruct (_ <? _); apply sane_bind.
      + eapply sane_mono; [by apply Hleft| |done]. intros [] l6 _ Hl6.
        eapply sane_mono; [by apply Hright|done|done].
      + eapply sane_mono; [by apply Hright| |done]. intros [] l6 _ Hl6.
        eapply sane_mono; [by apply Hleft|done|done].
    - apply sane_bind, sane_join. eapply sane_mono; [by apply Hleft| |]; cbn; intros ? l6 _ Hl6.
      + eapply sane_mono; [by apply Hright|done|done].
      + eapply sane_mono; [by apply Hright|done|done].
  Qed.
  Lemma par_quick_sort_sane n l : n = length l → sane ans (par_quick_sort c n) any any l.
  Proof.
    intros Hn. unfold par_quick_sort. destruct (zst c); [done|]. apply par_qs_recurse_sane; lia.
  Qed.

  Lemma par_partition_at_indices_sane fuel n base offset vlen inds l :
    n = length l → length inds < fuel → length inds ≤ vlen → fits c (offset + n) →
    ovf c = false ∨ valid_indices offset n inds →
    sane ans (par_partition_at_indices c fuel n base offset vlen inds) any any l.
  Proof.
    revert n base offset vlen inds l.
    induction fuel as [|f IHf]; intros n base offset vlen inds l Hn Hf Hd Hfit Hv; [lia|].
    destruct inds as [|i0 inds0]; [done|].
    cbn [par_partition_at_indices].
    remember (i0 :: inds0) as inds eqn:Hinds.
    assert (Hlen : 0 < length inds) by (subst; simpl; lia). clear Hinds i0 inds0.
    cbv zeta. set (at_ := length inds / 2).
    assert (Hat : at_ < length inds) by (apply Nat.div_lt; lia).
    clearbody at_.
    assert (Hsplit : inds = take at_ inds ++ drop at_ inds) by (by rewrite take_drop).
    assert (Hll : length (take at_ inds) = at_) by (rewrite take_length; lia).
    destruct (drop at_ inds) as [|pivot rinds] eqn:Hdrop.
    { apply (f_equal length) in Hdrop. rewrite drop_length in Hdrop. simpl in Hdrop. lia. }
    set (linds := take at_ inds) in *. clearbody linds. clear Hdrop. subst inds.
    rewrite app_length in *. simpl in Hat, Hd, Hf.
    rewrite valid_split in Hv.
    apply sane_bind.
    eapply (sane_prim _ (λ i l', l' = l ∧ (i = pivot - offset ∧ offset ≤ pivot ∨ n ≤ i ∧ pivot < offset))
      _ (λ _ _, False)).
    { apply rel_index_polite. }
    { unfold rel_index. destruct (Nat.leb_spec offset pivot); [by apply wp_ret; auto|].
      destruct (ovf c) eqn:Hovf.
      - exfalso. destruct Hv as [|Hv]; [done|lia].
      - apply wp_ret. split; [done|]. right. split; [|done].
        destruct (N.ltb_spec (N.of_nat pivot + (if wide c then 2 ^ 64 else 2 ^ 32) - N.of_nat offset)
          (N.of_nat n)); [|done].
        exfalso. unfold fits in Hfit. destruct (wide c); lia. }
    { done. }
    intros i l' _ [-> Hi].
    apply sane_bind. eapply sane_prim;
      [apply partition_at_index_polite|by apply (partition_at_index_spec c ans n i l)| |].
    { intros e l' [[[_ [[-> _]|[-> _]]] _]|(-> & _)] [|]; done. }
    intros [[lv value] rv] l1 Hl1 (_ & Hin & Hparts & _).
    unfold parts in Hparts. injection Hparts as -> -> ->. simpl.
    destruct Hi as [[-> Hop]|[? ?]]; [|lia].
    set (i := pivot - offset) in *.
    rewrite (proj2 (Nat.leb_gt vlen at_)) by lia.
    assert (Hleft : ∀ m, length m = n →
      sane ans (slice n 0 (0 + i) (λ m, par_partition_at_indices c f m (base + 0) offset at_ linds))
        (λ _ m', length m' = n) (λ _ m', length m' = n) m).
    { intros m Hm. apply sane_slice; [lia|lia|lia|]. intros m' Hm'.
      apply IHf; [lia|lia|lia|unfold fits in *; destruct (wide c); lia|].
      destruct Hv as [?|(_ & Hvl & _)]; [by left|right]. by replace (0 + i - 0) with i by lia. }
    assert (Hright : ∀ m, length m = n →
      sane ans (slice n (i + 1) (i + 1 + (n - (i + 1))) (λ m,
        par_partition_at_indices c f m (base + (i + 1)) (pivot + 1) (vlen - at_ - 1) rinds))
        (λ _ m', length m' = n) (λ _ m', length m' = n) m).
    { intros m Hm. apply sane_slice; [lia|lia|lia|]. intros m' Hm'.
      apply IHf; [lia|lia|lia|unfold fits in *; destruct (wide c); lia|].
      destruct Hv as [?|(_ & _ & Hvr)]; [by left|right].
      by replace (i + 1 + (n - (i + 1)) - (i + 1)) with (n - (i + 1)) by lia. }
    apply sane_bind. eapply (sane_mono _ _ any _ any); [| |done].
    { destruct (_ || _).
      - apply sane_bind. eapply sane_mono; [apply Hleft; lia| |done]. intros ls l2 _ Hl2.
        apply sane_bind. eapply sane_mono; [by apply Hright| |done]. done.
      - apply sane_join. eapply sane_mono; [apply Hleft; lia| |]; cbn; intros ? l2 _ Hl2;
          (eapply sane_mono; [by apply Hright|done|done]). }
    intros [ls rs] l2 _ _. done.
  Qed.
  Lemma par_select_many_sane n vlen inds l :
    n = length l → length inds ≤ vlen → fits c n → ovf c = false ∨ valid_indices 0 n inds →
    sane ans (par_select_many c n vlen inds) any any l.
  Proof.
    intros Hn Hd Hfit Hv. unfold par_select_many. apply sane_bind.
    eapply sane_mono; [by apply par_partition_at_indices_sane; [|lia| | |]|done|done].
  Qed.
End sane.

(** ** The programs with words. *)
Section word.
  Context {T : Type} (c : cfg).
  Notation P A := (cmp_prog T A).

  Lemma treads_par_qs_recurse f n pred limit wb wp : allowed c n →
    treads (λ _, True) (par_qs_recurse_w (T:=T) c f n pred limit wb wp) (par_qs_recurse c f n pred limit wb wp).
  Proof.
    revert n pred limit wb wp. induction f as [|f IHf]; intros n pred limit wb wp Hn;
      [apply treads_doomed; constructor|].
    cbn [par_qs_recurse_w par_qs_recurse].
    destruct (n <=? _).
    { destruct (2 <=? n); [by apply tracks_treads, tracks_shift_left|by constructor]. }
    destruct (limit =? 0); [by apply tracks_treads, tracks_heap_sort|].
    eapply treads_bind; [by apply tracks_treads, tracks_limit|]. intros limit' _.
    eapply treads_bind; [by apply tracks_treads, tracks_choose_pivot|]. intros [pivot likely] _.
    eapply (treads_bind (λ _, True)).
    { destruct (_ && _); [by apply tracks_treads, tracks_partial_insertion_sort|by constructor]. }
    intros [] _; [by constructor|].
    eapply (treads_bind (λ _, True)); [by apply treads_refl|]. intros [] _.
    - eapply treads_bind; [by apply tracks_treads, tracks_partition_equal|]. intros mid _. apply treads_slice. intros.
      apply IHf. eapply allowed_le; [done|lia].
    - eapply treads_bind; [by apply tracks_treads, tracks_partition|]. intros [mid was_p] Hmid.
      eapply treads_bind; [apply tracks_treads, tracks_wsub|]. intros ? [-> _].
      eapply (treads_bind (λ _, True)); [by apply treads_refl|]. intros _ _.
      eapply (treads_bind (λ _, True)); [by apply treads_refl|]. intros p _.
      assert (Hl : ∀ b1 b2, treads (λ _, True) (slice n 0 mid (λ m, par_qs_recurse_w c f m pred limit' b1 b2))
        (slice n 0 mid (λ m, par_qs_recurse c f m pred limit' b1 b2))).
      { intros. apply treads_slice. intros. apply IHf. eapply allowed_le; [done|lia]. }
      assert (Hr : ∀ b1 b2, treads (λ _, True) (slice n (mid + 1) n (λ m, par_qs_recurse_w c f m (Some p) limit' b1 b2))
        (slice n (mid + 1) n (λ m, par_qs_recurse c f m (Some p) limit' b1 b2))).
      { intros. apply treads_slice. intros. apply IHf. eapply allowed_le; [done|lia]. }
      cbv zeta. destruct (sequential _).
      + destruct (_ <? _); (eapply (treads_bind (λ _, True)); [auto|]; auto).
      + eapply treads_bind; [by apply (treads_join (λ _, True) (λ _, True))|]. intros. by constructor.
  Qed.
  Lemma treads_par_quick_sort n : allowed c n →
    treads (λ _, True) (par_quick_sort_w (T:=T) c n) (par_quick_sort c n).
  Proof.
    intros Hn. unfold par_quick_sort_w, par_quick_sort. destruct (zst c); [by constructor|].
    by apply treads_par_qs_recurse.
  Qed.

  Lemma treads_par_partition_at_indices f n base offset vlen inds : allowed c (offset + n) →
    treads (λ _, True) (par_partition_at_indices_w (T:=T) c f n base offset vlen inds)
      (par_partition_at_indices c f n base offset vlen inds).
  Proof.
    revert n base offset vlen inds. induction f as [|f IHf]; intros n base offset vlen inds Hn;
      [apply treads_doomed; constructor|].
    destruct inds as [|i0 inds]; [by constructor|].
    cbn [par_partition_at_indices_w par_partition_at_indices]. cbv zeta.
    generalize (length (i0 :: inds) / 2). intros at_.
    destruct (drop at_ (i0 :: inds)) as [|pivot right_inds]; [constructor|].
    assert (Hn' : allowed c n) by (eapply allowed_le; [done|lia]).
    unfold rel_index. destruct (Nat.leb_spec offset pivot).
    - rewrite wsub_ok by done. rewrite !bind_of_ret.
      eapply treads_bind; [by apply tracks_treads, tracks_partition_at_index|].
      intros [[lv value] rv] (Hi & -> & -> & ->). cbn [fst snd].
      destruct (vlen <=? at_); [constructor|].
      unfold allowed in *. rewrite uadd_ok by lia.
      assert (Hsmall : ∀ (g : bool → P (list (option nat))),
        bind (if at_ =? 0 then Ret true else bind (wsub c pivot offset) (λ i', Ret (sequential i'))) g =
        g ((at_ =? 0) || sequential (pivot - offset))).
      { intros g. destruct (at_ =? 0); [by rewrite bind_of_ret|]. by rewrite wsub_ok, !bind_of_ret by done. }
      rewrite Hsmall.
      match goal with |- treads _ (bind (if _ then bind ?l _ else rayon_join _ ?r) _)
        (bind (if _ then bind ?l' _ else rayon_join _ ?r') _) =>
        assert (Hl : treads (λ _, True) l l'); [|assert (Hr : treads (λ _, True) r r')] end.
      { apply treads_slice. intros. apply IHf. lia. }
      { apply treads_slice. intros. apply IHf. lia. }
      eapply (treads_bind (λ _, True)); [|intros [] _; by constructor].
      destruct (_ || _).
      + eapply treads_bind; [exact Hl|]. intros ls _. eapply treads_bind; [exact Hr|]. intros. by constructor.
      + eapply treads_mono; [by apply (treads_join (λ _, True) (λ _, True))|done].
    - unfold wsub at 1. rewrite (proj2 (Nat.leb_gt _ _)) by done.
      destruct (ovf c); [apply treads_doomed, doomed_bind; constructor; by right|].
      rewrite !bind_of_ret. unfold allowed in *.
      change (if wide c then 2 ^ 64 else 2 ^ 32)%N with (words c).
      rewrite partition_at_index_w_out by lia.
      rewrite partition_at_index_out by (destruct (N.ltb_spec (N.of_nat pivot + words c - N.of_nat offset) (N.of_nat n)); lia).
      eapply treads_bind; [apply (treads_throw (λ _, False))|]. done.
  Qed.
  Lemma treads_par_select_many n vlen inds : allowed c n →
    treads (λ _, True) (par_select_many_w (T:=T) c n vlen inds) (par_select_many c n vlen inds).
  Proof.
    intros. unfold par_select_many_w, par_select_many.
    eapply treads_bind; [by apply treads_par_partition_at_indices|]. intros. by constructor.
  Qed.
  Lemma allowed_fits n : allowed c n → fits c n.
  Proof. unfold allowed, fits, words. destruct (wide c); lia. Qed.
End word.

(** ** The closures of the methods. *)
Section closures.
  Context {T : Type}.
  Local Transparent bind.

  Lemma treads_by_compare {A} (φ : A → Prop) (p q : cmp_prog T A) :
    treads φ p q → treads φ (by_compare p) (by_compare q).
  Proof.
    apply treads_with_asks. intros qu B f Hf. constructor. intros r. apply Hf.
  Qed.
  Lemma treads_by_key {A K} (φ : A → Prop) (p q : cmp_prog T A) :
    treads φ p q → treads φ (by_key (K:=K) p) (by_key q).
  Proof.
    apply treads_with_asks. intros [a b] B f Hf. constructor. intros [ka|v|]; cbn; [|apply Hf..].
    constructor. intros [kb|v|]; cbn; [|apply Hf..]. constructor. intros [kb'|v|]; cbn; apply Hf.
  Qed.
  Lemma sane_by_compare {A} (p : cmp_prog T A) ans l Φ E :
    sane (less_ans ans) p Φ E l → sane ans (by_compare p) Φ E l.
  Proof.
    apply sane_with_asks. intros q Φ' E' l' HΦ. cbn. intros r Hr. apply HΦ. exists r. done.
  Qed.
  Lemma sane_by_key {A K} (p : cmp_prog T A) (ans : key_question K → key_answer K → Prop) l Φ E :
    sane (less_key_ans ans) p Φ E l → sane ans (by_key p) Φ E l.
  Proof.
    apply sane_with_asks. intros [a b] Φ' E' l' HΦ. cbn. intros [ka| |] Hka; cbn.
    2-3: apply HΦ; right; split; [done|]; eexists _, _; split; [exact Hka|done].
    intros [kb| |] Hkb; cbn.
    2-3: apply HΦ; right; split; [done|]; eexists _, _; split; [exact Hkb|done].
    intros [|v|] Hv; cbn.
    1,3: apply HΦ; right; split; [done|]; eexists _, _; split; [exact Hv|done].
    apply HΦ. left. eauto 10.
  Qed.
End closures.

(** ** The methods. *)
Section top.
  Context {T : Type} (c : cfg).
  Implicit Types (l : list T).

  (** The tasks one after the other. *)
  Lemma par_sort_unstable_word {S} (o : S → T * T → option bool * S) s l : allowed c (length l) →
    run o (par_sort_unstable_w c (length l)) s l = run o (par_sort_unstable c (length l)) s l.
  Proof.
    intros Hn. eapply treads_run; [by apply treads_par_quick_sort|]. by apply par_quick_sort_sane.
  Qed.
  Lemma par_sort_unstable_by_word {S} (o : S → T * T → option comparison * S) s l : allowed c (length l) →
    run o (par_sort_unstable_by_w c (length l)) s l = run o (par_sort_unstable_by c (length l)) s l.
  Proof.
    intros Hn. eapply treads_run; [by apply treads_by_compare, treads_par_quick_sort|].
    by apply sane_by_compare, par_quick_sort_sane.
  Qed.
  Lemma par_sort_unstable_by_key_word {S K} (o : S → key_question K → key_answer K * S) s l : allowed c (length l) →
    run o (par_sort_unstable_by_key_w c (length l)) s l = run o (par_sort_unstable_by_key c (length l)) s l.
  Proof.
    intros Hn. eapply treads_run; [by apply treads_by_key, treads_par_quick_sort|].
    by apply sane_by_key, par_quick_sort_sane.
  Qed.
  Lemma par_select_many_word {S} (o : S → T * T → option bool * S) s vlen inds l :
    allowed c (length l) → length inds ≤ vlen → ovf c = false ∨ valid_indices 0 (length l) inds →
    run o (par_select_many_w c (length l) vlen inds) s l =
      run o (par_select_many_nth_unstable c (length l) vlen inds) s l.
  Proof.
    intros Hn Hd Hv. eapply treads_run; [by apply treads_par_select_many|].
    apply par_select_many_sane; auto using allowed_fits.
  Qed.
  Lemma par_select_many_by_word {S} (o : S → T * T → option comparison * S) s vlen inds l :
    allowed c (length l) → length inds ≤ vlen → ovf c = false ∨ valid_indices 0 (length l) inds →
    run o (par_select_many_by_w c (length l) vlen inds) s l =
      run o (par_select_many_nth_unstable_by c (length l) vlen inds) s l.
  Proof.
    intros Hn Hd Hv. eapply treads_run; [by apply treads_by_compare, treads_par_select_many|].
    apply sane_by_compare, par_select_many_sane; auto using allowed_fits.
  Qed.
  Lemma par_select_many_by_key_word {S K} (o : S → key_question K → key_answer K * S) s vlen inds l :
    allowed c (length l) → length inds ≤ vlen → ovf c = false ∨ valid_indices 0 (length l) inds →
    run o (par_select_many_by_key_w c (length l) vlen inds) s l =
      run o (par_select_many_nth_unstable_by_key c (length l) vlen inds) s l.
  Proof.
    intros Hn Hd Hv. eapply treads_run; [by apply treads_by_key, treads_par_select_many|].
    apply sane_by_key, par_select_many_sane; auto using allowed_fits.
  Qed.

  (** Any schedule. *)
  Lemma par_sort_unstable_by_word_steps ans l l' p : (∀ q, ∃ r, ans q r) → allowed c (length l) →
    rtc (stepm ans) (par_sort_unstable_by_w c (length l), l) (p, l') →
    ∃ q, rtc (stepm ans) (par_sort_unstable_by c (length l), l) (q, l') ∧
      ∀ r, result p = Some r → result q = Some r.
  Proof.
    intros Ht Hn Hs.
    destruct (treads_steps ans Ht (λ _, True) _ _ (par_sort_unstable_by c (length l)) p (λ _ _, True) (λ _ _, True)
      l l' ltac:(by apply treads_by_compare, treads_par_quick_sort)
      ltac:(apply within_by_compare, within_par_quick_sort)
      ltac:(by apply sane_by_compare, par_quick_sort_sane) Hs) as (q & Hq & Htr & _ & Hsn).
    exists q. split; [done|]. intros r Hr. by destruct (treads_result _ Ht _ _ _ _ _ _ _ Htr Hsn Hr).
  Qed.
  Lemma par_select_many_by_word_steps ans vlen inds l l' p : (∀ q, ∃ r, ans q r) →
    allowed c (length l) → length inds ≤ vlen → ovf c = false ∨ valid_indices 0 (length l) inds →
    rtc (stepm ans) (par_select_many_by_w c (length l) vlen inds, l) (p, l') →
    ∃ q, rtc (stepm ans) (par_select_many_nth_unstable_by c (length l) vlen inds, l) (q, l') ∧
      ∀ r, result p = Some r → result q = Some r.
  Proof.
    intros Ht Hn Hd Hv Hs.
    destruct (treads_steps ans Ht (λ _, True) _ _ (par_select_many_nth_unstable_by c (length l) vlen inds) p
      (λ _ _, True) (λ _ _, True)
      l l' ltac:(by apply treads_by_compare, treads_par_select_many)
      ltac:(apply within_by_compare, within_par_select_many)
      ltac:(apply sane_by_compare, par_select_many_sane; auto using allowed_fits) Hs) as (q & Hq & Htr & _ & Hsn).
    exists q. split; [done|]. intros r Hr. by destruct (treads_result _ Ht _ _ _ _ _ _ _ Htr Hsn Hr).
  Qed.

  Lemma par_sort_unstable_word_sorts lt l : allowed c (length l) →
    strict_weak_order lt → (zst c = true → ∀ x y : T, x = y) →
    every_schedule (ans_lt lt) (par_sort_unstable_w c (length l)) l
      (λ _ l', Permutation l l' ∧ sorted_wrt lt l') (λ _ _, False).
  Proof.
    intros Hn H Hz. eapply treads_schedules; [apply ans_lt_total|by apply treads_par_quick_sort|
      apply within_par_quick_sort|by apply par_quick_sort_sane|by apply par_sort_unstable_schedules].
  Qed.
  Lemma par_sort_unstable_by_word_sorts cmp l : allowed c (length l) →
    strict_weak_order (is_lt cmp) → (zst c = true → ∀ x y : T, x = y) →
    every_schedule (ans_cmp cmp) (par_sort_unstable_by_w c (length l)) l
      (λ _ l', Permutation l l' ∧ sorted_wrt (is_lt cmp) l') (λ _ _, False).
  Proof.
    intros Hn H Hz. eapply treads_schedules; [apply ans_cmp_total|by apply treads_by_compare, treads_par_quick_sort|
      apply within_by_compare, within_par_quick_sort|by apply sane_by_compare, par_quick_sort_sane|
      by apply par_sort_unstable_by_schedules].
  Qed.
  Lemma par_sort_unstable_by_key_word_sorts {K} (f : T → K) ltk l : allowed c (length l) →
    let lt := λ a b, ltk (f a) (f b) in
    strict_weak_order lt → (zst c = true → ∀ x y : T, x = y) →
    every_schedule (ans_key f ltk) (par_sort_unstable_by_key_w c (length l)) l
      (λ _ l', Permutation l l' ∧ sorted_wrt lt l') (λ _ _, False).
  Proof.
    intros Hn lt H Hz. eapply treads_schedules; [apply ans_key_total|by apply treads_by_key, treads_par_quick_sort|
      apply within_by_key, within_par_quick_sort|by apply sane_by_key, par_quick_sort_sane|
      by apply par_sort_unstable_by_key_schedules].
  Qed.
  Lemma par_sort_unstable_by_word_any ans l : allowed c (length l) → (∀ q, ∃ r, ans q r) →
    every_schedule ans (par_sort_unstable_by_w c (length l)) l
      (λ _ l', Permutation l l')
      (λ e l', e = UserPanic ∧ (∃ q, ans q None) ∧ Permutation l l').
  Proof.
    intros Hn Ht. eapply treads_schedules; [done|by apply treads_by_compare, treads_par_quick_sort|
      apply within_by_compare, within_par_quick_sort|by apply sane_by_compare, par_quick_sort_sane|
      by apply par_sort_unstable_by_any_schedules].
  Qed.
  Lemma par_select_many_by_word_selects cmp vlen inds l : allowed c (length l) →
    dbg c = false → valid_indices 0 (length l) inds → length inds ≤ vlen →
    strict_weak_order (is_lt cmp) → (zst c = true → ∀ x y : T, x = y) →
    every_schedule (ans_cmp cmp) (par_select_many_by_w c (length l) vlen inds) l
      (λ r l', r = map Some inds ∧ Permutation l l' ∧
         Forall (λ i, ∃ x, placed (is_lt cmp) l' i x ∧ order_statistic (is_lt cmp) l i x) inds)
      (λ _ _, False).
  Proof.
    intros Hn Hdb Hv Hd H Hz. eapply treads_schedules; [apply ans_cmp_total|by apply treads_by_compare, treads_par_select_many|
      apply within_by_compare, within_par_select_many|
      apply sane_by_compare, par_select_many_sane; auto using allowed_fits|
      apply par_select_many_by_schedules; auto using allowed_fits].
  Qed.
  Lemma par_select_many_by_word_any ans vlen inds l : allowed c (length l) →
    (∀ q, ∃ r, ans q r) → length inds ≤ vlen → ovf c = false ∨ valid_indices 0 (length l) inds →
    every_schedule ans (par_select_many_by_w c (length l) vlen inds) l
      (λ r l', valid_indices 0 (length l) inds ∧ r = map Some inds ∧ Permutation l l')
      (λ e l', Permutation l l' ∧
         (e = UserPanic ∧ (∃ q, ans q None) ∨ e = DebugPanic ∧ dbg c = true ∨
          ¬ valid_indices 0 (length l) inds ∧ (e = AssertPanic ∨ e = OverflowPanic ∧ ovf c = true))).
  Proof.
    intros Hn Ht Hd Hv. eapply treads_schedules; [done|by apply treads_by_compare, treads_par_select_many|
      apply within_by_compare, within_par_select_many|
      apply sane_by_compare, par_select_many_sane; auto using allowed_fits|
      apply par_select_many_by_all_schedules; auto using allowed_fits].
  Qed.
End top.
