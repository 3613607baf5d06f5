(** * The parallel stable sort sorts, for the schedule that runs parallel tasks
    one after the other. *)
From Verif Require Export PParRec.
From stdpp Require Import list.

Section sort.
  Context {T : Type} (c : cfg) (ans : T * T → option bool → Prop).
  Implicit Types (M V J X : list T).
  Notation kle := (kle ans).
  Notation klt := (klt ans).
  Notation ksorted := (ksorted ans).
  Notation sperm := (sperm ans).
  Notation streak_rel := (streak_rel ans).
  Notation P A := (cmp_prog T A).

  (** ** One chunk and its part of the buffer *)
  Definition two (A V C A' J C' : list T) : list T := (A ++ V ++ C) ++ (A' ++ J ++ C').
  Lemma wp_two {B} n l m (p : P B) (Φ : B → list T → Prop) (E : exn → list T → Prop)
      A V C A' J C' :
    length A = l → length A' = l → length V = m → n = length (A ++ V ++ C) →
    wp ans p
      (λ r M, ∀ V' J', M = V' ++ J' → length V' = length V → length J' = length J →
         Φ r (two A V' C A' J' C'))
      (λ e M, ∀ V' J', M = V' ++ J' → length V' = length V → length J' = length J →
         E e (two A V' C A' J' C')) (V ++ J) →
    wp ans (relocate (λ i, if i <? m then l + i else n + l + (i - m)) p) Φ E (two A V C A' J C').
  Proof.
    intros HA HA' Hm Hn H. rewrite !app_length in Hn.
    set (f := λ i, if i <? m then l + i else n + l + (i - m)).
    assert (Hlen : length (two A V C A' J C') = n + (l + length J + length C')).
    { unfold two. rewrite !app_length. lia. }
    assert (Hf : ∀ i, (i < m ∧ f i = l + i) ∨ (m ≤ i ∧ f i = n + l + (i - m))).
    { intros i. unfold f. destruct (Nat.ltb_spec i m); [left|right]; done. }
    clearbody f.
    assert (Hkey : ∀ M l', length M = length (V ++ J) →
      scattered f (two A V C A' J C') M l' →
      l' = two A (take m M) C A' (drop m M) C' ∧
      length (take m M) = length V ∧ length (drop m M) = length J).
    { intros M l' HM Hsc. rewrite app_length in HM.
      assert (H1 : length (take m M) = length V) by (rewrite take_length; lia).
      assert (H2 : length (drop m M) = length J) by (rewrite drop_length; lia).
      split; [|done].
      assert (Hout : ∀ j, j < l ∨ l + m ≤ j < n + l ∨ n + l + length J ≤ j →
        l' !! j = two A V C A' J C' !! j).
      { intros j Hj. apply (sc_out _ _ _ _ Hsc). intros i Hi ->.
        destruct (Hf i) as [[? Hfi]|[? Hfi]]; rewrite Hfi in *; lia. }
      assert (Hin1 : ∀ i, i < m → l' !! (l + i) = M !! i).
      { intros i Hi. rewrite <-(sc_in _ _ _ _ Hsc) by lia.
        destruct (Hf i) as [[? ->]|[? Hfi]]; [done|lia]. }
      assert (Hin2 : ∀ i, m ≤ i → i < length M → l' !! (n + l + (i - m)) = M !! i).
      { intros i Hi ?. rewrite <-(sc_in _ _ _ _ Hsc) by lia.
        destruct (Hf i) as [[? ?]|[? ->]]; [lia|done]. }
      assert (Hn1 : length (A ++ V ++ C) = n) by (rewrite !app_length; lia).
      assert (Hn2 : length (A ++ take m M ++ C) = n) by (rewrite !app_length; lia).
      apply list_eq. intros j. unfold two in *.
      destruct (decide (j < l)) as [?|?].
      { rewrite Hout by lia. rewrite <-!app_assoc. by rewrite !(lookup_app_l A) by lia. }
      destruct (decide (j < l + m)) as [?|?].
      { replace j with (l + (j - l)) at 1 by lia. rewrite Hin1 by lia.
        rewrite <-!app_assoc, lookup_app_r by lia. rewrite lookup_app_l by lia.
        rewrite lookup_take by lia. f_equal. lia. }
      destruct (decide (j < n)) as [?|?].
      { rewrite Hout by lia. rewrite !(lookup_app_l (A ++ _ ++ C)) by lia.
        rewrite !(lookup_app_r A) by lia. rewrite !lookup_app_r by lia. by rewrite H1. }
      rewrite (lookup_app_r (A ++ _ ++ C)) by lia. rewrite Hn2.
      destruct (decide (j < n + l)) as [?|?].
      { rewrite Hout by lia. rewrite (lookup_app_r (A ++ _ ++ C)) by lia. rewrite Hn1.
        by rewrite !(lookup_app_l A') by lia. }
      destruct (decide (j < n + l + length J)) as [?|?].
      { replace j with (n + l + (m + (j - n - l) - m)) at 1 by lia. rewrite Hin2 by lia.
        rewrite (lookup_app_r A') by lia. rewrite lookup_app_l by lia.
        rewrite lookup_drop. f_equal. lia. }
      rewrite Hout by lia. rewrite (lookup_app_r (A ++ _ ++ C)) by lia. rewrite Hn1.
      rewrite !(lookup_app_r A') by lia. rewrite !lookup_app_r by lia. by rewrite H2. }
    apply (wp_relocate ans f _ _ _ (two A V C A' J C') _ (V ++ J)).
    - intros i j _ _ Heq.
      destruct (Hf i) as [[? Hfi]|[? Hfi]], (Hf j) as [[? Hfj]|[? Hfj]]; rewrite Hfi, Hfj in Heq; lia.
    - intros i Hi. rewrite Hlen. rewrite app_length in Hi.
      destruct (Hf i) as [[? ->]|[? ->]]; lia.
    - split; [done| |done].
      assert (Hn1 : length (A ++ V ++ C) = n) by (rewrite !app_length; lia).
      unfold two. intros i Hi. rewrite app_length in Hi. destruct (Hf i) as [[? ->]|[? ->]].
      + rewrite <-!app_assoc. rewrite (lookup_app_r A) by lia.
        replace (l + i - length A) with i by lia.
        by rewrite !(lookup_app_l V) by lia.
      + rewrite (lookup_app_r (A ++ _ ++ C)) by lia. rewrite Hn1.
        rewrite (lookup_app_r A') by lia. rewrite (lookup_app_r V) by lia.
        rewrite lookup_app_l by lia. f_equal. lia.
    - eapply wp_mono; [exact H| |]; simpl; intros r M _ HΦ l' HM Hsc;
        destruct (Hkey M l' HM Hsc) as (-> & H1 & H2);
        (apply HΦ; [by rewrite take_drop|done|done]).
  Qed.

  (** A task on the chunk [V] at position [l] whose outcome [Ψ] says what it
      returns or throws and what it makes of [V]. *)
  Definition task_ok {B} (n l : nat) (t : P B) V (Ψ : B + exn → list T → Prop) : Prop :=
    ∀ A C A' J C', length A = l → length A' = l → length J = length V →
      n = length (A ++ V ++ C) →
      wp ans t (λ b M, ∃ V' J', M = two A V' C A' J' C' ∧ length V' = length V ∧
                  length J' = length J ∧ Ψ (inl b) V')
               (λ e M, ∃ V' J', M = two A V' C A' J' C' ∧ length V' = length V ∧
                  length J' = length J ∧ Ψ (inr e) V') (two A V C A' J C').

  Definition sort_outcome V (r : ms_result + exn) V' : Prop :=
    match r with
    | inl res => sort_result ans V res V'
    | inr e => mpanic ans V e V'
    end.
  Lemma chunk_task_ok n l V :
    V ≠ [] → task_ok n l (chunk_task c n l (length V)) V (sort_outcome V).
  Proof.
    intros HV A C A' J C' HA HA' HJ Hn. unfold chunk_task.
    apply wp_two; [done|done|done|done|]. rewrite <-HJ at 2.
    wp_apply (pm_merge_sort_spec c ans V J).
    - destruct V; simpl; [done|lia].
    - rewrite HJ. apply Nat.div_le_upper_bound; lia.
    - intros res M _ (V1 & J1 & -> & HJ1 & Hs) V' J' Hinj HV' HJ'.
      apply app_inj_2 in Hinj as [-> ->]; [|lia]. by exists V', J'.
    - intros e M _ (V1 & J1 & -> & HJ1 & Hs) V' J' Hinj HV' HJ'.
      apply app_inj_2 in Hinj as [-> ->]; [|lia]. by exists V', J'.
  Qed.
  Lemma task_ret {B} n l (b : B) V (Ψ : B + exn → list T → Prop) :
    Ψ (inl b) V → task_ok n l (Ret b) V Ψ.
  Proof. intros H A C A' J C' ????. apply wp_ret. by exists V, J. Qed.
  Lemma task_bind {B D} n l (t : P B) (g : B → D) V (Ψ : B + exn → list T → Prop)
      (Ψ' : D + exn → list T → Prop) :
    task_ok n l t V Ψ →
    (∀ b V', Ψ (inl b) V' → Ψ' (inl (g b)) V') → (∀ e V', Ψ (inr e) V' → Ψ' (inr e) V') →
    task_ok n l (bind t (λ b, Ret (g b))) V Ψ'.
  Proof.
    intros Ht H1 H2 A C A' J C' HA HA' HJ Hn. apply wp_bind.
    wp_apply (Ht A C A' J C'); auto.
    - intros b M _ (V' & J' & -> & HV' & HJ' & H). apply wp_ret. exists V', J'. auto.
    - intros e M _ (V' & J' & -> & HV' & HJ' & H). exists V', J'. auto.
  Qed.

  (** ** The tasks of all the chunks *)
  Inductive tasks_ok {B} (n : nat) : nat → list (list T) → list (P B) →
      list (B + exn → list T → Prop) → Prop :=
    | tasks_nil l : tasks_ok n l [] [] []
    | tasks_cons l V Vs t ts Ψ Ψs :
        task_ok n l t V Ψ → tasks_ok n (l + length V) Vs ts Ψs →
        tasks_ok n l (V :: Vs) (t :: ts) (Ψ :: Ψs).

  Definition same_len : list T → list T → Prop := λ V V', length V' = length V.
  Lemma same_len_concat Vs Vs' : Forall2 same_len Vs Vs' → length (concat Vs') = length (concat Vs).
  Proof. induction 1 as [|V V' Vs Vs' H _ IH]; simpl; [done|]. rewrite !app_length. by rewrite H, IH. Qed.

  Lemma par_each_spec {B} n l Vs (ts : list (P B)) Ψs A A' Js :
    tasks_ok n l Vs ts Ψs → length A = l → length A' = l → Forall2 same_len Vs Js →
    n = length (A ++ concat Vs) →
    wp ans (par_each ts)
      (λ rs M, ∃ Vs' Js', M = (A ++ concat Vs') ++ (A' ++ concat Js') ∧
         Forall2 same_len Vs Vs' ∧ Forall2 same_len Vs Js' ∧
         Forall3 (λ Ψ r V', Ψ r V') Ψs rs Vs')
      (λ _ _, False) ((A ++ concat Vs) ++ (A' ++ concat Js)).
  Proof.
    intros Hts. revert A A' Js. induction Hts as [l|l V Vs t ts Ψ Ψs Ht Hts IH];
      intros A A' Js HA HA' HJs Hn.
    { inversion HJs; subst. simpl. apply wp_ret. exists [], []. repeat constructor. }
    apply Forall2_cons_inv_l in HJs as (J & Js1 & HJ & HJs & ->). unfold same_len in HJ.
    simpl in *. apply wp_Par.
    assert (Hrest : ∀ (b : B + exn) V' J', length V' = length V → length J' = length J → Ψ b V' →
      wp ans (par_each ts)
        (λ bs M, ∃ Vs' Js', M = (A ++ concat Vs') ++ (A' ++ concat Js') ∧
         Forall2 same_len (V :: Vs) Vs' ∧ Forall2 same_len (V :: Vs) Js' ∧
         Forall3 (λ Ψ r V', Ψ r V') (Ψ :: Ψs) (b :: bs) Vs') (λ _ _, False)
         (two A V' (concat Vs) A' J' (concat Js1))).
    { intros b V' J' HV' HJ' Hb.
      replace (two A V' (concat Vs) A' J' (concat Js1))
        with (((A ++ V') ++ concat Vs) ++ ((A' ++ J') ++ concat Js1))
        by (unfold two; by rewrite <-!app_assoc).
      wp_apply (IH (A ++ V') (A' ++ J') Js1); [..|done].
      - rewrite app_length. lia.
      - rewrite app_length. lia.
      - done.
      - rewrite !app_length in *. lia.
      - intros bs M _ (Vs' & Js' & -> & H1 & H2 & H3).
        exists (V' :: Vs'), (J' :: Js'). simpl. rewrite <-!app_assoc.
        split; [done|]. split; [by constructor|]. split; [constructor; [unfold same_len; lia|done]|].
        by constructor. }
    wp_apply (Ht A (concat Vs) A' J (concat Js1)); [done|done|done|done| |].
    - intros b M _ (V' & J' & -> & HV' & HJ' & Hb).
      wp_apply (Hrest (inl b) V' J'); [done|done|done| |done].
      intros bs M' _ H. by apply wp_ret.
    - intros e M _ (V' & J' & -> & HV' & HJ' & Hb).
      wp_apply (Hrest (inr e) V' J'); [done|done|done| |done].
      intros bs M' _ H. by apply wp_ret.
  Qed.

  Lemma all_done_spec {B} (rs : list (B + exn)) (Φ : list B → list T → Prop)
      (E : exn → list T → Prop) M :
    (∀ bs, rs = map inl bs → Φ bs M) → (∀ e, inr e ∈ rs → E e M) →
    wp ans (all_done rs) Φ E M.
  Proof.
    revert Φ. induction rs as [|[b|e] rs IH]; intros Φ H1 H2; simpl.
    - apply wp_ret. by apply H1.
    - apply wp_bind. apply IH.
      + intros bs ->. apply wp_ret. by apply H1.
      + intros e He. apply H2. by right.
    - apply wp_throw. apply H2. by left.
  Qed.

  (** The chunk tasks of the chunks [Vs], the first of which starts at [l]. *)
  Fixpoint bounds_of (l : nat) (Vs : list (list T)) : list (nat * nat) :=
    match Vs with
    | [] => []
    | V :: Vs => (l, length V) :: bounds_of (l + length V) Vs
    end.
  Definition chunk_tasks (n l : nat) (Vs : list (list T)) : list (P ms_result) :=
    map (λ '(l, m), chunk_task c n l m) (bounds_of l Vs).

  Definition first_outcome V (r : option ms_result + exn) V' : Prop :=
    match r with
    | inl (Some res) => sort_result ans V res V'
    | inl None => V' = V
    | inr e => mpanic ans V e V'
    end.
  Lemma bridge_first_ok take_item i n l Vs :
    Forall (λ V, V ≠ []) Vs →
    tasks_ok n l Vs (bridge_first take_item i (chunk_tasks n l Vs)) (map first_outcome Vs).
  Proof.
    intros HVs. revert i l. induction HVs as [|V Vs HV HVs IH]; intros i l; simpl.
    - constructor.
    - constructor; [|apply IH]. destruct (take_item i).
      + eapply (task_bind n l _ Some); [by apply chunk_task_ok|done|done].
      + by apply task_ret.
  Qed.
  Definition rest_outcome (V0 : list T) (V : list T) (r : option ms_result) (q : ms_result + exn) V' : Prop :=
    match r with
    | Some res => V' = V ∧ q = inl res
    | None => sort_outcome V q V'
    end.
  Lemma bridge_rest_ok n l Vs0 rs Vs :
    Forall (λ V, V ≠ []) Vs0 →
    Forall3 (λ V0 r V, first_outcome V0 (inl r) V) Vs0 rs Vs →
    Forall2 same_len Vs0 Vs →
    tasks_ok n l Vs (bridge_rest rs (chunk_tasks n l Vs0))
      (zip_with (λ V r, rest_outcome V V r) Vs rs).
  Proof.
    intros Hne H. revert l Hne.
    induction H as [|V0 r V Vs0 rs Vs H H3 IH]; intros l Hne Hlen; simpl.
    - constructor.
    - apply Forall_cons in Hne as [HV0 Hne]. apply Forall2_cons in Hlen as [HV Hlen].
      unfold same_len in HV.
      assert (Hrest : tasks_ok n (l + length V) Vs (bridge_rest rs (chunk_tasks n (l + length V0) Vs0))
        (zip_with (λ V r, rest_outcome V V r) Vs rs)).
      { rewrite HV. by apply IH. }
      destruct r as [res|]; simpl in H.
      + constructor; [|done]. by apply task_ret.
      + constructor; [|done]. rewrite <-HV. rewrite H in *. by apply chunk_task_ok.
  Qed.

  Definition onp (n : nat) (Φ : list T → Prop) M : Prop := ∃ V J, M = V ++ J ∧ length J = n ∧ Φ V.

  Lemma par_bridge_spec take_item n Vs Js :
    Forall (λ V, V ≠ []) Vs → Forall2 same_len Vs Js → n = length (concat Vs) →
    wp ans (par_bridge take_item (chunk_tasks n 0 Vs))
      (λ rs M, ∃ Vs' Js', M = concat Vs' ++ concat Js' ∧
         Forall2 same_len Vs Vs' ∧ Forall2 same_len Vs Js' ∧
         Forall3 (λ V r V', sort_result ans V r V') Vs rs Vs')
      (λ e M, onp n (mpanic ans (concat Vs) e) M) (concat Vs ++ concat Js).
  Proof.
    intros Hne HJs Hn. unfold par_bridge. apply wp_bind.
    wp_apply (par_each_spec n 0 Vs _ (map first_outcome Vs) [] [] Js
      (bridge_first_ok take_item 0 n 0 Vs Hne)); [done|done|done|done| |done].
    intros rs M _ (Vs1 & Js1 & -> & HV1 & HJ1 & H1). simpl.
    assert (H1' : Forall3 (λ V r V', first_outcome V r V') Vs rs Vs1).
    { clear -H1. remember (map first_outcome Vs) as Ψs eqn:HΨ. revert Vs HΨ.
      induction H1 as [|Ψ r V' Ψs rs Vs1 H _ IH]; intros [|V Vs] HΨ; simplify_eq/=; constructor; auto. }
    clear H1.
    assert (Hperm1 : concat Vs1 ≡ₚ concat Vs).
    { clear -H1'. induction H1' as [|V r V' Vs rs Vs1 H _ IH]; simpl; [done|]. rewrite IH.
      apply Permutation_app_tail.
      destruct r as [[res|]|e]; simpl in H; [|by rewrite H|apply H].
      destruct res; [by destruct H as [-> _]..|]. apply (sperm_perm ans). apply H. }
    apply wp_bind. apply all_done_spec.
    2: { intros e He. exists (concat Vs1), (concat Js1). split; [done|].
         split; [rewrite Hn; by apply same_len_concat|].
         assert (∃ V V', V ∈ Vs ∧ mpanic ans V e V') as (V & V' & HV & -> & (a & b & Ha & Hb & Hr) & _).
         { clear -H1' He. induction H1' as [|V r V' Vs rs Vs1 H _ IH]; [by apply elem_of_nil in He|].
           apply elem_of_cons in He as [<-|He].
           - exists V, V'. split; [by left|done].
           - destruct (IH He) as (W & W' & HW & H'). exists W, W'. split; [by right|done]. }
         split; [done|]. split; [|done]. exists a, b.
         rewrite !elem_of_list_In. rewrite !in_concat.
         split; [exists V; rewrite <-!elem_of_list_In; done|].
         split; [exists V; rewrite <-!elem_of_list_In; done|done]. }
    intros bs ->. apply wp_bind.
    assert (H2 : Forall3 (λ V r V', first_outcome V (inl r) V') Vs bs Vs1).
    { clear -H1'. remember (map inl bs) as rs eqn:Hrs. revert bs Hrs.
      induction H1' as [|V r V' Vs rs Vs1 H _ IH]; intros [|b bs] Hrs; simplify_eq/=; constructor; auto. }
    assert (HVJ : Forall2 same_len Vs1 Js1).
    { clear -HV1 HJ1. revert Js1 HJ1. induction HV1 as [|V V' Vs Vs1 H _ IH]; intros Js1 HJ1.
      - inversion HJ1. constructor.
      - apply Forall2_cons_inv_l in HJ1 as (J & Js & HJ & HJs & ->).
        constructor; [unfold same_len in *; lia|auto]. }
    wp_apply (par_each_spec n 0 Vs1 _ _ [] [] Js1
      (bridge_rest_ok n 0 Vs bs Vs1 Hne H2 HV1)); [done|done|done| | |done].
    { rewrite Hn. simpl. symmetry. by apply same_len_concat. }
    intros rs M _ (Vs2 & Js2 & -> & HV2 & HJ2 & H3). simpl.
    (* the outcome of both phases together *)
    assert (H4 : Forall3 (λ V r V', sort_outcome V r V') Vs rs Vs2).
    { clear -H2 H3. revert rs Vs2 H3.
      induction H2 as [|V b V1 Vs bs Vs1 H _ IH]; intros rs Vs2 H3; simpl in H3.
      - inversion H3; subst. constructor.
      - inversion H3 as [|? r V2 ? rs' Vs2' HΨ H3']; subst.
        constructor; [|by apply IH].
        destruct b as [res|]; simpl in *.
        + by destruct HΨ as [-> ->].
        + by subst. }
    assert (HV12 : Forall2 same_len Vs Vs2).
    { clear -HV1 HV2. revert Vs2 HV2. induction HV1 as [|V V' Vs Vs1 H _ IH]; intros Vs2 HV2.
      - inversion HV2. constructor.
      - apply Forall2_cons_inv_l in HV2 as (J & Js & HJ & HJs & ->).
        constructor; [unfold same_len in *; lia|auto]. }
    assert (HJ12 : Forall2 same_len Vs Js2).
    { clear -HV1 HJ2. revert Js2 HJ2. induction HV1 as [|V V' Vs Vs1 H _ IH]; intros Js2 HJ2.
      - inversion HJ2. constructor.
      - apply Forall2_cons_inv_l in HJ2 as (J & Js & HJ & HJs & ->).
        constructor; [unfold same_len in *; lia|auto]. }
    apply all_done_spec.
    - intros rs' ->. exists Vs2, Js2. split; [done|]. split; [done|]. split; [done|].
      clear -H4. remember (map inl rs') as rs eqn:Hrs. revert rs' Hrs.
      induction H4 as [|V r V' Vs rs Vs1 H _ IH]; intros [|b bs] Hrs; simplify_eq/=; constructor; auto.
    - intros e He. exists (concat Vs2), (concat Js2). split; [done|].
      split; [rewrite Hn; by apply same_len_concat|].
      assert (∃ V V', V ∈ Vs ∧ mpanic ans V e V') as (V & V' & HV & -> & (a & b & Ha & Hb & Hr) & _).
      { clear -H4 He. induction H4 as [|V r V' Vs rs Vs1 H _ IH]; [by apply elem_of_nil in He|].
        apply elem_of_cons in He as [<-|He].
        - exists V, V'. split; [by left|done].
        - destruct (IH He) as (W & W' & HW & H'). exists W, W'. split; [by right|done]. }
      split; [done|]. split.
      + exists a, b. rewrite !elem_of_list_In. rewrite !in_concat.
        split; [exists V; rewrite <-!elem_of_list_In; done|].
        split; [exists V; rewrite <-!elem_of_list_In; done|done].
      + clear -H4. induction H4 as [|V r V' Vs rs Vs1 H _ IH]; simpl; [done|]. rewrite IH.
        apply Permutation_app_tail.
        destruct r as [res|e]; simpl in H; [|apply H].
        destruct res; [by destruct H as [-> _]..|]. apply (sperm_perm ans). apply H.
  Qed.

  (** ** Joining neighbouring chunks *)
  Definition cstate (res : ms_result) X : Prop :=
    StronglySorted (streak_rel (ms_eqb res Descending)) X.
  Lemma sort_result_state V res V' : sort_result ans V res V' → cstate res V' ∧ sperm V V'.
  Proof. unfold cstate. destruct res; simpl; [intros [-> H]..|intros [? H]]; split; done. Qed.
  Lemma streak_app r X Y x y :
    StronglySorted (streak_rel r) (X ++ [x]) → StronglySorted (streak_rel r) (y :: Y) →
    streak_rel r x y → StronglySorted (streak_rel r) ((X ++ [x]) ++ y :: Y).
  Proof.
    intros HX HY Hxy. induction X as [|z X IH]; simpl in *.
    - constructor; [done|]. constructor; [done|].
      apply StronglySorted_inv in HY as [_ HY]. eapply Forall_impl; [exact HY|].
      intros b Hb. by eapply streak_rel_trans.
    - apply StronglySorted_inv in HX as [HX Hz]. constructor; [by apply IH|].
      apply Forall_app. split; [done|].
      apply Forall_app in Hz as [_ Hz]. apply Forall_cons in Hz as [Hz _].
      assert (Hzy : streak_rel r z y) by (by eapply streak_rel_trans).
      constructor; [done|]. apply StronglySorted_inv in HY as [_ HY].
      eapply Forall_impl; [exact HY|]. intros b Hb. by eapply streak_rel_trans.
  Qed.

  Fixpoint triples (l : nat) (Vs : list (list T)) (rs : list ms_result) : list (nat * nat * ms_result) :=
    match Vs, rs with
    | V :: Vs, r :: rs => (l, l + length V, r) :: triples (l + length V) Vs rs
    | _, _ => []
    end.
  Lemma zip_triples l Vs rs :
    zip_with (λ '(l, m) res, (l, l + m, res)) (bounds_of l Vs) rs = triples l Vs rs.
  Proof.
    revert l rs. induction Vs as [|V Vs IH]; intros l [|r rs]; simpl; [done..|]. by rewrite IH.
  Qed.

  Lemma triples_same l Vs Vs' rs : Forall2 same_len Vs Vs' → triples l Vs rs = triples l Vs' rs.
  Proof.
    intros H. revert l rs. induction H as [|V V' Vs Vs' H _ IH]; intros l [|r rs]; simpl; [done..|].
    unfold same_len in H. by rewrite H, IH.
  Qed.

  Definition concat_post A Rs s (chunks : list (nat * nat)) (W : list T) : Prop :=
    ∃ segs, chunks = chunks_of s segs ∧ W = concat segs ∧ segs ≠ [] ∧
      Forall ksorted segs ∧ sperm (A ++ concat Rs) (concat segs).

  Lemma pm_finish_spec n a b res P0 A C (E : exn → list T → Prop) :
    n = length (P0 ++ A ++ C) → a = length P0 → b = a + length A → cstate res A →
    wp ans (if ms_eqb res Descending then slice n a b MPartition.reverse else Ret tt)
      (λ _ V, ∃ A', V = P0 ++ A' ++ C ∧ sperm A A' ∧ ksorted A') E (P0 ++ A ++ C).
  Proof.
    intros Hn Ha Hb Hc. unfold cstate in Hc. destruct (ms_eqb res Descending); simpl in Hc.
    - rewrite !app_length in Hn. apply wp_slice_app; [done|done|lia|].
      wp_eapply (reverse_spec _ (length A) A (λ _ _, False)); [done| |done].
      intros [] m _ -> _. exists (rev A). split; [done|].
      split; [by apply sperm_reverse|by apply ksorted_rev].
    - apply wp_ret. exists A. done.
  Qed.

  Lemma pm_concat_spec n P0 A res Rs rs :
    A ≠ [] → Forall (λ V, V ≠ []) Rs → cstate res A → Forall2 cstate rs Rs →
    n = length (P0 ++ A ++ concat Rs) →
    wp ans (pm_concat n (length P0) (length P0 + length A) res
              (triples (length P0 + length A) Rs rs))
      (λ chunks V', ∃ W, V' = P0 ++ W ∧ concat_post A Rs (length P0) chunks W)
      (λ e V', mpanic ans (P0 ++ A ++ concat Rs) e V') (P0 ++ A ++ concat Rs).
  Proof.
    intros HA HRs Hc HF. revert P0 A res HA HRs Hc.
    induction HF as [|r B rs Rs HB HF IH]; intros P0 A res HA HRs Hc Hn.
    { simpl. apply wp_bind.
      wp_apply (pm_finish_spec n (length P0) (length P0 + length A) res P0 A [] (λ _ _, False));
        [done|done|done|done| |done].
      intros [] V _ (A' & -> & Hp & Hs). apply wp_ret. exists A'. rewrite !app_nil_r. split; [done|].
      exists [A']. simpl. rewrite !app_nil_r. rewrite (sperm_length ans A A' Hp).
      split; [done|]. split; [done|]. split; [done|]. split; [by constructor|done]. }
    apply Forall_cons in HRs as [HBne HRs]. simpl concat in *.
    cbn [triples pm_concat].
    set (ext := if negb (ms_eqb res Sorted_) && ms_eqb r res then _ else Ret false).
    assert (Hext : wp ans ext
      (λ e V, V = P0 ++ A ++ B ++ concat Rs ∧ (e = true → cstate res (A ++ B)))
      (λ e V, mpanic ans (P0 ++ A ++ B ++ concat Rs) e V) (P0 ++ A ++ B ++ concat Rs)).
    { unfold ext. destruct (negb (ms_eqb res Sorted_) && ms_eqb r res) eqn:Hcond.
      2: { apply wp_ret. done. }
      apply andb_true_iff in Hcond as [_ Hr]. assert (r = res) as -> by (by destruct r, res).
      destruct B as [|y B]; [done|]. destruct (exists_last HA) as (X & x & ->).
      assert (Hy : (P0 ++ (X ++ [x]) ++ (y :: B) ++ concat Rs) !! (length P0 + length (X ++ [x])) = Some y).
      { rewrite lookup_app_r by lia. rewrite lookup_app_r by lia.
        replace (_ - _ - _) with 0 by lia. done. }
      assert (Hx : (P0 ++ (X ++ [x]) ++ (y :: B) ++ concat Rs) !! (length P0 + length (X ++ [x]) - 1) = Some x).
      { rewrite app_length. simpl. rewrite lookup_app_r by lia. rewrite lookup_app_l by (rewrite app_length; simpl; lia).
        rewrite lookup_app_r by lia. replace (_ - _ - _) with 0 by lia. done. }
      assert (Hn' : n = length P0 + (length X + 1 + (1 + length B + length (concat Rs)))).
      { rewrite Hn. rewrite !app_length. simpl. lia. }
      set (l := P0 ++ (X ++ [x]) ++ (y :: B) ++ concat Rs) in *.
      rewrite app_length in *. simpl length in *.
      apply wp_bind, wp_get; [lia|lia|]. intros ? Hy'. simplify_eq.
      apply wp_bind, wp_usub; [lia|].
      apply wp_bind, wp_get; [lia|lia|]. intros ? Hx'. simplify_eq.
      apply wp_bind, wp_is_less.
      - intros b Hb. apply wp_ret. split; [done|]. intros He. unfold cstate in *.
        apply streak_app; [done|done|].
        destruct (ms_eqb res Descending), b; [|done|done|]; [by apply ans_true|by apply ans_false].
      - intros Hb. eapply mpanic_intro; [done|done| |]; unfold l; set_solver. }
    clearbody ext. apply wp_bind. wp_apply Hext; [|done].
    intros [] V _ [-> He].
    - replace (length P0 + length A + length B) with (length P0 + length (A ++ B))
        by (rewrite app_length; lia).
      replace (P0 ++ A ++ B ++ concat Rs) with (P0 ++ (A ++ B) ++ concat Rs) by (by rewrite <-app_assoc).
      wp_apply (IH P0 (A ++ B) res).
      + by destruct A.
      + done.
      + auto.
      + rewrite Hn. by rewrite <-app_assoc.
      + intros chunks V _ (W & -> & segs & -> & -> & H1 & H2 & H3). exists (concat segs). split; [done|].
        exists segs. simpl. rewrite app_assoc. done.
      + auto.
    - apply wp_bind.
      wp_apply (pm_finish_spec n (length P0) (length P0 + length A) res P0 A (B ++ concat Rs) (λ _ _, False));
        [done|done|done|done| |done].
      intros [] V _ (A' & -> & Hp & Hs). apply wp_bind.
      pose proof (sperm_length ans A A' Hp) as Hl.
      replace (length P0 + length A) with (length (P0 ++ A')) by (rewrite app_length; lia).
      replace (P0 ++ A' ++ B ++ concat Rs) with ((P0 ++ A') ++ B ++ concat Rs) by (by rewrite <-app_assoc).
      assert (HpA : A' ≡ₚ A) by (by apply (sperm_perm ans)).
      wp_apply (IH (P0 ++ A') B r).
      + done.
      + done.
      + done.
      + rewrite Hn. rewrite !app_length. lia.
      + intros chunks V _ (W & -> & segs & -> & -> & H1 & H2 & H3). apply wp_ret.
        exists (A' ++ concat segs). rewrite <-app_assoc. split; [done|].
        exists (A' :: segs). simpl. rewrite app_length, Hl.
        split; [done|]. split; [done|]. split; [done|]. split; [by constructor|].
        by apply sperm_app.
      + intros e V _ H. eapply mpanic_perm; [exact H|]. rewrite <-app_assoc.
        by rewrite HpA.
  Qed.

  (** ** The chunks of an axis *)
  Lemma CHUNK_pos : 0 < CHUNK_LENGTH.
  Proof. unfold CHUNK_LENGTH. lia. Qed.
  Local Opaque CHUNK_LENGTH.
  Lemma axis_chunks_spec f n l V :
    length V ≤ f → n = l + length V →
    ∃ Vs, V = concat Vs ∧ axis_chunks f n l = bounds_of l Vs ∧ Forall (λ V, V ≠ []) Vs.
  Proof.
    revert l V. induction f as [|f IH]; intros l V Hf Hn.
    { destruct V; simpl in *; [|lia]. exists []. done. }
    cbn [axis_chunks]. destruct (Nat.ltb_spec l n).
    2: { destruct V; simpl in *; [|lia]. exists []. done. }
    pose proof CHUNK_pos as Hc.
    assert (Ht : length (take CHUNK_LENGTH V) = Nat.min CHUNK_LENGTH (n - l)).
    { rewrite take_length. lia. }
    destruct (decide (CHUNK_LENGTH ≤ length V)) as [Hle|Hle].
    - destruct (IH (l + CHUNK_LENGTH) (drop CHUNK_LENGTH V)) as (Vs & HV & Hb & HF).
      + rewrite drop_length. lia.
      + rewrite drop_length. lia.
      + exists (take CHUNK_LENGTH V :: Vs). simpl. rewrite <-HV, take_drop.
        split; [done|]. split.
        * rewrite Hb, Ht. do 2 f_equal. lia.
        * constructor; [|done]. intros H0. rewrite H0 in Ht. simpl in Ht. lia.
    - exists [V]. simpl. rewrite app_nil_r. split; [done|].
      split; [|constructor; [|done]; intros ->; simpl in *; lia].
      rewrite <-Ht. rewrite take_ge by lia. f_equal.
      destruct f; simpl; [done|]. destruct (Nat.ltb_spec (l + CHUNK_LENGTH) n); [lia|done].
  Qed.
  Lemma split_like Vs J :
    length J = length (concat Vs) → ∃ Js, J = concat Js ∧ Forall2 same_len Vs Js.
  Proof.
    revert J. induction Vs as [|V Vs IH]; intros J HJ; simpl in *.
    - exists []. split; [|constructor]. by destruct J.
    - rewrite app_length in HJ. destruct (IH (drop (length V) J)) as (Js & HJs & HF).
      { rewrite drop_length. lia. }
      exists (take (length V) J :: Js). simpl. rewrite <-HJs, take_drop. split; [done|].
      constructor; [|done]. unfold same_len. rewrite take_length. lia.
  Qed.

  (** ** The whole sort *)
  Lemma pm_small_spec V :
    2 ≤ length V →
    wp ans (for_down 0 (length V - 1) (λ i, slice (length V) i (length V) pm_insert_head))
      (λ _ V', sperm V V' ∧ ksorted V') (mpanic ans V) V.
  Proof.
    intros H2. set (n := length V) in *.
    eapply wp_mono; [apply (wp_for_down ans 0 (n - 1) _
      (λ i m, length m = n ∧ sperm V m ∧ ksorted (drop i m)) (mpanic ans V))| |].
    - split; [done|]. split; [done|].
      destruct (drop (0 + (n - 1)) V) as [|x [|y D]] eqn:Hd; [constructor|apply ksorted_singleton|].
      exfalso. apply (f_equal length) in Hd. rewrite drop_length in Hd. simpl in Hd. lia.
    - intros i m Hi (Hm & Hp & Hs).
      destruct (lookup_lt_is_Some_2 m i) as [x Hx]; [lia|].
      assert (Hmm : m = take i m ++ (x :: drop (S i) m) ++ []).
      { rewrite app_nil_r. by rewrite take_drop_middle. }
      rewrite Hmm at 1.
      assert (Hti : length (take i m) = i) by (rewrite take_length; lia).
      assert (Hli : length (x :: drop (S i) m) = n - i) by (simpl; rewrite drop_length; lia).
      apply wp_slice_app; [done|rewrite Hli; lia|lia|].
      rewrite Hli.
      wp_apply (pm_insert_head_spec ans (n - i) x (drop (S i) m)).
      + simpl in Hli. lia.
      + intros [] l' _ Hins Hl'. rewrite app_nil_r.
        assert (Hsp : sperm m (take i m ++ l')).
        { rewrite Hmm at 1. rewrite app_nil_r. apply sperm_app_l. by apply inserted_right_sperm. }
        repeat split.
        * rewrite <-Hm. by apply (sperm_length ans).
        * by etrans.
        * rewrite drop_app_alt by done.
          eapply inserted_right_sorted; [|exact Hins]. auto.
      + intros e l' _ He Hl'. eapply mpanic_mid; [exact He|].
        rewrite app_nil_r, take_drop_middle by done. symmetry. by apply (sperm_perm ans).
    - intros [] m _ (Hm & Hp & Hs). done.
    - auto.
  Qed.

  Theorem par_merge_sort_spec take_item V J :
    length J = length V →
    wp ans (par_merge_sort c take_item (length V))
      (λ _ M', onp (length V) (λ V', sperm V V' ∧ (if zst c then V' = V else ksorted V')) M')
      (λ e M', onp (length V) (mpanic ans V e) M') (V ++ J).
  Proof.
    intros HJ. unfold par_merge_sort. destruct (zst c).
    { apply wp_ret. exists V, J. done. }
    destruct (Nat.leb_spec (length V) PM_MAX_INSERTION) as [Hmax|Hmax].
    { destruct (Nat.leb_spec 2 (length V)) as [H2|H2].
      - wp_apply (wp_frame_r ans _ _ _ V J (pm_small_spec V H2)).
        + intros _ M _ (V' & -> & HV' & H). exists V', J. done.
        + intros e M _ (V' & -> & HV' & H). exists V', J. done.
      - apply wp_ret. exists V, J. split; [done|]. split; [done|]. split; [done|].
        destruct V as [|x [|y V]]; simpl in *; [constructor|apply ksorted_singleton|lia]. }
    destruct (Nat.leb_spec (length V) CHUNK_LENGTH) as [Hle|Hgt].
    { assert (HV : 0 < length V) by lia.
      apply wp_bind.
      assert (HVJ : length V / 2 ≤ length J) by (rewrite HJ; apply Nat.div_le_upper_bound; lia).
      pose proof (pm_merge_sort_spec c ans V J HV HVJ) as Hm. rewrite HJ in Hm.
      wp_apply Hm.
      - intros res M _ (V1 & J1 & -> & HJ1 & Hr).
        apply sort_result_state in Hr as [Hc Hp].
        pose proof (sperm_length ans V V1 Hp) as Hl. unfold cstate in Hc.
        destruct (ms_eqb res Descending); simpl in Hc.
        + rewrite <-Hl.
          wp_apply (wp_frame_r ans _ _ _ V1 J1
            (reverse_spec ans (length V1) V1 (λ _ _, False) eq_refl)).
          * intros [] M _ (V' & -> & HV' & ->). exists (rev V1), J1.
            split; [done|]. split; [lia|]. split; [|by apply ksorted_rev].
            etrans; [exact Hp|by apply sperm_reverse].
          * intros e M _ (V' & _ & _ & []).
        + apply wp_ret. exists V1, J1. split; [done|]. split; [lia|done].
      - intros e M _ (V1 & J1 & -> & HJ1 & Hr). exists V1, J1. split; [done|]. split; [lia|done]. }
    assert (HV : V ≠ []) by (intros ->; simpl in Hgt; lia).
    destruct (axis_chunks_spec (length V) (length V) 0 V) as (Vs & HVs & Hb & Hne); [lia|done|].
    rewrite Hb. destruct (split_like Vs J) as (Js & HJs & HVJ); [by rewrite <-HVs|].
    apply wp_bind.
    assert (HlV : length V = length (concat Vs)) by (by rewrite HVs at 1).
    pose proof (par_bridge_spec take_item (length V) Vs Js Hne HVJ HlV) as Hbr.
    rewrite <-HVs, <-HJs in Hbr.
    wp_apply Hbr; [|done].
    intros rs M _ (Vs1 & Js1 & -> & HV1 & HJ1 & HF).
    rewrite zip_triples.
    assert (Hst : Forall2 cstate rs Vs1 ∧ sperm (concat Vs) (concat Vs1)).
    { clear -HF. induction HF as [|W r W' Vs rs Vs1 H _ IH]; simpl; [split; [constructor|done]|].
      apply sort_result_state in H as [H1 H2]. destruct IH as [IH1 IH2].
      split; [by constructor|by apply sperm_app]. }
    destruct Hst as [Hst Hp1]. rewrite <-HVs in Hp1.
    assert (Hne1 : Forall (λ V, V ≠ []) Vs1).
    { clear -HV1 Hne. induction HV1 as [|W W' Vs Vs1 H _ IH]; [constructor|].
      apply Forall_cons in Hne as [? ?]. constructor; [|auto].
      intros ->. unfold same_len in H. by destruct W. }
    pose proof (same_len_concat _ _ HV1) as Hl1. rewrite <-HVs in Hl1.
    pose proof (same_len_concat _ _ HJ1) as Hl2. rewrite <-HVs in Hl2.
    rewrite (triples_same _ _ _ _ HV1).
    clear HF HV1 HJ1 HVJ HJs Js Hb.
    destruct Hst as [|r A rs Rs HA HRs].
    { exfalso. destruct V; simpl in *; [done|lia]. }
    apply Forall_cons in Hne1 as [HA0 Hne1]. cbn [triples concat]. simpl concat in *.
    apply wp_bind.
    wp_apply (wp_frame_r ans _ _ _ (A ++ concat Rs) (concat Js1)
      (pm_concat_spec (length V) [] A r Rs rs HA0 Hne1 HA HRs (eq_sym Hl1))).
    2: { intros e M _ (V' & -> & HV' & He). exists V', (concat Js1). split; [done|]. split; [lia|].
         simpl in He. eapply mpanic_perm; [exact He|]. by apply (sperm_perm ans). }
    intros chunks M _ (V' & -> & HV' & W & -> & segs & -> & -> & Hsne & Hss & Hsp).
    simpl length in *. simpl app in *. rewrite chunks_of_length.
    assert (Hls : length (concat segs) = length V) by lia.
    wp_apply (pm_recurse_spec c ans (S (length segs)) 0 (length V) (length V) 0 segs false
      (concat segs ++ concat Js1)).
    - done.
    - lia.
    - done.
    - lia.
    - rewrite app_length. lia.
    - rewrite app_length. lia.
    - lia.
    - unfold sub. by rewrite drop_0, take_app.
    - intros _ M _ ([HM _] & H1 & H2). simpl in H1, H2. rewrite app_length in HM.
      unfold sub in H1, H2. rewrite drop_0 in H1, H2.
      exists (take (length (concat segs)) M), (drop (length (concat segs)) M).
      rewrite take_drop. split; [done|]. split; [rewrite drop_length; lia|]. split; [|done].
      etrans; [exact Hp1|]. by etrans.
    - intros e M _ ([HM _] & H1). simpl in H1. rewrite app_length in HM.
      unfold sub in H1. rewrite drop_0 in H1.
      exists (take (length (concat segs)) M), (drop (length (concat segs)) M).
      rewrite take_drop. split; [done|]. split; [rewrite drop_length; lia|].
      eapply mpanic_perm; [exact H1|]. apply (sperm_perm ans). by etrans.
  Qed.
End sort.
