(** * Crashes in operations on prefix trees, and taking the lock over. *)
From Verif Require Export StructGame StructStart PrefixCrashAll.
From iris.proofmode Require Import tactics.
From iris.prelude Require Import options.
Open Scope Z_scope.

Local Arguments Z.pow : simpl never.
Local Arguments Z.mul : simpl never.
Local Arguments Z.add : simpl never.
Local Arguments u64 : simpl never.

(** The crash part of [run_by_lock]. *)
Lemma dies_by_lock {A} R Rc W i pr (p : prog A) :
  file_holds R W → world_ok W → w_procs W !! i = Some pr → growable Rc →
  (∀ e, pool_inv (Cfg (p_max pr) (w_lim W)) (w_size W) e ∗ R (w_size W) ⊢
     crash (∃ m w e, pool_gen (Cfg (p_max pr) (w_lim W)) m w e ∗ Rc m) p) →
  ∀ W', dies_in W i (sa_lock ;; p)%prog W' →
    (file_holds R W' ∨ file_holds Rc W') ∧ world_ok W' ∧ w_lim W' = w_lim W ∧
    w_procs W' = delete i (w_procs W).
Proof.
  intros HR Hok Hi Hg Hwp.
  pose proof (Hok i pr Hi) as Hpr.
  destruct (run_lock R W pr HR Hpr) as [e' Hlock].
  pose proof (file_holds_facts R W HR) as (Hs & Hle & Hb).
  set (s1 := mk_pst (w_mem W) (w_fsize W) (w_size W) e' (p_max pr) (w_lim W)) in *.
  assert (holds (pool_inv (Cfg (p_max pr) (w_lim W)) (w_size W) e' ∗ R (w_size W)) s1) as Hs1.
  { apply file_holds_view; [done|]. apply Hpr. }
  eapply (holds_mono _ _ _ (Hwp e')) in Hs1. apply wpc_adequacy in Hs1 as [_ Hcr].
  intros W' (pr' & s & Hi' & Hc & ->). simplify_eq.
  split_and!; [|intros j q; simpl; rewrite lookup_delete_Some; intros [_ Hj]; by eapply Hok|done|done].
  apply crash_bind in Hc as [Hc|([] & s2 & Hr & Hc)].
  - left. apply (crash_lock R) in Hc as [Hm Hf]; [|done|done].
    destruct HR as [m HR]. exists m. unfold base_view, die in *; simpl. by rewrite Hm Hf.
  - right. rewrite Hlock in Hr. injection Hr as <-. apply Hcr in Hc.
    by eapply file_holds_die in Hc.
Qed.
Lemma dies_quiet {A} R W i (p : prog A) :
  file_holds R W → world_ok W → WPCrash.quiet p →
  ∀ W', dies_in W i (sa_lock ;; p)%prog W' →
    file_holds R W' ∧ world_ok W' ∧ w_lim W' = w_lim W ∧ w_procs W' = delete i (w_procs W).
Proof.
  intros HR Hok Hq W' (pr & s & Hi & Hc & ->). pose proof (Hok i pr Hi) as Hpr.
  split_and!; [|intros j q; simpl; rewrite lookup_delete_Some; intros [_ Hj]; by eapply Hok|done|done].
  destruct (run_lock R W pr HR Hpr) as [e' Hlock]. destruct HR as [m HR0]. pose proof HR0 as HR. exists m.
  apply crash_bind in Hc as [Hc|([] & s2 & Hr & Hc)].
  - apply (crash_lock R _ _ _ (ex_intro _ m HR) Hpr) in Hc as [Hm Hf]. unfold base_view, die in *; simpl. by rewrite Hm Hf.
  - rewrite Hlock in Hr. injection Hr as <-. pose proof (quiet_crash p _ _ Hq Hc) as ->. exact HR.
Qed.
Lemma crash_frame {A} C (X : hPropI) (p : prog A) : crash C p -∗ X -∗ crash (C ∗ X) p.
Proof.
  iIntros "H X". iApply (wpc_strong_mono with "H"). iSplit; [by iIntros (?) "_"|]. iSplit; [by iIntros (?) "_"|]. iIntros "C". iFrame.
Qed.
Lemma crash_mono {A} C C' (p : prog A) : (C ⊢ C') → crash C p ⊢ crash C' p.
Proof.
  iIntros (HC) "H". iApply (wpc_strong_mono with "H"). iSplit; [by iIntros (?) "_"|]. iSplit; [by iIntros (?) "_"|]. iIntros "C". by iApply HC.
Qed.

Section hash_function.
Context {hash : HashFn}.
Section game.
  Context (F : nat) (HF : 2 ^ 62 <= Z.of_nat F).
  Notation al := (simple_allocator F).
  Notation S := (simple_spec F HF).

  (** The pool after a crash. *)
  Definition pool_dirty (xs : list obj) (J K : blocks) (bo m : Z) : hPropI :=
    ((∃ L, ⌜shift24 L ≡ₚ (objs_blocks xs ++ J) ++ K⌝ ∗ sa_R true L bo m) ∗ reps xs ∗ raws J)%I.
  Lemma pool_is_dirty xs J K bo m : pool_is S xs J K bo m ⊢ pool_dirty xs J K bo m.
  Proof using.
    iIntros "((%L & %HL & H) & R & RJ)". iFrame "R RJ". iExists L. iSplit; [done|].
    by iApply sa_R_weaken.
  Qed.
  Lemma pool_dirty_grow xs J K bo : growable (pool_dirty xs J K bo).
  Proof using.
    intros m w Hw. iIntros "[((%L & %HL & H) & R & RJ) G]". iFrame "R RJ". iExists L.
    iSplit; [done|]. iApply (sa_R_grow with "[H G]"); [done|iFrame].
  Qed.

  Lemma tl_rep b M N : PrefixCrash.tl b M N ⊢ ∃ x ne, t_rep b (PT (vls M) (rng N) x ne) (tblocks b M N).
  Proof using.
    clear F HF. iIntros "(%HT & [%w1 W1] & [%w2 W2] & T & V)".
    iDestruct (word_u64 with "W1") as %H1. iDestruct (word_u64 with "W2") as %H2.
    iExists (w1 - Z.of_nat (size M)), (w2 - Z.of_nat (size N)), M, N. iSplit; [done|].
    cbn [t_nerr t_extra]. unfold tinv, node_err. iSplit; [done|].
    replace (Z.of_nat (size M) + (w1 - Z.of_nat (size M))) with w1 by lia.
    replace (Z.of_nat (size N) + (w2 - Z.of_nat (size N))) with w2 by lia.
    rewrite !u64_small //. iFrame "W1 W2 T V".
  Qed.

  Definition Rc xs1 o t y xs2 J bo (m : Z) : hPropI :=
    (∃ t' B' K', ⌜crash_leaves t y (t_map t')⌝ ∗ pool_dirty (xs1 ++ (o, VTree t' false, B') :: xs2) J K' bo m)%I.

  Lemma crash_pool xs1 o t ok B xs2 J K bo m c e y :
    only_reads y = false → sensible simple_limits (VTree t ok) (OTree y) → crash_handled t y →
    ainv S c (objs_blocks (xs1 ++ (o, VTree t ok, B) :: xs2) ++ J) (Ast K bo m e) ∗
      reps (xs1 ++ (o, VTree t ok, B) :: xs2) ∗ raws J ⊢
    crash (∃ m w e, pool_gen c m w e ∗ Rc xs1 o t y xs2 J bo m) (op_prog al F o (OTree y)).
  Proof using.
    iIntros (Hw (Ha & Hsz & Hh) Hch) "(H & R & RJ)". cbn [op_prog]. rewrite -crash_map.
    iDestruct (pool_focus S simple_limits (simple_limits_ok F HF) F HF _ xs1 (o, VTree t ok, B) xs2 J with "H R") as "(H & [_ Hv] & R)". cbn [fst snd].
    iDestruct "Hv" as (M N (Hm & Hn & HB)) "T". destruct t as [tm tn tx te]. cbn [t_map t_nodes t_nerr t_extra] in *.
    subst tm tn. iCombine "R RJ" as "X".
    iAssert (ex F HF c o (objs_blocks (xs1 ++ xs2) ++ J) bo None None M N) with "[H T]" as "T".
    { iApply (tst_ex F HF c o _ bo te (Ast K bo m e) tx M N); [done|]. iSplitL "H"; [|iExact "T"].
      iApply (ainv_perm with "H"). by rewrite HB. }
    iDestruct (crash_tree_writes F HF c o _ bo M N tx te y with "T") as "W"; [done|done|exact Hsz|done|done|].
    iDestruct (crash_frame with "W X") as "W". iApply (crash_mono with "W").
    iIntros "[(%M' & %N' & %Hg & (%K' & %L & %HL & H) & T) [R RJ]]".
    rewrite sa_R_crash. iDestruct "H" as (m' w' e') "[Hp H]". iExists m', w', e'. iFrame "Hp".
    iDestruct (tl_rep with "T") as (x ne) "T". iExists _, _, K'. iSplit; [|iSplitL "H"; [|iSplitR "RJ"; [|done]]].
    2:{ iExists L. iFrame "H". iPureIntro. rewrite HL. rewrite objs_blocks_mid. cbn [snd]. by rewrite (assoc_L app). }
    2:{ rewrite reps_mid. iFrame "R". cbn [fst snd vrep]. iSplit; [done|]. iExact "T". }
    done.
  Qed.
  Lemma Rc_grow xs1 o t y xs2 J bo : growable (Rc xs1 o t y xs2 J bo).
  Proof using.
    intros m w Hw. iIntros "[(%t' & %B' & %K' & %Hl & H) G]". iExists t', B', K'. iSplit; [done|].
    iApply (pool_dirty_grow with "[H G]"); [done|]. iFrame.
  Qed.

  (** A process dies in an operation that writes. *)
  Lemma step_crash xs1 o t ok B xs2 J K bo W i y W' :
    file_holds (pool_is S (xs1 ++ (o, VTree t ok, B) :: xs2) J K bo) W → wok S W →
    only_reads y = false → sensible simple_limits (VTree t ok) (OTree y) → crash_handled t y →
    dies_in W i (sa_lock ;; op_prog al F o (OTree y))%prog W' →
    wok S W' ∧ ∃ t' B' K', crash_leaves t y (t_map t') ∧
      file_holds (pool_dirty (xs1 ++ (o, VTree t' false, B') :: xs2) J K' bo) W'.
  Proof using.
    intros HR [Hok Hcfg] Hw Hs Hch Hd.
    assert (is_Some (w_procs W !! i)) as [pr Hi].
    { destruct Hd as (pr & s & Hi & _). by exists pr. }
    destruct (dies_by_lock _ (Rc xs1 o t y xs2 J bo) W i pr (op_prog al F o (OTree y)) HR Hok Hi (Rc_grow _ _ _ _ _ _ _)) with (W' := W')
      as ([Hf|Hf] & Hok' & Hlim & _); [|done| |].
    - intros e. rewrite -(crash_pool xs1 o t ok B xs2 J K bo (w_size W) _ e y Hw Hs Hch).
      iIntros "(Hp & H & R & RJ)". iFrame "R RJ". iSplit; [done|]. cbn [s_K s_bo s_m s_e]. iFrame.
    - split; [split; [done|]; by rewrite Hlim|]. exists (PT (t_map t) (t_nodes t) (t_extra t) (t_nerr t)), B, K.
      split; [by left|]. eapply file_holds_mono; [|exact Hf]. intros m. rewrite pool_is_dirty.
      iIntros "(H & R & RJ)". iSplitL "H"; [|iSplitL "R"; [|done]].
      + iDestruct "H" as (L HL) "H". iExists L. iFrame "H". iPureIntro. rewrite HL. by rewrite !objs_blocks_mid.
      + rewrite !reps_mid. cbn [fst snd vrep]. iDestruct "R" as "[[_ R1] R]". iFrame "R". iSplit; [done|]. by destruct t.
    - split; [split; [done|]; by rewrite Hlim|]. unfold Rc in Hf.
      apply file_holds_exist in Hf as [t' Hf]. apply file_holds_exist in Hf as [B' Hf]. apply file_holds_exist in Hf as [K' Hf].
      apply file_holds_pure in Hf as [Hl Hf]. by exists t', B', K'.
  Qed.

  (** Taking the lock over. *)
  Lemma wpc_repair xs J K bo c m e :
    pool_inv c m e ∗ pool_dirty xs J K bo m ⊢
    wpc (∃ m w e, pool_gen c m w e ∗ pool_dirty xs J K bo m) (sa_repair F ;; Ret tt)%prog
        (λ _, ∃ m' e', pool_inv c m' e' ∗ pool_is S xs J K bo m') (λ _, ∃ m' e', pool_inv c m' e' ∗ False).
  Proof using.
    iIntros "(Hp & (%L & %HL & (%ba & %bc & Hr & _ & Hcore & %Hl)) & R & RJ)".
    iAssert (⌜size_ok m⌝)%I as %[Hm1 Hm2].
    { iDestruct "Hp" as "(_ & _ & _ & _ & _ & _ & %Hx)". iPureIntro. tauto. }
    iApply (wpc_sa_repair with "Hp Hr Hcore"); [by eapply simple_fuel; [..|exact Hl|lia]|done|]. iSplit.
    + rewrite sa_R_crash. iIntros "(%m' & %w & %e' & Hp & HR)". iExists m', w, e'. iFrame "Hp R RJ". iExists L. by iFrame.
    + iIntros "Hinv". iApply wpc_ret. iSplit.
      * rewrite sa_inv_crash sa_R_crash. iDestruct "Hinv" as (m' w e') "[Hp HR]". iExists m', w, e'. iFrame "Hp R RJ". iExists L. by iFrame.
      * rewrite -sa_R_inv. iDestruct "Hinv" as "[Hp H]". iExists _, _. iFrame "Hp R RJ". iExists L. by iFrame.
  Qed.
  Lemma step_takeover xs J K bo W j pr :
    file_holds (pool_dirty xs J K bo) W → wok S W → w_procs W !! j = Some pr →
    match run_by W j (under_lock true (sa_repair F) (Ret tt)) with
    | WDone _ W' => wok S W' ∧ file_holds (pool_is S xs J K bo) W'
    | WExn _ _ | WBad | WNoProc => False
    end ∧
    ∀ W', dies_in W j (under_lock true (sa_repair F) (Ret tt)) W' →
      wok S W' ∧ file_holds (pool_dirty xs J K bo) W'.
  Proof using.
    intros HR [Hok Hcfg] Hj. unfold under_lock.
    destruct (run_by_lock (pool_dirty xs J K bo) (λ _ : unit, pool_is S xs J K bo) (λ _ _, False)%I (pool_dirty xs J K bo) W j pr
      (sa_repair F ;; Ret tt)%prog HR Hok Hj (pool_dirty_grow _ _ _ _)) as [H1 H2].
    { intros e. apply wpc_repair. }
    split.
    - destruct (run_by _ _ _) as [[] W'|e W'| |]; try done.
      + destruct H1 as [H1 (Hl & Hok' & _)]. split; [split; [done|]; by rewrite Hl|done].
      + destruct H1 as [[m H1] _]. eapply (holds_pure False). eapply holds_mono; [|exact H1]. iIntros "[_ []]".
    - intros W' Hd. apply H2 in Hd as ([Hf|Hf] & Hok' & Hl & _); (split; [split; [done|]; by rewrite Hl|done]).
  Qed.

  (** An operation that takes the lock over runs as if it came after the repair. *)
  Lemma lock_again c m e (R : Z → hPropI) W (j : nat) s : c_lim c = w_lim W →
    holds (pool_inv c m e ∗ R m) s → run sa_lock s = Done tt s ∧ oslim s = w_lim W.
  Proof using.
    clear F HF. intros Hc H. destruct (file_holds_leave R c m e W j s Hc H) as (Hf & Hl & [Hs _] & Hm & _). split; [|done].
    destruct (file_holds_facts _ _ Hf) as (_ & Hle & _).
    assert (le_val (read_bytes s 0 8) = m) as Hw.
    { assert (holds (word 0 m) s) as Hh.
      { eapply holds_mono; [|exact H]. iIntros "((_ & _ & _ & _ & _ & $ & _) & _)". }
      by apply holds_word in Hh as (_ & _ & Hh). }
    assert (w_size (leave W j s) = m) as Hw2.
    { rewrite -Hw. done. }
    rewrite Hw2 in Hle. cbn [w_fsize leave] in Hle.
    assert (run check_size_and_remap s = Done tt s) as Hck.
    { unfold check_size_and_remap. rewrite run_bind. cbn [get_mapped run exec].
      rewrite (bool_decide_eq_false_2 (mapped s = 0)); [|lia]. rewrite run_bind run_load64. unfold valid.
      rewrite bool_decide_eq_true_2; [|lia]. rewrite Hw. by rewrite (bool_decide_eq_true_2 (m = mapped s)). }
    unfold sa_lock. rewrite run_bind Hck. exact Hck.
  Qed.
  Lemma takeover_same xs J K bo W j pr W' :
    file_holds (pool_dirty xs J K bo) W → wok S W → w_procs W !! j = Some pr →
    run_by W j (under_lock true (sa_repair F) (Ret tt)) = WDone tt W' →
    ∀ A (p : prog A), run_by W j (under_lock true (sa_repair F) p) = run_by W' j (sa_lock ;; p)%prog.
  Proof using.
    intros HR [Hok Hcfg] Hj Hrun A p. pose proof (Hok j pr Hj) as Hpr.
    destruct (run_lock _ W pr HR Hpr) as [e' Hlock]. pose proof (file_holds_facts _ W HR) as (Hs & Hle & Hb).
    set (s1 := mk_pst (w_mem W) (w_fsize W) (w_size W) e' (p_max pr) (w_lim W)) in *.
    assert (holds (pool_inv (Cfg (p_max pr) (w_lim W)) (w_size W) e' ∗ pool_dirty xs J K bo (w_size W)) s1) as Hs1.
    { apply file_holds_view; [done|]. apply Hpr. }
    eapply (holds_mono _ _ _ (wpc_repair xs J K bo _ _ e')) in Hs1. apply wpc_adequacy in Hs1 as [Hs1 _].
    unfold run_by, under_lock in *. rewrite Hj in Hrun |- *. rewrite run_bind Hlock in Hrun. rewrite run_bind Hlock.
    fold s1 in Hrun |- *. rewrite run_bind in Hs1. rewrite run_bind in Hrun. rewrite run_bind.
    destruct (run (sa_repair F) s1) as [[] s2|x s2| |] eqn:E; try done. cbn [run] in Hs1, Hrun. injection Hrun as <-.
    apply holds_exist in Hs1 as [m Hs1]. apply holds_exist in Hs1 as [e Hs1].
    destruct (lock_again (Cfg (p_max pr) (w_lim W)) _ _ _ W j s2 eq_refl Hs1) as [Hl2 Ho2].
    cbn [leave w_procs]. rewrite lookup_insert.
    assert (view (leave W j s2) (Proc (mapped s2) (maxsz s2) (epoch s2)) = s2) as Hv.
    { unfold view, leave. cbn [w_mem w_fsize w_lim p_mapped p_max p_epoch]. rewrite -Ho2. by destruct s2. }
    fold (leave W j s2). rewrite Hv run_bind Hl2.
    assert (∀ s, leave (leave W j s2) j s = leave W j s) as Hll.
    { intros s. unfold leave. cbn [w_lim w_procs]. by rewrite insert_insert. }
    destruct (run p s2); by rewrite ?Hll.
  Qed.

End game.
End hash_function.
