(** * LogarithmicAllocator: from the invariant to the properties, and examples. *)
From Verif Require Export LogSpec LogGame LogVerify SimpleMain.
From iris.proofmode Require Import tactics.
From iris.prelude Require Import options.
Open Scope Z_scope.
Open Scope prog_scope.
Local Arguments Z.pow : simpl never.
Local Arguments Z.mul : simpl never.
Local Arguments Z.add : simpl never.
Local Arguments bool_decide : simpl never.
Local Arguments u64 : simpl never.
Local Opaque la_create_free_block la_unlink la_merge_loop la_repair la_init_body la_create_free_blocks la_allocate la_free.

(** ** The first steps of a pool *)
Definition la_begun (m : Z) : hPropI := (la_fresh m ∨ ∃ fl, la_R la_new fl 0 m)%I.
Definition log_started_ok (W : world) : Prop :=
  world_ok W ∧ w_lim W <= 2 ^ 56 ∧ w_size W <= 2 ^ 56 ∧
  ((w_word W 8 = 0 ∧ file_holds la_fresh W) ∨ (w_word W 8 ≠ 0 ∧ file_holds (λ m, ∃ fl, la_R la_new fl 0 m)%I W)).
Lemma la_R_init_word L fl bo (X : Z → hPropI) W : file_holds (λ m, la_R L fl bo m ∗ X m)%I W → w_word W 8 ≠ 0.
Proof.
  intros H.
  assert (file_holds (λ m, ∃ i, ⌜i ≠ 0⌝ ∗ word sa_initialized i ∗ True)%I W) as HH.
  { eapply file_holds_mono; [|exact H]. intros m.
    iIntros "[(((%ii & Hi & %Hne) & _) & _) _]". iExists ii. by iFrame. }
  apply file_holds_exist in HH as [ii HH]. apply file_holds_pure in HH as [Hne HH].
  apply file_holds_word in HH as [HH _]. unfold sa_initialized in HH. congruence.
Qed.
Lemma log_started_intro W :
  world_ok W → w_lim W <= 2 ^ 56 → w_size W <= 2 ^ 56 → file_holds la_begun W → log_started_ok W.
Proof.
  intros Hok Hlim Hsz H. split; [done|]. split; [done|]. split; [done|]. apply file_holds_or in H as [H|H].
  - left. split; [|done]. eapply (file_holds_word (λ _, True)%I). eapply file_holds_mono; [|exact H].
    intros m. iIntros "(_ & $ & _)".
  - right. split; [|done]. pose proof H as H'. apply file_holds_exist in H' as [fl H'].
    eapply (la_R_init_word _ _ _ (λ _, True)%I). eapply file_holds_mono; [|exact H'].
    intros m. iIntros "$".
Qed.
Lemma log_started_file W : log_started_ok W → file_holds la_begun W.
Proof.
  intros (_ & _ & _ & [[_ H]|[_ H]]); (eapply file_holds_mono; [|exact H]); intros m; iIntros "H"; [by iLeft|by iRight].
Qed.
Lemma log_started_load W i pr :
  log_started_ok W → w_procs W !! i = Some pr →
  run (load64 sa_initialized) (view W pr) = Done (w_word W 8) (view W pr).
Proof.
  intros Hs Hi. pose proof (log_started_file _ Hs) as Hf.
  destruct (file_holds_facts _ _ Hf) as ([? _] & ? & _). destruct Hs as [Hok _].
  destruct (Hok _ _ Hi) as [? _].
  rewrite run_load64. unfold valid, sa_initialized. simpl mapped. simpl fsize.
  rewrite bool_decide_eq_true_2; [|lia]. done.
Qed.
Lemma log_started_construct W i pr F :
  log_started_ok W → w_procs W !! i = Some pr →
  ∃ W', run_by W i (la_construct false F) = WDone tt W' ∧ log_started_ok W' ∧ w_lim W' = w_lim W ∧ w_word W' 8 ≠ 0.
Proof.
  intros Hs Hi. pose proof (log_started_load _ _ _ Hs Hi) as Hld. pose proof Hs as (Hok & Hlim & Hsz & _).
  destruct (decide (w_word W 8 = 0)) as [Hz|Hnz].
  - destruct Hs as (_ & _ & _ & [[_ Hf]|[? _]]); [|done].
    pose proof (run_by_lock_wp la_fresh (λ _ m, ⌜m = w_size W⌝ ∗ ∃ fl, la_R la_new fl 0 m)%I (λ _ _, False)%I W i pr
      (Ret tt ;; la_init_body)) as H1.
    specialize (H1 Hf Hok Hi).
    assert (run_by W i (la_construct false F) = run_by W i (sa_lock ;; (Ret tt ;; la_init_body))) as E.
    { unfold run_by, la_construct. rewrite Hi run_bind Hld Hz.
      rewrite (bool_decide_eq_false_2 (0 ≠ 0)); [|lia]. unfold under_lock. done. }
    rewrite E. clear Hld E.
    match type of H1 with ?P → _ => assert P as Hwp end.
    { intros e. iIntros "[P HR]". iApply bind_ret_r. wpn. iApply (wp_la_init with "P HR"). iIntros (fl) "P HR".
      iApply wp_ret. iExists _, _. iFrame. iSplit; [done|]. iExists fl. iFrame. }
    specialize (H1 Hwp). destruct (run_by W i _) as [[] W'|x W'| |]; try done.
    + exists W'. split; [done|]. destruct H1 as [H1 (Hl & Hok' & _)].
      assert (w_size W' = w_size W) as Esz.
      { exact (proj1 (file_holds_pure_m (λ m, m = w_size W) _ _ H1)). }
      assert (file_holds la_begun W') as Hb.
      { eapply file_holds_mono; [|exact H1]. intros m. iIntros "[_ H]". by iRight. }
      split; [apply log_started_intro; [done|lia|lia|done]|]. split; [done|].
      assert (file_holds (λ m, ∃ fl, la_R la_new fl 0 m)%I W') as H'.
      { eapply file_holds_mono; [|exact H1]. intros m. iIntros "[_ $]". }
      apply file_holds_exist in H' as [fl H'].
      eapply (la_R_init_word _ _ _ (λ _, True)%I). eapply file_holds_mono; [|exact H'].
      intros m. iIntros "$".
    + destruct H1 as [[m H] _]. exfalso. eapply (holds_pure False). eapply holds_mono; [|exact H]. iIntros "[_ []]".
  - exists (leave W i (view W pr)). split.
    { unfold run_by, la_construct. rewrite Hi run_bind Hld.
      rewrite (bool_decide_eq_true_2 (w_word W 8 ≠ 0)); [|done]. done. }
    split; [|done]. apply log_started_intro; [|done|done|].
    + intros j q. simpl. destruct (decide (j = i)) as [->|Hne].
      * rewrite lookup_insert. intros [= <-]. destruct pr. by eapply Hok.
      * rewrite lookup_insert_ne //. apply Hok.
    + apply (file_holds_same _ W); [done|done|done|]. by apply log_started_file.
Qed.

Lemma log_started_inv lim W : log_started lim W → log_started_ok W ∧ w_lim W = lim.
Proof.
  induction 1 as [mx s Hmx Hlim Hr|W i mx W' Hs [IH El] Hmx Hi Ho|W i F W' Hs [IH El] Hr|W i Hs [IH El]].
  - destruct (pool_create_spec mx lim s) as [Es Hh]; [done|lia|done|].
    assert (proc_ok (Proc 4096 mx 0)) as Hpr by (split; simpl; lia).
    destruct (leave_ok (λ m, ⌜m = 4096⌝ ∗ raw 8 4096)%I (empty_world lim) 0 (Proc 4096 mx 0) 4096 1 s) as [Hf (El & Hok & _)].
    { intros i p. simpl. by rewrite lookup_empty. }
    { done. }
    { eapply holds_mono; [|exact Hh]. simpl. iIntros "[$ $]". done. }
    split; [|exact El].
    set (W := leave (empty_world lim) 0 s) in *.
    assert (w_size W = 4096) as Esz.
    { exact (proj1 (file_holds_pure_m (λ m, m = 4096) _ _ Hf)). }
    apply log_started_intro; [done|by rewrite El|by rewrite Esz|].
    assert (w_word W 8 = 0) as Hzero.
    { assert (w_read W 8 8 = replicate 8 0) as E; [|unfold w_word; by rewrite E].
      apply list_eq_same_length with 8%nat; [by rewrite replicate_length|by rewrite w_read_length|].
      intros j x y Hj Hx Hy. rewrite w_read_lookup // in Hx. apply lookup_replicate in Hy as [-> _].
      unfold W, leave in Hx. simpl in Hx. rewrite Es in Hx. cbn [mem] in Hx.
      rewrite write_bytes_lookup in Hx.
      rewrite decide_False in Hx.
      2:{ rewrite le_bytes_length. lia. }
      rewrite lookup_empty in Hx. simpl in Hx. congruence. }
    assert (file_holds (λ m, raw sa_initialized (sa_initialized + 8) ∗ ⌜m = 4096⌝ ∗ raw sa_base (sa_base + 8) ∗
       raw sa_bytes_alloc (sa_bytes_alloc + 8) ∗ raw sa_bytes_comm (sa_bytes_comm + 8) ∗ raw 304 4096)%I W) as H2.
    { eapply file_holds_mono; [|exact Hf]. intros m. iIntros "(-> & H)".
      unfold sa_initialized, sa_base, sa_bytes_alloc, sa_bytes_comm.
      iDestruct (raw_split _ 16 with "H") as "[$ H]"; [lia|].
      iDestruct (raw_split _ 280 with "H") as "[_ H]"; [lia|].
      iDestruct (raw_split _ 288 with "H") as "[$ H]"; [lia|].
      iDestruct (raw_split _ 296 with "H") as "[$ H]"; [lia|].
      iDestruct (raw_split _ 304 with "H") as "[$ H]"; [lia|]. by iFrame. }
    apply (file_holds_raw_words _ _ _ 0) in H2; [|done].
    eapply file_holds_mono; [|exact H2]. intros m. iIntros "(? & ? & ? & ? & ? & ?)". iLeft. iFrame.
  - pose proof (log_started_file _ IH) as Hf. pose proof (file_holds_facts _ _ Hf) as ([Hsz _] & Hfs & _).
    destruct IH as (Hok & Hlim & Hsz' & _).
    unfold open_by, pool_open, get_fsize in Ho. rewrite run_bind in Ho. cbn [run exec fsize] in Ho.
    rewrite (bool_decide_eq_false_2 (w_fsize W = 0)) in Ho; [|lia]. unfold remap in Ho. cbn [run exec] in Ho.
    injection Ho as <-. split; [|done]. apply log_started_intro; [|done|done|by apply (file_holds_same _ W)].
    intros j q. simpl. destruct (decide (j = i)) as [->|Hne].
    + rewrite lookup_insert. intros [= <-]. split; simpl; lia.
    + rewrite lookup_insert_ne //. apply Hok.
  - destruct (w_procs W !! i) as [pr|] eqn:Hi; [|unfold run_by in Hr; by rewrite Hi in Hr].
    destruct (log_started_construct W i pr F IH Hi) as (W1 & HW1 & Hok & El' & _). split; [|congruence].
    rewrite Hr in HW1. by injection HW1 as <-.
  - pose proof (log_started_file _ IH) as Hf. destruct IH as (Hok & Hlim & Hsz' & _). split; [|done].
    apply log_started_intro; [|done|done|].
    + intros j q. simpl. rewrite lookup_delete_Some. intros [_ Hj]. by eapply Hok.
    + by apply (file_holds_same _ W).
Qed.
Lemma log_started_LInv lim W : log_started lim W → initialized W → LInv (LSt W false true ∅ 0).
Proof.
  intros Hs Hi. apply log_started_inv in Hs as [(Hok & Hlim & Hsz & [[H _]|[_ H]]) _]; [done|].
  apply file_holds_exist in H as [fl H]. split; [done|]. split; [done|]. split; [done|]. split; [done|].
  exists la_new, fl. split; [done|]. split; [intros _; apply la_new_merged|]. eapply file_holds_mono; [|exact H].
  intros m. cbn [l_base]. iIntros "$". by rewrite /raws.
Qed.
Lemma log_construct lim W F i :
  log_started lim W → is_Some (w_procs W !! i) →
  ∃ W', run_by W i (la_construct false F) = WDone tt W' ∧ log_started lim W' ∧ initialized W'.
Proof.
  intros Hs [pr Hi]. destruct (log_started_inv _ _ Hs) as [Hok _].
  destruct (log_started_construct W i pr F Hok Hi) as (W' & H & _ & _ & Hn).
  exists W'. split; [done|]. split; [|done]. by eapply ls_constructed.
Qed.

Section main.
  Context (lim : Z) (W : world) (F : nat) (evs : list levent).
  Context (Hs : log_started lim W) (Hi : initialized W) (HF : 2 ^ 28 <= Z.of_nat F).
  Set Default Proof Using "All".
  Lemma log_game : lgame F LInv lct_all evs (LSt W false true ∅ 0).
  Proof. apply lgame_inv; [done|]. by eapply log_started_LInv. Qed.
  Ltac g := eapply lgame_mono; [| |exact log_game];
    [intros st HI|intros st ob st' (?&?&?&?&?)]; try done.
  Lemma log_C08 : lgame F log_inside log_fresh evs (LSt W false true ∅ 0).
  Proof. g. by apply LInv_inside. Qed.
  Lemma log_C09 : lgame F (fun st => log_sizes st /\ log_base st) log_contents evs (LSt W false true ∅ 0).
  Proof. g. split; [by apply LInv_sizes|by apply LInv_base]. Qed.
  Lemma log_C10 : lgame F log_accounting (fun _ _ _ => True) evs (LSt W false true ∅ 0).
  Proof. g. by apply LInv_accounting. Qed.
  Lemma log_C11 : lgame F log_partition (fun _ _ _ => True) evs (LSt W false true ∅ 0).
  Proof. g. by apply LInv_partition. Qed.
  Lemma log_C12 : lgame F log_free_ignored log_double_free_ignored evs (LSt W false true ∅ 0).
  Proof. g. by apply LInv_free_ignored. Qed.
  Lemma log_C52 : lgame F (fun _ => True) log_growth evs (LSt W false true ∅ 0).
  Proof. g. Qed.
  Lemma log_C51 : lgame F (fun st => log_inside st /\ log_sizes st /\ log_accounting st /\ log_partition st) log_contents evs (LSt W false true ∅ 0).
  Proof. g. split; [by apply LInv_inside|]. split; [by apply LInv_sizes|]. split; [by apply LInv_accounting|by apply LInv_partition]. Qed.
  Lemma log_C58 : lgame F (log_verifies F) (fun _ _ _ => True) evs (LSt W false true ∅ 0).
  Proof. g. by apply LInv_verifies. Qed.
  Lemma log_C14 : lgame F (fun _ => True) log_failed_is_noop evs (LSt W false true ∅ 0).
  Proof. g. Qed.
End main.

(** ** A failing allocate changes nothing, whatever the state and the size *)
Lemma log_failed_noop W i n e W' :
  run_by W i (la_allocate n) = WExn e W' → w_mem W' = w_mem W ∧ w_fsize W' = w_fsize W ∧ w_lim W' = w_lim W.
Proof.
  unfold run_by. destruct (w_procs W !! i) as [pr|]; [|done].
  destruct (run (la_allocate n) (view W pr)) as [v s|x s| |] eqn:E; try done.
  intros [= <- <-]. by rewrite (quiet_la_allocate n _ _ _ E).
Qed.

(** ** A concrete pool *)
Definition ex_log : world := the_world (run_by ex_opened 1 (la_construct false 0)).
Lemma ex_log_started : log_started ex_lim ex_log.
Proof.
  assert (log_started ex_lim ex_created) as H1.
  { assert (run pool_create (no_pool 0 ex_lim) = Done tt (the_state (run pool_create (no_pool 0 ex_lim)))) as E
      by (vm_compute; reflexivity).
    assert (ex_lim <= 2 ^ 56) as Hlim by (vm_compute; discriminate).
    exact (ls_created _ 0 _ (Z.le_refl 0) Hlim E). }
  assert (log_started ex_lim ex_opened) as H2.
  { assert (open_by ex_created 1 0 = WDone tt (the_world (open_by ex_created 1 0))) as E1 by wd.
    assert (open_by (the_world (open_by ex_created 1 0)) 2 0 = WDone tt ex_opened) as E2 by wd.
    assert (w_procs ex_created !! 1%nat = None) as E3 by (vm_compute; reflexivity).
    assert (w_procs (the_world (open_by ex_created 1 0)) !! 2%nat = None) as E4 by (vm_compute; reflexivity).
    pose proof (ls_opened _ _ 1%nat 0 _ H1 (Z.le_refl 0) E3 E1) as H2.
    exact (ls_opened _ _ 2%nat 0 _ H2 (Z.le_refl 0) E4 E2). }
  assert (run_by ex_opened 1 (la_construct false 0) = WDone tt ex_log) as Hr by wd.
  exact (ls_constructed _ _ _ _ _ H2 Hr).
Qed.
Lemma ex_log_ok : log_started ex_lim ex_log ∧ initialized ex_log ∧
  is_Some (w_procs ex_log !! 1%nat) ∧ is_Some (w_procs ex_log !! 2%nat).
Proof. splits; [exact ex_log_started|vm_compute; congruence|vm_compute; eauto|vm_compute; eauto]. Qed.

Definition lal (W : world) (i : nat) (n : Z) := run_by W i (under_lock false (la_repair 0) (la_allocate n)).
Definition lfr (W : world) (i : nat) (o : Z) := run_by W i (under_lock false (la_repair 0) (la_free o)).
Definition lst (W : world) (i : nat) (a : Z) (bs : list Z) := run_by W i (under_lock false (la_repair 0) (store_bytes a bs)).

Definition ex_l1 := the_world (lal ex_log 1 100).
Definition ex_l2 := the_world (lal ex_l1 2 4000).
Definition ex_l3 := the_world (lst ex_l2 2 1288 [1; 2; 3]).
Definition ex_l4 := the_world (run_by ex_l3 2 (under_lock false (la_repair 0) (Ret tt))).
Definition ex_l5 := the_world (run_by ex_l4 1 (under_lock true (la_repair 100) (la_free 4104))).
Lemma ex_log_history :
  ∃ W1 W2 W3 W4 W5 W6,
    lal ex_log 1 100 = WDone 1288 W1 ∧
    lal W1 2 4000 = WDone 4104 W2 ∧
    w_size W1 = 4096 ∧ w_size W2 = 8192 ∧
    lst W2 2 1288 [1; 2; 3] = WDone tt W3 ∧
    run_by W3 2 (under_lock false (la_repair 0) (Ret tt)) = WDone tt W4 ∧
    run_by W4 1 (under_lock true (la_repair 100) (la_free 4104)) = WDone tt W5 ∧
    w_read W5 1288 3 = [1; 2; 3] ∧
    run_by W5 1 la_bytes_free = WDone (8192 - 1168 - 128) W6.
Proof.
  exists ex_l1, ex_l2, ex_l3, ex_l4, ex_l5, (the_world (run_by ex_l5 1 la_bytes_free)).
  splits; [wd|wd|vm_compute; reflexivity|vm_compute; reflexivity|wd|wd|wd|vm_compute; reflexivity|wd].
Qed.

(** allocate(0), then allocate(8) *)
Definition ex_z1 := the_world (lal ex_log 1 0).
Lemma ex_log_zero :
  ∃ W1 W2 o, lal ex_log 1 0 = WDone o W1 ∧ lal W1 1 8 = WDone o W2.
Proof. exists ex_z1, (the_world (lal ex_z1 1 8)), 1176. splits; [wd|wd]. Qed.

(** Two blocks of a page; the second one is freed and allocate(8000) reuses its page. *)
Definition ex_b1 := the_world (lal ex_log 1 4000).
Definition ex_b2 := the_world (lal ex_b1 1 4000).
Definition ex_b3 := the_world (lst ex_b2 1 4104 [1; 2; 3; 4]).
Definition ex_b4 := the_world (lst ex_b3 1 (8200 + 2048) (le_bytes 8 4104)).
Definition ex_b5 := the_world (lfr ex_b4 1 8200).
Lemma ex_log_large :
  ∃ W1 W2 W3 W4 W5 W6,
    lal ex_log 1 4000 = WDone 4104 W1 ∧
    lal W1 1 4000 = WDone 8200 W2 ∧
    lst W2 1 4104 [1; 2; 3; 4] = WDone tt W3 ∧
    lst W3 1 (8200 + 2048) (le_bytes 8 4104) = WDone tt W4 ∧
    lfr W4 1 8200 = WDone tt W5 ∧ w_read W5 4104 4 = [1; 2; 3; 4] ∧
    lal W5 1 8000 = WDone 8200 W6 ∧ w_read W6 4104 4 = [0; 0; 0; 0].
Proof.
  exists ex_b1, ex_b2, ex_b3, ex_b4, ex_b5, (the_world (lal ex_b5 1 8000)).
  splits; [wd|wd|wd|wd|wd|vm_compute; reflexivity|wd|vm_compute; reflexivity].
Qed.

(** A death in the middle of allocate. *)
Definition ex_c1 := the_world (lal ex_log 1 200).
Definition ex_c2 := the_world (lal ex_c1 1 400).
Definition ex_c3 := the_world (lst ex_c2 1 (1288 + 120) (le_bytes 8 (12 * 2 ^ 57))).
Definition ex_c4 := the_world (lfr ex_c3 1 1288).
Definition ex_c5 := die_at ex_c4 2 15 (under_lock false (la_repair 0) (la_allocate 100)).
Lemma ex_log_crash :
  ∃ W1 W2 W3 W4 W5 W6,
    lal ex_log 1 200 = WDone 1288 W1 ∧
    lal W1 1 400 = WDone 1544 W2 ∧
    lst W2 1 (1288 + 120) (le_bytes 8 (12 * 2 ^ 57)) = WDone tt W3 ∧
    lfr W3 1 1288 = WDone tt W4 ∧
    dies_in W4 2 (under_lock false (la_repair 0) (la_allocate 100)) W5 ∧
    run_by W5 1 (under_lock true (la_repair 1000) (la_allocate 2000)) = WDone 1416 W6.
Proof.
  exists ex_c1, ex_c2, ex_c3, ex_c4, ex_c5,
    (the_world (run_by ex_c5 1 (under_lock true (la_repair 1000) (la_allocate 2000)))).
  splits; [wd|wd|wd|wd| |wd]. unfold ex_c5. refine (die_at_ok ex_c4 2 15 _ _). vm_compute; eauto.
Qed.

(** A death in the middle of free, during the merging; the next process repairs. *)
Definition ex_f1 := the_world (lal ex_log 1 100).
Definition ex_f2 := die_at ex_f1 2 22 (under_lock false (la_repair 0) (la_free 1288)).
Definition ex_f3 := the_world (run_by ex_f2 1 (under_lock true (la_repair 100) (Ret tt))).
Lemma ex_log_crash_free :
  ∃ W1 W2 W3 W4,
    lal ex_log 1 100 = WDone 1288 W1 ∧
    dies_in W1 2 (under_lock false (la_repair 0) (la_free 1288)) W2 ∧
    run_by W2 1 (under_lock true (la_repair 100) (Ret tt)) = WDone tt W3 ∧
    run_by W3 1 la_bytes_free = WDone (4096 - 1168) W4 ∧
    free_list W3 7 [1280; 1408].
Proof.
  exists ex_f1, ex_f2, ex_f3, (the_world (run_by ex_f3 1 la_bytes_free)).
  splits; [wd| |wd|wd|].
  - unfold ex_f2. refine (die_at_ok ex_f1 2 22 _ _). vm_compute; eauto.
  - split; [vm_compute; reflexivity|]. split; [vm_compute; reflexivity|].
    intros [|[|j]] o Hj; [| |vm_compute in Hj; discriminate Hj]; vm_compute in Hj; injection Hj as <-; split; vm_compute; reflexivity.
Qed.

(** verify of good pools, and of a pool with a wrong counter. *)
Definition ex_v2 := the_world (run_by ex_l1 2 (under_lock false (la_repair 0) (la_verify 100))).
Definition ex_v3 := the_world (run_by ex_v2 1 (store64 288 101)).
Lemma ex_log_verify :
  ∃ W1 W2 W3 W4, lal ex_log 1 100 = WDone 1288 W1 ∧
    run_by W1 2 (under_lock false (la_repair 0) (la_verify 100)) = WDone tt W2 ∧
    run_by W2 1 (store64 288 101) = WDone tt W3 ∧
    run_by W3 1 (la_verify 100) = WExn RuntimeError W4.
Proof.
  exists ex_l1, ex_v2, ex_v3, (the_world (run_by ex_v3 1 (la_verify 100))). splits; [wd|wd|wd|].
  set (W4 := the_world _).
  assert (match run_by ex_v3 1 (la_verify 100) with WExn e _ => Some e | _ => None end = Some RuntimeError) as Hr by (vm_compute; reflexivity).
  unfold W4. revert Hr. destruct (run_by ex_v3 1 (la_verify 100)); intros Hr; try discriminate Hr. injection Hr as ->. reflexivity.
Qed.
(** The blocks of a new pool. *)
Definition ex_blocks : list (Z * Z * option Z) :=
  [(1168, 16, None); (1184, 32, None); (1216, 64, None); (1280, 256, None); (1536, 512, None); (2048, 2048, None)].
(** The free block at 1168 is taken out of its list. *)
Definition ex_lost := the_world (run_by ex_log 1 (store64 304 0 ;; store64 736 0)).
Lemma ex_log_lost :
  ∃ W1 W2, run_by ex_log 1 (store64 304 0 ;; store64 736 0) = WDone tt W1 ∧
    run_by W1 1 (la_verify 100) = WDone tt W2 ∧
    pool_blocks W1 ex_blocks ∧ free_list W1 4 [].
Proof.
  exists ex_lost, (the_world (run_by ex_lost 1 (la_verify 100))). splits; [wd|wd| |].
  - unfold pool_blocks, ex_blocks. cbn [blocks_from header_says].
    splits; vm_compute; first [reflexivity|discriminate].
  - refine (conj _ (conj _ _)); [vm_compute; reflexivity|vm_compute; reflexivity|]. intros j o Hj. vm_compute in Hj. destruct j; discriminate Hj.
Qed.
(** The last block is longer than what is left of the pool. *)
Definition ex_o1 := the_world (lal ex_log 1 2000).
Definition ex_o2 := the_world (run_by ex_o1 1 (store64 2048 (2 ^ 63 + 3000) ;; store64 288 3000 ;; store64 296 (1168 + 4096))).
Lemma ex_log_overlong :
  ∃ W1 W2 W3, lal ex_log 1 2000 = WDone 2056 W1 ∧
    run_by W1 1 (store64 2048 (2 ^ 63 + 3000) ;; store64 288 3000 ;; store64 296 (1168 + 4096)) = WDone tt W2 ∧
    run_by W2 1 (la_verify 100) = WDone tt W3 ∧ w_size W2 = 4096 ∧
    w_word W2 (2056 - 8) = 2 ^ 63 + 3000.
Proof.
  exists ex_o1, ex_o2, (the_world (run_by ex_o2 1 (la_verify 100))). splits; [wd|wd|wd|vm_compute; reflexivity|vm_compute; reflexivity].
Qed.
