(** * SimpleAllocator: from the invariant to the properties, and examples. *)
From Verif Require Export SimpleSpec SimpleGame.
From iris.prelude Require Import prelude options.
Set Default Proof Using "All".
Open Scope Z_scope.

Section main.
  Context (lim : Z) (W : world) (d : bool) (F : nat) (evs : list event).
  Lemma started_Inv : started lim W d → initialized W → Inv (St W d ∅ 0).
  Proof.
    intros Hs Hi. apply started_inv in Hs as [Hok [[H _]|[_ H]]]; [done|].
    split; [done|]. exists []. split; [done|]. eapply file_holds_mono; [|exact H].
    intros m. simpl. iIntros "$". by rewrite /blks /=.
  Qed.
  Context (Hs : started lim W d) (Hi : initialized W) (HF : (length evs <= F)%nat).
  Lemma simple_game : game Inv ct_full F evs (St W d ∅ 0).
  Proof. apply game_inv; [by apply started_Inv|]. cbn [st_b]. rewrite map_size_empty. lia. Qed.
  Ltac g := eapply game_mono; [| |exact simple_game];
    [intros st HI|intros st ob st' ((?&?&?&?)&?)]; try done.
  Lemma simple_C01 : game inside_and_disjoint fresh_block F evs (St W d ∅ 0).
  Proof. g. by apply Inv_inside. Qed.
  Lemma simple_C02 : game block_sizes_right contents_kept F evs (St W d ∅ 0).
  Proof. g. by apply Inv_sizes. Qed.
  Lemma simple_C03 : game accounting_exact (fun _ _ _ => True) F evs (St W d ∅ 0).
  Proof. g. by apply Inv_accounting. Qed.
  Lemma simple_C04 : game (fun _ => True) best_fit_placement F evs (St W d ∅ 0).
  Proof. g. Qed.
  Lemma simple_C05 : game (fun _ => True) failed_alloc_is_noop F evs (St W d ∅ 0).
  Proof. g. Qed.
  Lemma simple_C06 :
    game (fun st => inside_and_disjoint st /\ block_sizes_right st /\ accounting_exact st /\
                  base_right st)
       (fun st ob st' => fresh_block st ob st' /\ contents_kept st ob st' /\
                  best_fit_placement st ob st' /\ failed_alloc_is_noop st ob st' /\
                  free_complete st ob st')
       F evs (St W d ∅ 0).
  Proof.
    g. split_and!; [by apply Inv_inside|by apply Inv_sizes|by apply Inv_accounting|by apply Inv_base].
  Qed.
  Lemma simple_C07 : game base_right (fun _ _ _ => True) F evs (St W d ∅ 0).
  Proof. g. by apply Inv_base. Qed.
  Lemma simple_C45 : game (fun _ => True) free_complete F evs (St W d ∅ 0).
  Proof. g. Qed.
End main.

Lemma simple_construct lim W d F i :
  started lim W d → is_Some (w_procs W !! i) →
  ∃ W', run_by W i (sa_construct d F) = WDone tt W' ∧
    started lim W' (if decide (w_word W 8 = 0) then false else d) ∧ initialized W'.
Proof.
  intros Hs [pr Hi]. destruct (started_construct W d i pr F (started_inv _ _ _ Hs) Hi) as [(W' & H & _ & Hn) _].
  exists W'. split_and!; [done| |done]. by eapply st_constructed.
Qed.

(** ** A concrete pool *)
Definition ex_lim : Z := 2 ^ 40.
Definition the_world {A} (r : wres A) : world :=
  match r with WDone _ W | WExn _ W => W | _ => empty_world 0 end.
Definition the_state {A} (r : outcome A) : pst :=
  match r with Done _ s | Exn _ s => s | _ => no_pool 0 0 end.
Definition ex_created : world :=
  leave (empty_world ex_lim) 0 (the_state (run pool_create (no_pool 0 ex_lim))).
Definition ex_opened : world := the_world (open_by (the_world (open_by ex_created 1 0)) 2 0).
(** The state in which a process dies after [k] effects of [p]. *)
Fixpoint after {A} (k : nat) (p : prog A) (s : pst) : pst :=
  match k, p with
  | S k', Op e c => match exec e s with Some (v, s1) => after k' (c v) s1 | None => s end
  | _, _ => s
  end.
Lemma crash_self {A} (p : prog A) s : crash_state p s s.
Proof. destruct p; by left. Qed.
Lemma crash_after {A} k (p : prog A) s : crash_state p s (after k p s).
Proof.
  revert p s. induction k as [|k IH]; intros p s; simpl; [apply crash_self|].
  destruct p as [a|e| | |e c]; try (by left).
  destruct (exec e s) as [[v s1]|] eqn:E; [|by left]. right. rewrite E. apply IH.
Qed.
Definition die_at {A} (W : world) (i : nat) (k : nat) (p : prog A) : world :=
  match w_procs W !! i with Some pr => die W i (after k p (view W pr)) | None => W end.
Lemma die_at_ok {A} W i k (p : prog A) : is_Some (w_procs W !! i) → dies_in W i p (die_at W i k p).
Proof.
  intros [pr Hi]. exists pr, (after k p (view W pr)). split; [done|]. split; [apply crash_after|].
  unfold die_at. by rewrite Hi.
Qed.
Definition ex_crashed : world := die_at ex_opened 2 6 (sa_construct false 0).
Definition ex_world : world := the_world (run_by ex_crashed 1 (sa_construct true 10)).

Lemma wdone_world {A} (r : wres A) a :
  match r with WDone b _ => Some b | _ => None end = Some a → r = WDone a (the_world r).
Proof. destruct r; simpl; congruence. Qed.
Ltac wd :=
  match goal with |- ?r = WDone ?a ?W =>
    let H := fresh in
    assert (match r with WDone b _ => Some b | _ => None end = Some a) as H by (vm_compute; reflexivity);
    first [unfold W; exact (wdone_world r a H)|exact (wdone_world r a H)]
  end.

Ltac splits := repeat match goal with |- _ ∧ _ => refine (conj _ _) end.
Lemma ex_world_started : started ex_lim ex_world false.
Proof.
  assert (started ex_lim ex_created false) as H1.
  { assert (run pool_create (no_pool 0 ex_lim) = Done tt (the_state (run pool_create (no_pool 0 ex_lim)))) as E
      by (vm_compute; reflexivity).
    assert (ex_lim <= 2 ^ 62) as Hlim by (vm_compute; discriminate).
    exact (st_created _ 0 _ (Z.le_refl 0) Hlim E). }
  assert (started ex_lim ex_opened false) as H2.
  { assert (open_by ex_created 1 0 = WDone tt (the_world (open_by ex_created 1 0))) as E1 by wd.
    assert (open_by (the_world (open_by ex_created 1 0)) 2 0 = WDone tt ex_opened) as E2 by wd.
    assert (w_procs ex_created !! 1%nat = None) as E3 by (vm_compute; reflexivity).
    assert (w_procs (the_world (open_by ex_created 1 0)) !! 2%nat = None) as E4 by (vm_compute; reflexivity).
    pose proof (st_opened _ _ _ 1%nat 0 _ H1 (Z.le_refl 0) E3 E1) as H2.
    exact (st_opened _ _ _ 2%nat 0 _ H2 (Z.le_refl 0) E4 E2). }
  assert (started ex_lim ex_crashed true) as H3.
  { assert (is_Some (w_procs ex_opened !! 2%nat)) as E by (vm_compute; eauto).
    exact (st_died_in_constructor _ _ _ _ _ _ H2 (die_at_ok ex_opened 2 6 (sa_construct false 0) E)). }
  assert (w_word ex_crashed 8 = 0) as Hw by (vm_compute; reflexivity).
  assert (run_by ex_crashed 1 (sa_construct true 10) = WDone tt ex_world) as Hr by wd.
  pose proof (st_constructed _ _ _ _ _ _ H3 Hr) as H4. revert H4.
  destruct (decide (w_word ex_crashed 8 = 0)) as [HH|HH]; [intros H4; exact H4|exfalso; exact (HH Hw)].
Qed.
Lemma ex_world_ok : started ex_lim ex_world false ∧ initialized ex_world ∧
  is_Some (w_procs ex_world !! 0%nat) ∧ is_Some (w_procs ex_world !! 1%nat).
Proof.
  splits; [exact ex_world_started|vm_compute; congruence|vm_compute; eauto|vm_compute; eauto].
Qed.

Definition ex_W1 := the_world (run_by ex_world 0 (under_lock false (sa_repair 9) (sa_allocate 9 100))).
Definition ex_W2 := the_world (run_by ex_W1 1 (under_lock false (sa_repair 9) (sa_allocate 9 9000))).
Definition ex_W3 := die_at ex_W2 0 19 (under_lock false (sa_repair 9) (sa_allocate 9 50)).
Definition ex_W4 := the_world (run_by ex_W3 1 (under_lock true (sa_repair 9) (sa_free 344))).
Lemma ex_history :
  ∃ W1 W2 W3 W4 W5,
    run_by ex_world 0 (under_lock false (sa_repair 9) (sa_allocate 9 100)) = WDone 344 W1 ∧
    run_by W1 1 (under_lock false (sa_repair 9) (sa_allocate 9 9000)) = WDone 472 W2 ∧
    w_size W1 = 4096 ∧ w_size W2 = 12288 ∧
    dies_in W2 0 (under_lock false (sa_repair 9) (sa_allocate 9 50)) W3 ∧
    w_mem W3 ≠ w_mem W2 ∧
    run_by W3 1 (under_lock true (sa_repair 9) (sa_free 344)) = WDone tt W4 ∧
    run_by W4 1 sa_bytes_allocated = WDone 9050 W5.
Proof.
  exists ex_W1, ex_W2, ex_W3, ex_W4, (the_world (run_by ex_W4 1 sa_bytes_allocated)).
  splits; [wd|wd|vm_compute; reflexivity|vm_compute; reflexivity| | |wd|wd].
  - unfold ex_W3. refine (die_at_ok ex_W2 0 19 _ _). vm_compute; eauto.
  - intros H. apply (f_equal (fun m => m !! 9488)) in H. vm_compute in H. discriminate H.
Qed.

Definition ex_V1 := the_world (run_by ex_world 0 (under_lock false (sa_repair 10) (sa_allocate 10 3712))).
Definition ex_V2 := the_world (run_by ex_V1 0 (under_lock false (sa_repair 10) (sa_allocate 10 10))).
Definition ex_V3 := the_world (run_by ex_V2 0 (under_lock false (sa_repair 10) (sa_free 4080))).
Lemma simple_C45_refuted :
  ∃ lim W W1 W2 W3 W4 o1 o2,
    started lim W false ∧ initialized W ∧
    run_by W 0 (under_lock false (sa_repair 10) (sa_allocate 10 3712)) = WDone o1 W1 ∧
    run_by W1 0 (under_lock false (sa_repair 10) (sa_allocate 10 10)) = WDone o2 W2 ∧
    run_by W2 0 (under_lock false (sa_repair 10) (sa_free o2)) = WDone tt W3 ∧
    run_by W3 0 sa_bytes_allocated = WDone (3712 + 10) W4.
Proof.
  exists ex_lim, ex_world, ex_V1, ex_V2, ex_V3, (the_world (run_by ex_V3 0 sa_bytes_allocated)), 344, 4080.
  destruct ex_world_ok as (H1 & H2 & _). splits; [exact H1|exact H2|wd|wd|wd|wd].
Qed.
Definition ex_U1 := the_world (run_by ex_world 0 (under_lock false (sa_repair 10) (sa_allocate 10 (2 ^ 64 - 1)))).
Lemma simple_C46_refuted :
  ∃ lim W W1 o,
    started lim W false ∧ initialized W ∧
    run_by W 0 (under_lock false (sa_repair 10) (sa_allocate 10 (2 ^ 64 - 1))) = WDone o W1 ∧
    o + (2 ^ 64 - 1) > w_size W1.
Proof.
  exists ex_lim, ex_world, ex_U1, 344. destruct ex_world_ok as (? & ? & _).
  splits; [done|done|wd|vm_compute; reflexivity].
Qed.
