(** * Property theorems for LogarithmicAllocator: C08-C14, C51, C52, C58.

    The theorems are about every history [evs] of events by any number of processes
    (allocate of 1 to 4088 bytes, free, writes into live blocks,
    set_base_object_offset, opening the pool, dying idle, and dying at any point of
    free, of a write, of set_base_object_offset and of the repair), from
    every pool that was created and initialized in any way ([log_started],
    [initialized]), played by [lgame] (LogSpec.v).  [F] bounds the number of blocks
    repair may visit; pools that are repaired have less than 2^32 bytes, so 2^28 is
    enough.

    Missing for the full statements: requests of 0 bytes and requests that do not fit
    into a page; the code serves them wrongly (C13).  And deaths in the middle of
    allocate; the code repairs them wrongly (C51). *)
From Verif Require Import LogSpec LogMain.
Open Scope Z_scope.
Open Scope prog_scope.

(** C08 *)
Theorem C08_log_blocks_disjoint_inside_partial lim W F evs :
  log_started lim W -> initialized W -> 2 ^ 28 <= Z.of_nat F ->
  lgame F log_inside log_fresh evs (LSt W false true ∅ 0).
Proof. exact (log_C08 lim W F evs). Qed.

(** C09 *)
Theorem C09_log_contents_kept_partial lim W F evs :
  log_started lim W -> initialized W -> 2 ^ 28 <= Z.of_nat F ->
  lgame F (fun st => log_sizes st /\ log_base st) log_contents evs (LSt W false true ∅ 0).
Proof. exact (log_C09 lim W F evs). Qed.

(** C10 *)
Theorem C10_log_accounting_exact_partial lim W F evs :
  log_started lim W -> initialized W -> 2 ^ 28 <= Z.of_nat F ->
  lgame F log_accounting (fun _ _ _ => True) evs (LSt W false true ∅ 0).
Proof. exact (log_C10 lim W F evs). Qed.

(** C11 *)
Theorem C11_log_partition_merged_partial lim W F evs :
  log_started lim W -> initialized W -> 2 ^ 28 <= Z.of_nat F ->
  lgame F log_partition (fun _ _ _ => True) evs (LSt W false true ∅ 0).
Proof. exact (log_C11 lim W F evs). Qed.

(** C12 *)
Theorem C12_log_double_free_ignored_partial lim W F evs :
  log_started lim W -> initialized W -> 2 ^ 28 <= Z.of_nat F ->
  lgame F log_free_ignored log_double_free_ignored evs (LSt W false true ∅ 0).
Proof. exact (log_C12 lim W F evs). Qed.

(** C13 is false of the code: in a new pool, allocate(0) and then allocate(8) return the
    same offset; and allocate(8000) can change the bytes of a live block. *)
Theorem C13_log_zero_size_refuted :
  exists lim W W1 W2 o,
    log_started lim W /\ initialized W /\
    run_by W 1 (under_lock false (la_repair 0) (la_allocate 0)) = WDone o W1 /\
    run_by W1 1 (under_lock false (la_repair 0) (la_allocate 8)) = WDone o W2.
Proof.
  destruct ex_log_zero as (W1 & W2 & o & H1 & H2). destruct ex_log_ok as (H3 & H4 & _).
  exact (ex_intro _ _ (ex_intro _ _ (ex_intro _ _ (ex_intro _ _ (ex_intro _ _
    (conj H3 (conj H4 (conj H1 H2)))))))).
Qed.
Theorem C13_log_large_size_refuted :
  exists lim W W1 W2 W3 W4 W5 W6 o1 o2 o3,
    log_started lim W /\ initialized W /\
    run_by W 1 (under_lock false (la_repair 0) (la_allocate 4000)) = WDone o1 W1 /\
    run_by W1 1 (under_lock false (la_repair 0) (la_allocate 4000)) = WDone o2 W2 /\
    run_by W2 1 (under_lock false (la_repair 0) (store_bytes o1 [1; 2; 3; 4])) = WDone tt W3 /\
    run_by W3 1 (under_lock false (la_repair 0) (store_bytes (o2 + 2048) (le_bytes 8 o1))) = WDone tt W4 /\
    run_by W4 1 (under_lock false (la_repair 0) (la_free o2)) = WDone tt W5 /\
    w_read W5 o1 4 = [1; 2; 3; 4] /\
    run_by W5 1 (under_lock false (la_repair 0) (la_allocate 8000)) = WDone o3 W6 /\
    w_read W6 o1 4 = [0; 0; 0; 0].
Proof.
  destruct ex_log_large as (W1 & W2 & W3 & W4 & W5 & W6 & H). destruct ex_log_ok as (H3 & H4 & _).
  exact (ex_intro _ _ (ex_intro _ _ (ex_intro _ _ (ex_intro _ _ (ex_intro _ _ (ex_intro _ _ (ex_intro _ _
    (ex_intro _ _ (ex_intro _ 4104 (ex_intro _ 8200 (ex_intro _ 8200 (conj H3 (conj H4 H))))))))))))).
Qed.

(** C14.  For every size and every state of the pool file, also damaged ones. *)
Theorem C14_log_failed_allocation_noop W i n e W' :
  run_by W i (la_allocate n) = WExn e W' ->
  w_mem W' = w_mem W /\ w_fsize W' = w_fsize W /\ w_lim W' = w_lim W.
Proof. exact (log_failed_noop W i n e W'). Qed.
(** Including the locking. *)
Theorem C14_log_failed_allocation_noop_locked lim W F evs :
  log_started lim W -> initialized W -> 2 ^ 28 <= Z.of_nat F ->
  lgame F (fun _ => True) log_failed_is_noop evs (LSt W false true ∅ 0).
Proof. exact (log_C14 lim W F evs). Qed.

(** C51 is false of the code: a process dies in the middle of allocate, and after the
    repair by the next process a new block (at 1416, of 2000 bytes) covers a live one
    (at 1544, of 400 bytes). *)
Theorem C51_log_crash_in_allocate_refuted :
  exists lim W W1 W2 W3 W4 W5 W6 o1 o2 o3,
    log_started lim W /\ initialized W /\
    run_by W 1 (under_lock false (la_repair 0) (la_allocate 200)) = WDone o1 W1 /\
    run_by W1 1 (under_lock false (la_repair 0) (la_allocate 400)) = WDone o2 W2 /\
    run_by W2 1 (under_lock false (la_repair 0) (store_bytes (o1 + 120) (le_bytes 8 (12 * 2 ^ 57)))) = WDone tt W3 /\
    run_by W3 1 (under_lock false (la_repair 0) (la_free o1)) = WDone tt W4 /\
    dies_in W4 2 (under_lock false (la_repair 0) (la_allocate 100)) W5 /\
    run_by W5 1 (under_lock true (la_repair 1000) (la_allocate 2000)) = WDone o3 W6 /\
    o3 < o2 /\ o2 + 400 < o3 + 2000.
Proof.
  destruct ex_log_crash as (W1 & W2 & W3 & W4 & W5 & W6 & H1 & H2 & H5 & H6 & H7 & H8). destruct ex_log_ok as (H3 & H4 & _).
  exact (ex_intro _ _ (ex_intro _ _ (ex_intro _ _ (ex_intro _ _ (ex_intro _ _ (ex_intro _ _ (ex_intro _ _
    (ex_intro _ _ (ex_intro _ 1288 (ex_intro _ 1544 (ex_intro _ 1416 (conj H3 (conj H4 (conj H1 (conj H2 (conj H5 (conj H6 (conj H7 (conj H8
      (conj eq_refl eq_refl)))))))))))))))))))).
Qed.

(** C48 and C51 are false of the code also for a death inside the constructor: whoever takes
    the lock over runs the repair, which walks over blocks that do not exist yet.  The
    creator of the pool dies before anything is written: the next process, constructing the
    allocator, fails an assertion or reads outside of its mapping ([UB]).  It dies after
    [initialized] is set (LogarithmicAllocator.cc:89): the same in the next allocate. *)
Lemma ex_opened_started : log_started ex_lim ex_opened.
Proof.
  assert (log_started ex_lim ex_created) as H1.
  { assert (run pool_create (no_pool 0 ex_lim) = Done tt (the_state (run pool_create (no_pool 0 ex_lim)))) as E
      by (vm_compute; reflexivity).
    assert (ex_lim <= 2 ^ 56) as Hlim by (vm_compute; discriminate).
    exact (ls_created _ 0 _ (Z.le_refl 0) Hlim E). }
  assert (open_by ex_created 1 0 = WDone tt (the_world (open_by ex_created 1 0))) as E1 by wd.
  assert (open_by (the_world (open_by ex_created 1 0)) 2 0 = WDone tt ex_opened) as E2 by wd.
  assert (w_procs ex_created !! 1%nat = None) as E3 by (vm_compute; reflexivity).
  assert (w_procs (the_world (open_by ex_created 1 0)) !! 2%nat = None) as E4 by (vm_compute; reflexivity).
  pose proof (ls_opened _ _ 1%nat 0 _ H1 (Z.le_refl 0) E3 E1) as H2.
  exact (ls_opened _ _ 2%nat 0 _ H2 (Z.le_refl 0) E4 E2).
Qed.
Definition ex_lc0 := die_at ex_opened 2 3 (la_construct false 0).
Definition ex_lc1 := die_at ex_opened 2 150 (la_construct false 0).
Definition ex_pr1 := Proc 4096 0 1.
Theorem C48_log_creation_crash_refuted : exists lim W Wc Wd pr,
  log_started lim W /\
  dies_in W 2 (la_construct false 0) Wc /\ ~ initialized Wc /\ w_procs Wc !! 1%nat = Some pr /\
  run (la_construct true 5000) (view Wc pr) = UB /\
  dies_in W 2 (la_construct false 0) Wd /\ initialized Wd /\ w_procs Wd !! 1%nat = Some pr /\
  run (under_lock true (la_repair 5000) (la_allocate 100)) (view Wd pr) = UB.
Proof.
  exists ex_lim, ex_opened, ex_lc0, ex_lc1, ex_pr1. splits.
  - exact ex_opened_started.
  - refine (die_at_ok ex_opened 2 3 _ _). vm_compute; eauto.
  - intros H. apply H. vm_compute. reflexivity.
  - vm_compute. reflexivity.
  - vm_compute. reflexivity.
  - refine (die_at_ok ex_opened 2 150 _ _). vm_compute; eauto.
  - unfold initialized. vm_compute. discriminate.
  - vm_compute. reflexivity.
  - vm_compute. reflexivity.
Qed.

(** C51, the part that holds: deaths at every point of free, write, set_base_object_offset
    and repair.  The blocks are disjoint and tile the pool at all times; when no repair is
    due, sizes, counters and free lists are right; the contents of live blocks are kept. *)
Theorem C51_log_survives_crashes_partial lim W F evs :
  log_started lim W -> initialized W -> 2 ^ 28 <= Z.of_nat F ->
  lgame F (fun st => log_inside st /\ log_sizes st /\ log_accounting st /\ log_partition st)
    log_contents evs (LSt W false true ∅ 0).
Proof. exact (log_C51 lim W F evs). Qed.
(** C11 is false of the code after a death in the middle of free: the blocks of 128 bytes
    at 1280 and 1408 are both free and stay apart after the repair, although they make
    one block of 256 bytes; all bytes are free. *)
Theorem C11_log_crash_leaves_buddies_refuted :
  exists lim W W1 W2 W3 W4,
    log_started lim W /\ initialized W /\
    run_by W 1 (under_lock false (la_repair 0) (la_allocate 100)) = WDone 1288 W1 /\
    dies_in W1 2 (under_lock false (la_repair 0) (la_free 1288)) W2 /\
    run_by W2 1 (under_lock true (la_repair 100) (Ret tt)) = WDone tt W3 /\
    run_by W3 1 la_bytes_free = WDone (4096 - 1168) W4 /\
    free_list W3 7 [1280; 1408].
Proof.
  destruct ex_log_crash_free as (W1 & W2 & W3 & W4 & H). destruct ex_log_ok as (H3 & H4 & _).
  exact (ex_intro _ _ (ex_intro _ _ (ex_intro _ _ (ex_intro _ _ (ex_intro _ _ (ex_intro _ _ (conj H3 (conj H4 H)))))))).
Qed.

(** C52 *)
Theorem C52_log_growth_partial lim W F evs :
  log_started lim W -> initialized W -> 2 ^ 28 <= Z.of_nat F ->
  lgame F (fun _ => True) log_growth evs (LSt W false true ∅ 0).
Proof. exact (log_C52 lim W F evs). Qed.

(** C58: verify() never throws in a pool that has been used through the API, whatever
    the history, and changes nothing unless there is something to repair. *)
Theorem C58_log_verify_accepts_partial lim W F evs :
  log_started lim W -> initialized W -> 2 ^ 28 <= Z.of_nat F ->
  lgame F (log_verifies F) (fun _ _ _ => True) evs (LSt W false true ∅ 0).
Proof. exact (log_C58 lim W F evs). Qed.
(** For every pool file, also damaged ones, of at most 2 GiB whose blocks tile the pool:
    when verify() does not throw, the two counters are right and the free lists are
    linked correctly. *)
Theorem C58_log_verify_sound W i F T W' :
  of_bytes W -> w_size W <= 2 ^ 31 -> pool_blocks W T ->
  run_by W i (la_verify F) = WDone tt W' ->
  w_word W 288 = sizes_of T /\ w_word W 296 = 1168 + lengths_of T /\
  (forall k, 4 <= k <= 56 -> exists l, free_list W k l).
Proof. exact (verify_sound W i F T W'). Qed.
(** verify() does not notice that a free block is in no list: the blocks of this pool are
    [ex_blocks], the block at 1168 is free and the list for its length is empty. *)
Theorem C58_log_verify_misses_lost_block_refuted :
  exists lim W W1 W2,
    log_started lim W /\ initialized W /\
    run_by W 1 (store64 304 0 ;; store64 736 0) = WDone tt W1 /\
    run_by W1 1 (la_verify 100) = WDone tt W2 /\
    pool_blocks W1 ((1168, 16, None) :: tail ex_blocks) /\ free_list W1 4 [].
Proof.
  destruct ex_log_lost as (W1 & W2 & H). destruct ex_log_ok as (H3 & H4 & _).
  exact (ex_intro _ _ (ex_intro _ _ (ex_intro _ _ (ex_intro _ _ (conj H3 (conj H4 H)))))).
Qed.
(** And it does not notice a block that ends after the end of the pool. *)
Theorem C58_log_verify_misses_overlong_block_refuted :
  exists lim W W1 W2 W3,
    log_started lim W /\ initialized W /\
    run_by W 1 (under_lock false (la_repair 0) (la_allocate 2000)) = WDone 2056 W1 /\
    run_by W1 1 (store64 2048 (2 ^ 63 + 3000) ;; store64 288 3000 ;; store64 296 (1168 + 4096)) = WDone tt W2 /\
    run_by W2 1 (la_verify 100) = WDone tt W3 /\ w_size W2 = 4096 /\
    w_word W2 (2056 - 8) = 2 ^ 63 + 3000.
Proof.
  destruct ex_log_overlong as (W1 & W2 & W3 & H). destruct ex_log_ok as (H3 & H4 & _).
  exact (ex_intro _ _ (ex_intro _ _ (ex_intro _ _ (ex_intro _ _ (ex_intro _ _ (conj H3 (conj H4 H))))))).
Qed.
(** It does notice a wrong counter. *)
Theorem C58_log_verify_not_trivial :
  exists lim W W1 W2 W3 W4,
    log_started lim W /\ initialized W /\
    run_by W 1 (under_lock false (la_repair 0) (la_allocate 100)) = WDone 1288 W1 /\
    run_by W1 2 (under_lock false (la_repair 0) (la_verify 100)) = WDone tt W2 /\
    run_by W2 1 (store64 288 101) = WDone tt W3 /\
    run_by W3 1 (la_verify 100) = WExn RuntimeError W4.
Proof.
  destruct ex_log_verify as (W1 & W2 & W3 & W4 & H). destruct ex_log_ok as (H3 & H4 & _).
  exact (ex_intro _ _ (ex_intro _ _ (ex_intro _ _ (ex_intro _ _ (ex_intro _ _ (ex_intro _ _ (conj H3 (conj H4 H)))))))).
Qed.

(** ** The hypotheses are met *)
(** Any process that has the pool open can construct the allocator. *)
Theorem C08_log_construct lim W F i :
  log_started lim W -> is_Some (w_procs W !! i) ->
  exists W', run_by W i (la_construct false F) = WDone tt W' /\ log_started lim W' /\ initialized W'.
Proof. exact (log_construct lim W F i). Qed.
(** A pool with three processes; two blocks are allocated, which makes the pool grow, a
    process dies with the lock, another one repairs and frees. *)
Theorem C08_log_history_not_trivial :
  exists lim W W1 W2 W3 W4 W5 W6,
    log_started lim W /\ initialized W /\
    run_by W 1 (under_lock false (la_repair 0) (la_allocate 100)) = WDone 1288 W1 /\
    run_by W1 2 (under_lock false (la_repair 0) (la_allocate 4000)) = WDone 4104 W2 /\
    w_size W1 = 4096 /\ w_size W2 = 8192 /\
    run_by W2 2 (under_lock false (la_repair 0) (store_bytes 1288 [1; 2; 3])) = WDone tt W3 /\
    run_by W3 2 (under_lock false (la_repair 0) (Ret tt)) = WDone tt W4 /\
    run_by W4 1 (under_lock true (la_repair 100) (la_free 4104)) = WDone tt W5 /\
    w_read W5 1288 3 = [1; 2; 3] /\
    run_by W5 1 la_bytes_free = WDone (8192 - 1168 - 128) W6.
Proof.
  destruct ex_log_history as (W1 & W2 & W3 & W4 & W5 & W6 & H). destruct ex_log_ok as (H3 & H4 & _).
  exact (ex_intro _ _ (ex_intro _ _ (ex_intro _ _ (ex_intro _ _ (ex_intro _ _ (ex_intro _ _ (ex_intro _ _
    (ex_intro _ _ (conj H3 (conj H4 H)))))))))).
Qed.
Print Assumptions C48_log_creation_crash_refuted.
