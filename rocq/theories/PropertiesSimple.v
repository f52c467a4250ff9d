(** * Property theorems for SimpleAllocator: C01-C07, C45, C46.

    All are statements about every history [evs] of events by any number of
    processes (allocate, free, writes into live blocks, set_base_object_offset,
    opening the pool, dying while idle, dying after any number of effects of
    allocate or free), from every pool that was created and initialized in any way
    ([started], [initialized]), played by [game] (SimpleSpec.v).  [F] bounds the
    length of the block list the loops may follow; any [F] that is at least the
    number of events will do. *)
From Verif Require Import World SimpleAllocModel SimpleSpec SimpleMain Creation.
Open Scope Z_scope.

(** C01 *)
Theorem C01_simple_blocks_disjoint_inside lim W d F evs :
  started lim W d -> initialized W -> (length evs <= F)%nat ->
  game inside_and_disjoint fresh_block F evs (St W d ∅ 0).
Proof. exact (simple_C01 lim W d F evs). Qed.

(** C02 *)
Theorem C02_simple_contents_kept lim W d F evs :
  started lim W d -> initialized W -> (length evs <= F)%nat ->
  game block_sizes_right contents_kept F evs (St W d ∅ 0).
Proof. exact (simple_C02 lim W d F evs). Qed.

(** C03 *)
Theorem C03_simple_accounting_exact lim W d F evs :
  started lim W d -> initialized W -> (length evs <= F)%nat ->
  game accounting_exact (fun _ _ _ => True) F evs (St W d ∅ 0).
Proof. exact (simple_C03 lim W d F evs). Qed.

(** C04 *)
Theorem C04_simple_best_fit lim W d F evs :
  started lim W d -> initialized W -> (length evs <= F)%nat ->
  game (fun _ => True) best_fit_placement F evs (St W d ∅ 0).
Proof. exact (simple_C04 lim W d F evs). Qed.

(** C05 *)
Theorem C05_simple_failed_allocation_noop lim W d F evs :
  started lim W d -> initialized W -> (length evs <= F)%nat ->
  game (fun _ => True) failed_alloc_is_noop F evs (St W d ∅ 0).
Proof. exact (simple_C05 lim W d F evs). Qed.

(** C06.  The histories of C01-C05 contain processes that die inside allocate and
    free; this theorem puts all the checks together, and adds the constructor: any
    process can construct the allocator in any started pool, and if it dies doing
    so the pool is still a started pool. *)
Theorem C06_simple_crash_repaired lim W d F evs :
  started lim W d -> initialized W -> (length evs <= F)%nat ->
  game (fun st => inside_and_disjoint st /\ block_sizes_right st /\ accounting_exact st /\
                  base_right st)
       (fun st ob st' => fresh_block st ob st' /\ contents_kept st ob st' /\
                  best_fit_placement st ob st' /\ failed_alloc_is_noop st ob st' /\
                  free_complete st ob st')
       F evs (St W d ∅ 0).
Proof. exact (simple_C06 lim W d F evs). Qed.

Theorem C06_simple_construct_any_time lim W d F i :
  started lim W d -> is_Some (w_procs W !! i) ->
  exists W', run_by W i (sa_construct d F) = WDone tt W' /\
    started lim W' (if decide (w_word W 8 = 0) then false else d) /\ initialized W'.
Proof. exact (simple_construct lim W d F i). Qed.

(** C48, what holds: the process that creates the pool and constructs the allocator dies at
    any point.  The file is still empty and the pool can be created anew; or the pool has one
    page of zeros, the case of [C48_creation_crash_refuted]; or every other process can
    open the pool and construct the allocator, after which all theorems above and below apply. *)
Theorem C48_creation_crash_partial mx lim F s :
  0 <= mx -> lim <= 2 ^ 62 ->
  crash_state (pool_create ;; sa_construct false F)%prog (no_pool mx lim) s ->
  (fsize s = 0 /\ mem s = ∅) \/
  (fsize s = 4096 /\ mem s = ∅) \/
  (started lim (die (empty_world lim) 0 s) true /\
   forall j mx' F', 0 <= mx' -> exists W1 W2,
     open_by (die (empty_world lim) 0 s) j mx' = WDone tt W1 /\
     run_by W1 j (sa_construct true F') = WDone tt W2 /\
     (exists d, started lim W2 d) /\ initialized W2).
Proof. exact (creation_crash_law mx lim F s). Qed.
(** All three cases occur: before the first effect, after ftruncate, and after the header
    has been written (the process holds the lock). *)
Definition ex_creator : prog unit := (pool_create ;; sa_construct false 10)%prog.
Example C48_cases :
  (forall k, crash_state ex_creator (no_pool 0 ex_lim) (after k ex_creator (no_pool 0 ex_lim))) /\
  fsize (after 0 ex_creator (no_pool 0 ex_lim)) = 0 /\
  fsize (after 2 ex_creator (no_pool 0 ex_lim)) = 4096 /\ mem (after 2 ex_creator (no_pool 0 ex_lim)) = ∅ /\
  fsize (after 12 ex_creator (no_pool 0 ex_lim)) = 4096 /\ bget (after 12 ex_creator (no_pool 0 ex_lim)) 1 = 16.
Proof. split; [intros k; apply crash_after|]. vm_compute. repeat split. Qed.

(** C07 *)
Theorem C07_simple_base_object lim W d F evs :
  started lim W d -> initialized W -> (length evs <= F)%nat ->
  game base_right (fun _ _ _ => True) F evs (St W d ∅ 0).
Proof. exact (simple_C07 lim W d F evs). Qed.

(** C45: what free gives back; and the exception is real. *)
Theorem C45_simple_free_gives_back_partial lim W d F evs :
  started lim W d -> initialized W -> (length evs <= F)%nat ->
  game (fun _ => True) free_complete F evs (St W d ∅ 0).
Proof. exact (simple_C45 lim W d F evs). Qed.

Theorem C45_simple_free_gives_back_refuted :
  exists lim W W1 W2 W3 W4 o1 o2,
    started lim W false /\ initialized W /\
    run_by W 0 (under_lock false (sa_repair 10) (sa_allocate 10 3712)) = WDone o1 W1 /\
    run_by W1 0 (under_lock false (sa_repair 10) (sa_allocate 10 10)) = WDone o2 W2 /\
    run_by W2 0 (under_lock false (sa_repair 10) (sa_free o2)) = WDone tt W3 /\
    run_by W3 0 sa_bytes_allocated = WDone (3712 + 10) W4.
Proof. exact simple_C45_refuted. Qed.

(** C46: a request near 2^64 "succeeds" although no such block fits in the pool. *)
Theorem C46_simple_huge_request_refuted :
  exists lim W W1 o,
    started lim W false /\ initialized W /\
    run_by W 0 (under_lock false (sa_repair 10) (sa_allocate 10 (2 ^ 64 - 1))) = WDone o W1 /\
    o + (2 ^ 64 - 1) > w_size W1.
Proof. exact simple_C46_refuted. Qed.

(** The hypotheses hold of a pool that one process creates, two more open, one
    of which dies inside the constructor; and of an initialized one. *)
Example C01_hypotheses_met : started ex_lim ex_world false /\ initialized ex_world /\
  is_Some (w_procs ex_world !! 0%nat) /\ is_Some (w_procs ex_world !! 1%nat).
Proof. exact ex_world_ok. Qed.
(** Every kind of event really happens in histories from there: the second
    process works after the first died in an allocation. *)
Example C01_history_not_trivial :
  exists W1 W2 W3 W4 W5,
    run_by ex_world 0 (under_lock false (sa_repair 9) (sa_allocate 9 100)) = WDone 344 W1 /\
    run_by W1 1 (under_lock false (sa_repair 9) (sa_allocate 9 9000)) = WDone 472 W2 /\
    w_size W1 = 4096 /\ w_size W2 = 12288 /\
    dies_in W2 0 (under_lock false (sa_repair 9) (sa_allocate 9 50)) W3 /\
    w_mem W3 <> w_mem W2 /\
    run_by W3 1 (under_lock true (sa_repair 9) (sa_free 344)) = WDone tt W4 /\
    run_by W4 1 sa_bytes_allocated = WDone 9050 W5.
Proof. exact ex_history. Qed.

Print Assumptions C01_simple_blocks_disjoint_inside.
Print Assumptions C02_simple_contents_kept.
Print Assumptions C03_simple_accounting_exact.
Print Assumptions C04_simple_best_fit.
Print Assumptions C05_simple_failed_allocation_noop.
Print Assumptions C06_simple_crash_repaired.
Print Assumptions C06_simple_construct_any_time.
Print Assumptions C07_simple_base_object.
Print Assumptions C48_creation_crash_partial.
Print Assumptions C45_simple_free_gives_back_partial.
Print Assumptions C45_simple_free_gives_back_refuted.
Print Assumptions C46_simple_huge_request_refuted.
