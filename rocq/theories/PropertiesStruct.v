(** * Property theorems for the data structures: C17-C19, C21, C22, C43, C44, C63.

    All are statements about every history [evs] of events over one pool, by any
    number of processes and over any number of objects, played by [sgame]
    (StructSpec.v), from every pool that was created and initialized in any way.
    [F] bounds the loops that follow lists; a pool has fewer than 2^62 bytes. *)
From Verif Require Import SimpleSpec StructSpec SimpleMain StructMain StructStart CrashSpec CrashGame QueueDrainSpec QueueDrainPop BaseSpec BaseProof.
Open Scope Z_scope.

Section simple.
  Context (hash : HashFn) (lim : Z) (W : world) (F : nat) (evs : list gevent).
  Context (Hs : started lim W false) (Hi : initialized W) (HF : 2 ^ 62 <= Z.of_nat F).

  (** C17 *)
  Theorem C17_queue_is_a_deque :
    sgame (simple_allocator F) simple_limits F (fun _ => True) deque_results evs (GS W ∅ 0 true).
  Proof. exact (main_deque _ _ (simple_limits_ok F HF) F HF W evs (started_GInv _ _ _ _ Hs Hi)). Qed.
  (** C18 *)
  Theorem C18_queue_size_and_bytes :
    sgame (simple_allocator F) simple_limits F (fun _ => True) queue_counts evs (GS W ∅ 0 true).
  Proof. exact (main_counts _ _ (simple_limits_ok F HF) F HF W evs (started_GInv _ _ _ _ Hs Hi)). Qed.
  (** C19 *)
  Theorem C19_queue_owns_exactly_its_blocks :
    sgame (simple_allocator F) simple_limits F (no_leak (simple_allocator F)) (fun _ _ _ => True) evs (GS W ∅ 0 true).
  Proof. exact (main_no_leak _ _ (simple_limits_ok F HF) F HF W evs (started_GInv _ _ _ _ Hs Hi)). Qed.
  (** C21 *)
  Theorem C21_priority_queue_pops_least :
    sgame (simple_allocator F) simple_limits F (fun _ => True) prio_pops_least evs (GS W ∅ 0 true).
  Proof. exact (main_least _ _ (simple_limits_ok F HF) F HF W evs (started_GInv _ _ _ _ Hs Hi)). Qed.
  (** C22 *)
  Theorem C22_priority_queue_multiset :
    sgame (simple_allocator F) simple_limits F (fun _ => True) prio_multiset evs (GS W ∅ 0 true).
  Proof. exact (main_multiset _ _ (simple_limits_ok F HF) F HF W evs (started_GInv _ _ _ _ Hs Hi)). Qed.
  (** C43 and C44: every operation on every object has its ideal result, whatever
      the other objects and processes do in between, and whoever opens the base
      object gets the one that was set. *)
  Theorem C43_structures_do_not_interfere :
    sgame (simple_allocator F) simple_limits F
      (fun st => blobs_intact st /\ base_kept (simple_allocator F) st)
      (fun st ob st' => ideal_results st ob st' /\ grows_within st ob st') evs (GS W ∅ 0 true).
  Proof. exact (main_ideal _ _ (simple_limits_ok F HF) F HF W evs (started_GInv _ _ _ _ Hs Hi)). Qed.
  (** C63: opening the base object while others do, too (BaseSpec.v). *)
  Theorem C63_openers_agree :
    sgame (simple_allocator F) simple_limits F (openers_agree (simple_allocator F) simple_limits F)
      (fun _ _ _ => True) evs (GS W ∅ 0 true).
  Proof. exact (main_openers _ _ (simple_limits_ok F HF) F HF W evs (started_GInv _ _ _ _ Hs Hi)). Qed.
End simple.

#[local] Existing Instance fnv1a64.
(** C20 is false of the code: a process dies inside push_back on an empty queue; a
    process that then takes over the lock and runs the repair finds the item from
    the front, but not from the back, and size() is 0. *)
Theorem C20_queue_crash_refuted : exists W W1 Wc Wa Wb Wd o,
  started ex_lim W false /\ initialized W /\
  run_by W 0 (sa_lock ;; create_prog ex_al KQueue)%prog = WDone o W1 /\
  dies_in W1 0 (sa_lock ;; q_push ex_al o false [5; 6])%prog Wc /\
  run_by Wc 1 (under_lock true (sa_repair 10) (q_pop ex_al o true)) = WDone [5; 6] Wa /\
  run_by Wc 1 (under_lock true (sa_repair 10) (q_pop ex_al o false)) = WExn OutOfRange Wb /\
  run_by Wc 1 (under_lock true (sa_repair 10) (q_size o)) = WDone 0 Wd.
Proof. exact ex_queue_crash. Qed.

(** What holds of C20.  In every history, with any number of crashes before: if a process
    dies at any point of push_front, push_back, pop_front or pop_back, the queue can be
    emptied from one end ([can_empty_from]), by any living processes, the first of which
    takes the lock over: pop() returns exactly the items from before the operation, or
    exactly those from after it, each once and in order, and then raises OutOfRange. *)
Theorem C20_queue_crash_drains_partial (hash : HashFn) lim W F evs :
  started lim W false -> initialized W -> 2 ^ 62 <= Z.of_nat F ->
  cgame F (fun st ob st' => queues_drain F st /\ queues_drain F st') evs (CS (GS W ∅ 0 true) false).
Proof.
  intros Hs Hi HF. pose proof (started_GInv _ _ F HF Hs Hi) as HG.
  apply (cgame_inv F HF); [|exact HG]. intros st ob st' H1 _ H3.
  split; [exact (queues_drain_ok F HF st H1)|exact (queues_drain_ok F HF st' H3)].
Qed.
(** From the other end it cannot.  A process dies in pop_front between the two writes that
    unlink the first of two items (Queue.cc:77-78); the next processes pop the second item
    twice: its node is freed, and used again. *)
Definition ex_q1 := the_world (ex_do ex_S1 0 (op_prog ex_al 10 344 (QPush false [1]))).
Definition ex_q2 := the_world (ex_do ex_q1 0 (op_prog ex_al 10 344 (QPush false [2]))).
Definition ex_qc := die_at ex_q2 0 9 (sa_lock ;; op_prog ex_al 10 344 (QPop true))%prog.
Definition ex_qa := the_world (run_by ex_qc 1 (under_lock true (sa_repair 10) (q_pop ex_al 344 true))).
Definition ex_qb := the_world (run_by ex_qa 1 (sa_lock ;; q_pop ex_al 344 true)%prog).
Definition ex_qd := the_world (run_by ex_qc 1 (under_lock true (sa_repair 10) (q_pop ex_al 344 false))).
Definition ex_qe := the_world (run_by ex_qd 1 (sa_lock ;; q_pop ex_al 344 false)%prog).
Theorem C20_queue_crash_pops_twice_refuted : exists W W0 W1 W2 Wc Wa Wb,
  started ex_lim W false /\ initialized W /\
  ex_do W 0 (create_prog ex_al KQueue) = WDone 344 W0 /\
  ex_do W0 0 (op_prog ex_al 10 344 (QPush false [1])) = WDone RUnit W1 /\
  ex_do W1 0 (op_prog ex_al 10 344 (QPush false [2])) = WDone RUnit W2 /\
  dies_in W2 0 (sa_lock ;; op_prog ex_al 10 344 (QPop true))%prog Wc /\
  run_by Wc 1 (under_lock true (sa_repair 10) (q_pop ex_al 344 true)) = WDone [2] Wa /\
  run_by Wa 1 (sa_lock ;; q_pop ex_al 344 true)%prog = WDone [2] Wb.
Proof.
  destruct ex_world_ok as (H1 & H2 & _).
  exists ex_world, ex_S1, ex_q1, ex_q2, ex_qc, ex_qa, ex_qb. splits; [exact H1|exact H2|wd|wd|wd| |wd|wd].
  refine (die_at_ok _ _ _ _ _). vm_compute; eauto.
Qed.
(** In the same state, from the end that [can_empty_from] names. *)
Example C20_drain_not_trivial : exists Wd We,
  can_empty_from (QPop true) false /\
  dies_in ex_q2 0 (sa_lock ;; op_prog ex_al 10 344 (QPop true))%prog ex_qc /\
  run_by ex_qc 1 (under_lock true (sa_repair 10) (q_pop ex_al 344 false)) = WDone [2] Wd /\
  run_by Wd 1 (sa_lock ;; q_pop ex_al 344 false)%prog = WDone [1] We.
Proof.
  exists ex_qd, ex_qe. splits; [exact eq_refl| |wd|wd].
  refine (die_at_ok _ _ _ _ _). vm_compute; eauto.
Qed.

(** The hypotheses are met, and a concrete history. *)
Example C17_hypotheses_met : started ex_lim ex_world false /\ initialized ex_world /\
  2 ^ 62 <= Z.of_nat (Z.to_nat (2 ^ 62)).
Proof. destruct ex_world_ok as (H1 & H2 & _). refine (conj H1 (conj H2 _)). rewrite Z2Nat.id; [apply Z.le_refl|]. discriminate. Qed.
Example C17_history_not_trivial : exists W1 W2 W3 W4 W5 W6 W7 W8,
  ex_do ex_world 0 (create_prog ex_al KQueue) = WDone 344 W1 /\
  ex_do W1 1 (create_prog ex_al KPrio) = WDone 416 W2 /\
  ex_do W2 1 (op_prog ex_al 10 344 (QPush false [1; 2; 3])) = WDone RUnit W3 /\
  ex_do W3 0 (op_prog ex_al 10 416 (PPush [7; 7])) = WDone RUnit W4 /\
  ex_do W4 0 (op_prog ex_al 10 416 (PPush [7])) = WDone RUnit W5 /\
  ex_do W5 1 (op_prog ex_al 10 344 (QPush true (repeat 9 5000))) = WDone RUnit W6 /\
  w_size W5 = 4096 /\ w_size W6 = 8192 /\
  ex_do W6 0 (op_prog ex_al 10 344 (QPop false)) = WDone (RBytes [1; 2; 3]) W7 /\
  ex_do W6 0 (op_prog ex_al 10 416 PPop) = WDone (RBytes [7]) W8.
Proof. exact ex_struct_history. Qed.

(** C63: two processes find no base object; then the second creates one, the first gets it,
    and both find it from then on. *)
Definition ex_b1 := the_world (ex_do ex_world 0 (al_get_base ex_al)).
Definition ex_b2 := the_world (ex_do ex_b1 1 (al_get_base ex_al)).
Definition ex_b3 := the_world (ex_do ex_b2 1 (q_open_base ex_al)).
Definition ex_b4 := the_world (ex_do ex_b3 0 (q_open_base ex_al)).
Definition ex_b5 := the_world (ex_do ex_b4 0 (op_prog ex_al 10 344 (QPush false [1; 2]))).
Example C63_case : exists W1 W2 W3 W4 W5 W6 W7,
  open_base_prog ex_al KQueue = Some (q_open_base ex_al) /\
  ex_do ex_world 0 (al_get_base ex_al) = WDone 0 W1 /\
  ex_do W1 1 (al_get_base ex_al) = WDone 0 W2 /\
  ex_do W2 1 (q_open_base ex_al) = WDone 344 W3 /\
  ex_do W3 0 (q_open_base ex_al) = WDone 344 W4 /\
  ex_do W4 0 (op_prog ex_al 10 344 (QPush false [1; 2])) = WDone RUnit W5 /\
  ex_do W5 1 (op_prog ex_al 10 344 (QPop true)) = WDone (RBytes [1; 2]) W6 /\
  ex_do W5 1 (al_get_base ex_al) = WDone 344 W7.
Proof.
  exists ex_b1, ex_b2, ex_b3, ex_b4, ex_b5, (the_world (ex_do ex_b5 1 (op_prog ex_al 10 344 (QPop true)))),
    (the_world (ex_do ex_b5 1 (al_get_base ex_al))).
  splits; [reflexivity|wd|wd|wd|wd|wd|wd|wd].
Qed.

Print Assumptions C63_openers_agree.
Print Assumptions C17_queue_is_a_deque.
Print Assumptions C18_queue_size_and_bytes.
Print Assumptions C19_queue_owns_exactly_its_blocks.
Print Assumptions C21_priority_queue_pops_least.
Print Assumptions C22_priority_queue_multiset.
Print Assumptions C43_structures_do_not_interfere.
Print Assumptions C20_queue_crash_refuted.
Print Assumptions C20_queue_crash_drains_partial.
Print Assumptions C20_queue_crash_pops_twice_refuted.
