(** * Property theorems for the data structures over LogarithmicAllocator.

    The same statements as in PropertiesStruct.v, PropertiesHash.v and PropertiesTree.v, for pools
    managed by a LogarithmicAllocator.  [log_limits] restricts the requests to 1 to 4088
    bytes (C13): items of at most 4072 bytes in queues, at most 255 items in priority
    queues, hash tables with at most 2^7 slots, strings of at most 4088 bytes in trees.  Blocks are always given back
    ([leaky_upto] is -1), so in C19 nothing is left out; and all offsets are odd
    multiples of 8, which makes one of the two wrong erasures of C23 impossible. *)
From Verif Require Import LogSpec StructSpec TreeChecks LogMain LogAllocSpec StructMain TreeMain StructStart IterSpec IterProof TreeIterSpec TreeIterProof TreeBoundSpec TreeBoundProof BaseSpec BaseProof.
From iris.proofmode Require Import tactics.
From iris.prelude Require Import options.
Open Scope Z_scope.

Lemma log_limits_ok F : limits_ok (log_spec F) log_limits.
Proof. split; simpl; unfold request_ok; simpl; try done; lia. Qed.
Lemma log_started_GInv {hash : HashFn} lim W F : log_started lim W → initialized W →
  GInv (log_spec F) (GS W ∅ 0 true).
Proof.
  intros Hs Hi. apply log_started_inv in Hs as [(Hok & Hlim & Hsz & [[H _]|[_ H]]) _]; [done|].
  split; [by split|]. split; [done|]. exists [], [], []. split; [done|]. split; [done|].
  pose proof (file_holds_facts _ _ H) as (Hs & Hfs & H'). exists (w_size W).
  eapply holds_mono; [|exact H']. unfold pool_is, reps, raws. cbn [g_base objs_blocks concat map app]. iIntros "(P & %fl & R)".
  iFrame "P". simpl. iSplitL; [|done]. unfold la_RB. iExists la_new, fl. iFrame. done.
Qed.

Section log.
  Context (hash : HashFn) (lim : Z) (W : world) (F : nat) (evs : list gevent).
  Context (Hs : log_started lim W) (Hi : initialized W) (HF : 2 ^ 62 <= Z.of_nat F).
  Set Default Proof Using "All".
  Let start := log_started_GInv lim W F Hs Hi.
  Let ok := log_limits_ok F.

  (** C17 *)
  Theorem C17_queue_is_a_deque_log_partial :
    sgame (log_allocator F) log_limits F (fun _ => True) deque_results evs (GS W ∅ 0 true).
  Proof. exact (main_deque _ _ ok F HF W evs start). Qed.
  (** C18 *)
  Theorem C18_queue_size_and_bytes_log_partial :
    sgame (log_allocator F) log_limits F (fun _ => True) queue_counts evs (GS W ∅ 0 true).
  Proof. exact (main_counts _ _ ok F HF W evs start). Qed.
  (** C19 *)
  Theorem C19_queue_owns_exactly_its_blocks_log_partial :
    sgame (log_allocator F) log_limits F (no_leak (log_allocator F)) (fun _ _ _ => True) evs (GS W ∅ 0 true).
  Proof. exact (main_no_leak _ _ ok F HF W evs start). Qed.
  (** C21 *)
  Theorem C21_priority_queue_pops_least_log_partial :
    sgame (log_allocator F) log_limits F (fun _ => True) prio_pops_least evs (GS W ∅ 0 true).
  Proof. exact (main_least _ _ ok F HF W evs start). Qed.
  (** C22 *)
  Theorem C22_priority_queue_multiset_log_partial :
    sgame (log_allocator F) log_limits F (fun _ => True) prio_multiset evs (GS W ∅ 0 true).
  Proof. exact (main_multiset _ _ ok F HF W evs start). Qed.
  (** C43 and C44 *)
  Theorem C43_structures_do_not_interfere_log_partial :
    sgame (log_allocator F) log_limits F
      (fun st => blobs_intact st /\ base_kept (log_allocator F) st)
      (fun st ob st' => ideal_results st ob st' /\ grows_within st ob st') evs (GS W ∅ 0 true).
  Proof. exact (main_ideal _ _ ok F HF W evs start). Qed.
  (** C23, except for the erasures that [handled] leaves out: those of the first of three
      or more keys in a slot. *)
  Theorem C23_hash_table_is_a_map_log_partial :
    sgame (log_allocator F) log_limits F (fun _ => True) hash_is_a_map evs (GS W ∅ 0 true).
  Proof. exact (main_hash_map _ _ ok F HF W evs start). Qed.
  (** C24 *)
  Theorem C24_hash_table_compare_and_set_log_partial :
    sgame (log_allocator F) log_limits F (fun _ => True) hash_compare_and_set evs (GS W ∅ 0 true).
  Proof. exact (main_hash_cas _ _ ok F HF W evs start). Qed.
  (** C25 *)
  Theorem C25_hash_table_incr_log_partial :
    sgame (log_allocator F) log_limits F (fun _ => True) hash_incr_adds evs (GS W ∅ 0 true).
  Proof. exact (main_hash_incr _ _ ok F HF W evs start). Qed.
  (** C26 *)
  Theorem C26_hash_table_iteration_log_partial :
    sgame (log_allocator F) log_limits F (fun _ => True) hash_iteration evs (GS W ∅ 0 true).
  Proof. exact (main_hash_iteration _ _ ok F HF W evs start). Qed.
  (** C60 *)
  Theorem C60_hash_iteration_under_changes_log_partial :
    sgame (log_allocator F) log_limits F (iteration_under_changes (log_allocator F) log_limits F)
      (fun _ _ _ => True) evs (GS W ∅ 0 true).
  Proof. exact (main_iteration _ _ ok F HF W evs start). Qed.
  (** C27 to C35 *)
  Theorem C27_prefix_tree_is_a_map_log_partial :
    sgame (log_allocator F) log_limits F (fun _ => True) tree_is_a_map evs (GS W ∅ 0 true).
  Proof. exact (main_tree_map _ _ ok F HF W evs start). Qed.
  Theorem C28_prefix_tree_lossless_log_partial :
    sgame (log_allocator F) log_limits F (fun _ => True) (fun _ => tree_lossless (log_allocator F) F) evs (GS W ∅ 0 true).
  Proof. exact (main_tree_lossless _ _ ok F HF W evs start). Qed.
  Theorem C29_prefix_tree_exists_log_partial :
    sgame (log_allocator F) log_limits F (fun _ => True) tree_exists evs (GS W ∅ 0 true).
  Proof. exact (main_tree_exists _ _ ok F HF W evs start). Qed.
  Theorem C30_prefix_tree_erase_log_partial :
    sgame (log_allocator F) log_limits F (fun _ => True) tree_erases evs (GS W ∅ 0 true).
  Proof. exact (main_tree_erase _ _ ok F HF W evs start). Qed.
  Theorem C31_prefix_tree_order_log_partial :
    sgame (log_allocator F) log_limits F next_of_stored_is_handled tree_order evs (GS W ∅ 0 true).
  Proof. exact (main_tree_order _ _ ok F HF W evs start). Qed.
  Theorem C32_prefix_tree_incr_log_partial :
    sgame (log_allocator F) log_limits F (fun _ => True) tree_incr_adds evs (GS W ∅ 0 true).
  Proof. exact (main_tree_incr _ _ ok F HF W evs start). Qed.
  Theorem C33_prefix_tree_counts_log_partial :
    sgame (log_allocator F) log_limits F (fun st => emptied_tree_owns_root_only st /\ no_leak (log_allocator F) st) tree_counts evs (GS W ∅ 0 true).
  Proof. exact (main_tree_counts _ _ ok F HF W evs start). Qed.
  Theorem C34_prefix_tree_compare_and_set_log_partial :
    sgame (log_allocator F) log_limits F (fun _ => True) tree_compare_and_set evs (GS W ∅ 0 true).
  Proof. exact (main_tree_cas _ _ ok F HF W evs start). Qed.
  Theorem C35_prefix_tree_failed_insert_log_partial :
    sgame (log_allocator F) log_limits F (fun _ => True) tree_failed_insert evs (GS W ∅ 0 true).
  Proof. exact (main_tree_failed _ _ ok F HF W evs start). Qed.
  (** C55: for all keys that do not lead to an empty slot ([bounds_handled]: at least
      stored keys, prefixes of stored keys and keys that continue a stored one). *)
  Theorem C55_prefix_tree_bounds_log_partial :
    sgame (log_allocator F) log_limits F bounds_handled tree_bounds evs (GS W ∅ 0 true).
  Proof. exact (main_tree_bounds _ _ ok F HF W evs start). Qed.
  (** C56. *)
  Theorem C56_prefix_tree_nodes_for_prefix_log_partial :
    sgame (log_allocator F) log_limits F (fun _ => True) tree_prefix_nodes evs (GS W ∅ 0 true).
  Proof. exact (main_tree_prefix_nodes _ _ ok F HF W evs start). Qed.
  (** C57: if all values below the prefix are [counted]. *)
  Theorem C57_prefix_tree_bytes_for_prefix_log_partial :
    sgame (log_allocator F) log_limits F (fun _ => True) tree_prefix_bytes evs (GS W ∅ 0 true).
  Proof. exact (main_tree_prefix_bytes _ _ ok F HF W evs start). Qed.
  (** C61 *)
  Theorem C61_tree_iteration_under_changes_log_partial :
    sgame (log_allocator F) log_limits F
      (fun st => tree_iteration_under_changes (log_allocator F) log_limits F st /\ next_of_stored_is_handled st)
      (fun _ _ _ => True) evs (GS W ∅ 0 true).
  Proof. exact (main_tree_iteration _ _ ok F HF W evs start). Qed.
  (** C62 *)
  Theorem C62_lower_bound_under_changes_log_partial :
    sgame (log_allocator F) log_limits F
      (fun st => lower_bound_under_changes (log_allocator F) log_limits F st /\ bounds_handled st)
      (fun _ _ _ => True) evs (GS W ∅ 0 true).
  Proof. exact (main_lower_bound _ _ ok F HF W evs start). Qed.
  (** C63 *)
  Theorem C63_openers_agree_log_partial :
    sgame (log_allocator F) log_limits F (openers_agree (log_allocator F) log_limits F)
      (fun _ _ _ => True) evs (GS W ∅ 0 true).
  Proof. exact (main_openers _ _ ok F HF W evs start). Qed.
End log.

(** The hypotheses are met, and a concrete history: a queue, a priority queue and a hash
    table in one pool, used by two processes. *)
Example C17_log_hypotheses_met : log_started ex_lim ex_log /\ initialized ex_log /\
  2 ^ 62 <= Z.of_nat (Z.to_nat (2 ^ 62)).
Proof. destruct ex_log_ok as (H1 & H2 & _). refine (conj H1 (conj H2 _)). rewrite Z2Nat.id; [apply Z.le_refl|]. discriminate. Qed.
#[local] Existing Instance fnv1a64.
Definition ex_lal : allocator := log_allocator 10.
Definition ex_L1 := the_world (ex_do ex_log 1 (create_prog ex_lal KQueue)).
Definition ex_L2 := the_world (ex_do ex_L1 2 (create_prog ex_lal KPrio)).
Definition ex_L3 := the_world (ex_do ex_L2 1 (create_prog ex_lal (KHash 2))).
Definition ex_L4 := the_world (ex_do ex_L3 2 (op_prog ex_lal 10 1224 (QPush false [1; 2; 3]))).
Definition ex_L5 := the_world (ex_do ex_L4 1 (op_prog ex_lal 10 1192 (PPush [7; 7]))).
Definition ex_L6 := the_world (ex_do ex_L5 2 (op_prog ex_lal 10 1288 (HInsert [4] [2] None))).
Definition ex_L7 := the_world (ex_do ex_L6 2 (op_prog ex_lal 10 1224 (QPush true (repeat 9 4000)))).
Example C17_log_history_not_trivial : exists W1 W2 W3 W4 W5 W6 W7 Wa Wb Wc,
  ex_do ex_log 1 (create_prog ex_lal KQueue) = WDone 1224 W1 /\
  ex_do W1 2 (create_prog ex_lal KPrio) = WDone 1192 W2 /\
  ex_do W2 1 (create_prog ex_lal (KHash 2)) = WDone 1288 W3 /\
  ex_do W3 2 (op_prog ex_lal 10 1224 (QPush false [1; 2; 3])) = WDone RUnit W4 /\
  ex_do W4 1 (op_prog ex_lal 10 1192 (PPush [7; 7])) = WDone RUnit W5 /\
  ex_do W5 2 (op_prog ex_lal 10 1288 (HInsert [4] [2] None)) = WDone (RBool true) W6 /\
  ex_do W6 2 (op_prog ex_lal 10 1224 (QPush true (repeat 9 4000))) = WDone RUnit W7 /\
  w_size W6 = 4096 /\ w_size W7 = 8192 /\
  ex_do W7 1 (op_prog ex_lal 10 1224 (QPop false)) = WDone (RBytes [1; 2; 3]) Wa /\
  ex_do W7 1 (op_prog ex_lal 10 1192 PPop) = WDone (RBytes [7; 7]) Wb /\
  ex_do W7 1 (op_prog ex_lal 10 1288 (HAt [4])) = WDone (RBytes [2]) Wc.
Proof.
  exists ex_L1, ex_L2, ex_L3, ex_L4, ex_L5, ex_L6, ex_L7,
    (the_world (ex_do ex_L7 1 (op_prog ex_lal 10 1224 (QPop false)))),
    (the_world (ex_do ex_L7 1 (op_prog ex_lal 10 1192 PPop))),
    (the_world (ex_do ex_L7 1 (op_prog ex_lal 10 1288 (HAt [4])))).
  splits; first [wd|vm_compute; reflexivity].
Qed.

Print Assumptions C43_structures_do_not_interfere_log_partial.
Print Assumptions C60_hash_iteration_under_changes_log_partial.
Print Assumptions C61_tree_iteration_under_changes_log_partial.
Print Assumptions C62_lower_bound_under_changes_log_partial.
Print Assumptions C63_openers_agree_log_partial.
Print Assumptions C23_hash_table_is_a_map_log_partial.
Print Assumptions C27_prefix_tree_is_a_map_log_partial.
