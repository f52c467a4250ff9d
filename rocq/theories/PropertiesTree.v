(** * Property theorems for prefix trees: C27-C35, C55-C57, C61 and C62, over SimpleAllocator.

    The checks are stated in TreeChecks.v (C61: TreeIterSpec.v, C62:
    TreeBoundSpec.v), in terms of the finite maps that the trees
    stand for, and hold for every history (see PropertiesStruct.v).  [t_handled] in
    TreeOps.v leaves out the calls that the code gets wrong: next_key(),
    lower_bound() and upper_bound() of a key that leads to an empty slot, incr(0.0) of
    an absent key, and bytes_for_prefix() where it miscounts (the refutations below).
    The suffix _partial marks theorems that say less than the property; each is
    followed by the refutation of what is missing. *)
From Verif Require Import SimpleSpec StructSpec TreeChecks SimpleMain StructMain TreeMain StructStart TreeIterSpec TreeIterProof TreeBoundSpec TreeBoundProof.
Open Scope Z_scope.

Section simple.
  Context (hash : HashFn) (lim : Z) (W : world) (F : nat) (evs : list gevent).
  Context (Hs : started lim W false) (Hi : initialized W) (HF : 2 ^ 62 <= Z.of_nat F).

  (** C27: in every history (histories leave out incr(0.0) of absent keys, see C32). *)
  Theorem C27_prefix_tree_is_a_map :
    sgame (simple_allocator F) simple_limits F (fun _ => True) tree_is_a_map evs (GS W ∅ 0 true).
  Proof. exact (main_tree_map _ _ (simple_limits_ok F HF) F HF W evs (started_GInv _ _ _ _ Hs Hi)). Qed.
  (** C28, up to the sign of zero. *)
  Theorem C28_prefix_tree_lossless_partial :
    sgame (simple_allocator F) simple_limits F (fun _ => True)
      (fun _ => tree_lossless (simple_allocator F) F) evs (GS W ∅ 0 true).
  Proof. exact (main_tree_lossless _ _ (simple_limits_ok F HF) F HF W evs (started_GInv _ _ _ _ Hs Hi)). Qed.
  (** C29: what exists() says is exactly [seems_stored]. *)
  Theorem C29_prefix_tree_exists_partial :
    sgame (simple_allocator F) simple_limits F (fun _ => True) tree_exists evs (GS W ∅ 0 true).
  Proof. exact (main_tree_exists _ _ (simple_limits_ok F HF) F HF W evs (started_GInv _ _ _ _ Hs Hi)). Qed.
  (** C30: erase() removes that key only; its result is that of exists(). *)
  Theorem C30_prefix_tree_erase_partial :
    sgame (simple_allocator F) simple_limits F (fun _ => True) tree_erases evs (GS W ∅ 0 true).
  Proof. exact (main_tree_erase _ _ (simple_limits_ok F HF) F HF W evs (started_GInv _ _ _ _ Hs Hi)). Qed.
  (** C31: iteration, and next_key() at least from keys that are stored. *)
  Theorem C31_prefix_tree_order_partial :
    sgame (simple_allocator F) simple_limits F next_of_stored_is_handled tree_order evs (GS W ∅ 0 true).
  Proof. exact (main_tree_order _ _ (simple_limits_ok F HF) F HF W evs (started_GInv _ _ _ _ Hs Hi)). Qed.
  (** C32, except incr(0.0) of absent keys. *)
  Theorem C32_prefix_tree_incr_partial :
    sgame (simple_allocator F) simple_limits F (fun _ => True) tree_incr_adds evs (GS W ∅ 0 true).
  Proof. exact (main_tree_incr _ _ (simple_limits_ok F HF) F HF W evs (started_GInv _ _ _ _ Hs Hi)). Qed.
  (** C33, for trees in which memory never ran out. *)
  Theorem C33_prefix_tree_counts_partial :
    sgame (simple_allocator F) simple_limits F
      (fun st => emptied_tree_owns_root_only st /\ no_leak (simple_allocator F) st) tree_counts evs (GS W ∅ 0 true).
  Proof. exact (main_tree_counts _ _ (simple_limits_ok F HF) F HF W evs (started_GInv _ _ _ _ Hs Hi)). Qed.
  (** C34, except for strings that are passed by reference. *)
  Theorem C34_prefix_tree_compare_and_set_partial :
    sgame (simple_allocator F) simple_limits F (fun _ => True) tree_compare_and_set evs (GS W ∅ 0 true).
  Proof. exact (main_tree_cas _ _ (simple_limits_ok F HF) F HF W evs (started_GInv _ _ _ _ Hs Hi)). Qed.
  (** C35: a failed insert touches no other key, and nothing if its key is new. *)
  Theorem C35_prefix_tree_failed_insert_partial :
    sgame (simple_allocator F) simple_limits F (fun _ => True) tree_failed_insert evs (GS W ∅ 0 true).
  Proof. exact (main_tree_failed _ _ (simple_limits_ok F HF) F HF W evs (started_GInv _ _ _ _ Hs Hi)). Qed.
  (** C55: for all keys that do not lead to an empty slot ([bounds_handled]: at least
      stored keys, prefixes of stored keys and keys that continue a stored one). *)
  Theorem C55_prefix_tree_bounds_partial :
    sgame (simple_allocator F) simple_limits F bounds_handled tree_bounds evs (GS W ∅ 0 true).
  Proof. exact (main_tree_bounds _ _ (simple_limits_ok F HF) F HF W evs (started_GInv _ _ _ _ Hs Hi)). Qed.
  (** C56. *)
  Theorem C56_prefix_tree_nodes_for_prefix :
    sgame (simple_allocator F) simple_limits F (fun _ => True) tree_prefix_nodes evs (GS W ∅ 0 true).
  Proof. exact (main_tree_prefix_nodes _ _ (simple_limits_ok F HF) F HF W evs (started_GInv _ _ _ _ Hs Hi)). Qed.
  (** C57: if all values below the prefix are [counted]. *)
  Theorem C57_prefix_tree_bytes_for_prefix_partial :
    sgame (simple_allocator F) simple_limits F (fun _ => True) tree_prefix_bytes evs (GS W ∅ 0 true).
  Proof. exact (main_tree_prefix_bytes _ _ (simple_limits_ok F HF) F HF W evs (started_GInv _ _ _ _ Hs Hi)). Qed.
  (** C61: iterations while others work, as long as the iterator advances from keys that
      are handled: at least those that are still stored. *)
  Theorem C61_tree_iteration_under_changes_partial :
    sgame (simple_allocator F) simple_limits F
      (fun st => tree_iteration_under_changes (simple_allocator F) simple_limits F st /\ next_of_stored_is_handled st)
      (fun _ _ _ => True) evs (GS W ∅ 0 true).
  Proof. exact (main_tree_iteration _ _ (simple_limits_ok F HF) F HF W evs (started_GInv _ _ _ _ Hs Hi)). Qed.
  (** C62: what lower_bound() finds while others work. *)
  Theorem C62_lower_bound_under_changes_partial :
    sgame (simple_allocator F) simple_limits F
      (fun st => lower_bound_under_changes (simple_allocator F) simple_limits F st /\ bounds_handled st)
      (fun _ _ _ => True) evs (GS W ∅ 0 true).
  Proof. exact (main_lower_bound _ _ (simple_limits_ok F HF) F HF W evs (started_GInv _ _ _ _ Hs Hi)). Qed.
End simple.

(** ** Where the properties are false of the code *)
#[local] Existing Instance fnv1a64.
Definition ex_T0 := the_world (ex_do ex_world 0 (create_prog ex_al KTree)).
Definition tree_run (W : world) (i : nat) (x : top) := ex_do W i (op_prog ex_al 3000 344 (OTree x)).
Definition ex_tdo (W : world) (i : nat) (x : top) : world := the_world (tree_run W i x).
Lemma ex_T0_ok : started ex_lim ex_world false /\ initialized ex_world /\
  ex_do ex_world 0 (create_prog ex_al KTree) = WDone 344 ex_T0.
Proof. destruct ex_world_ok as (H1 & H2 & _). splits; [exact H1|exact H2|wd]. Qed.
Ltac raises := match goal with |- ?r = WExn ?e ?w =>
  change w with (the_world r);
  assert (match r with WExn e' _ => Some e' | _ => None end = Some e) as Hraise by (vm_compute; reflexivity);
  revert Hraise; destruct r; intros Hraise; try discriminate Hraise; injection Hraise as ->; reflexivity end.

(** Every refutation starts with a new tree in an initialized pool. *)
Definition new_tree_in (W W0 : world) : Prop := started ex_lim W false /\ initialized W /\
  ex_do W 0 (create_prog ex_al KTree) = WDone 344 W0.
Lemma ex_new : new_tree_in ex_world ex_T0.
Proof. exact ex_T0_ok. Qed.

(** -0.0 is read back as 0.0. *)
Theorem C28_sign_of_zero_refuted : exists W W0 W1 W2, new_tree_in W W0 /\
  tree_run W0 0 (TInsert [97] (PDouble (2 ^ 63)) None) = WDone (RTree (TBool true)) W1 /\
  tree_run W1 0 (TAt [97]) = WDone (RTree (TVal (PDouble 0))) W2.
Proof.
  exists ex_world, ex_T0, (ex_tdo ex_T0 0 (TInsert [97] (PDouble (2 ^ 63)) None)),
    (ex_tdo (ex_tdo ex_T0 0 (TInsert [97] (PDouble (2 ^ 63)) None)) 0 (TAt [97])).
  splits; [exact ex_new|wd|wd].
Qed.

(** Only "ab" is stored; "a" exists, and can be erased. *)
Definition ex_T_ab := ex_tdo ex_T0 0 (TInsert [97; 98] (PInt 5) None).
Theorem C29_exists_of_prefix_refuted : exists W W0 W1 Wa Wb, new_tree_in W W0 /\
  tree_run W0 0 (TInsert [97; 98] (PInt 5) None) = WDone (RTree (TBool true)) W1 /\
  tree_run W1 0 (TExists [97]) = WDone (RTree (TBool true)) Wa /\
  tree_run W1 0 (TAt [97]) = WExn OutOfRange Wb.
Proof.
  exists ex_world, ex_T0, ex_T_ab, (ex_tdo ex_T_ab 0 (TExists [97])), (the_world (tree_run ex_T_ab 0 (TAt [97]))).
  splits; [exact ex_new|wd|wd|raises].
Qed.
Theorem C30_erase_of_prefix_refuted : exists W W0 W1 Wa Wb, new_tree_in W W0 /\
  tree_run W0 0 (TInsert [97; 98] (PInt 5) None) = WDone (RTree (TBool true)) W1 /\
  tree_run W1 0 (TErase [97] None) = WDone (RTree (TBool true)) Wa /\
  tree_run Wa 0 TSize = WDone (RTree (TNum 1)) Wb.
Proof.
  exists ex_world, ex_T0, ex_T_ab, (ex_tdo ex_T_ab 0 (TErase [97] None)), (ex_tdo (ex_tdo ex_T_ab 0 (TErase [97] None)) 0 TSize).
  splits; [exact ex_new|wd|wd|wd].
Qed.

(** Keys "a" and "c": the key after "b" is said to be "a". *)
Definition ex_T_a := ex_tdo ex_T0 0 (TInsert [97] PNull None).
Definition ex_T_ac := ex_tdo ex_T_a 0 (TInsert [99] (PInt 2) None).
Theorem C31_next_of_absent_key_refuted : exists W W0 W1 W2 W3, new_tree_in W W0 /\
  tree_run W0 0 (TInsert [97] PNull None) = WDone (RTree (TBool true)) W1 /\
  tree_run W1 0 (TInsert [99] (PInt 2) None) = WDone (RTree (TBool true)) W2 /\
  tree_run W2 0 (TNext (Some [98])) = WDone (RTree (TKeyVal [97] PNull)) W3.
Proof.
  exists ex_world, ex_T0, ex_T_a, ex_T_ac, (ex_tdo ex_T_ac 0 (TNext (Some [98]))).
  splits; [exact ex_new|wd|wd|wd].
Qed.

(** An iteration over "a", "b", "c" has come to "b"; another process erases "b"; the iterator
    goes back to "a". *)
Definition ex_T_abc := ex_tdo (ex_tdo ex_T_ac 0 (TInsert [98] PNull None)) 0 (TNext None).
Definition ex_T_abc2 := ex_tdo ex_T_abc 0 (TNext (Some [97])).
Definition ex_T_abc3 := ex_tdo ex_T_abc2 1 (TErase [98] None).
Theorem C61_iteration_goes_back_refuted : exists W W0 W1 W2 W3 W4 W5 W6 W7, new_tree_in W W0 /\
  tree_run W0 0 (TInsert [97] PNull None) = WDone (RTree (TBool true)) W1 /\
  tree_run W1 0 (TInsert [99] (PInt 2) None) = WDone (RTree (TBool true)) W2 /\
  tree_run W2 0 (TInsert [98] PNull None) = WDone (RTree (TBool true)) W3 /\
  tree_run W3 0 (TNext None) = WDone (RTree (TKeyVal [97] PNull)) W4 /\
  tree_run W4 0 (TNext (Some [97])) = WDone (RTree (TKeyVal [98] PNull)) W5 /\
  tree_run W5 1 (TErase [98] None) = WDone (RTree (TBool true)) W6 /\
  tree_run W6 0 (TNext (Some [98])) = WDone (RTree (TKeyVal [97] PNull)) W7.
Proof.
  exists ex_world, ex_T0, ex_T_a, ex_T_ac, (ex_tdo ex_T_ac 0 (TInsert [98] PNull None)), ex_T_abc, ex_T_abc2, ex_T_abc3,
    (ex_tdo ex_T_abc3 0 (TNext (Some [98]))).
  splits; [exact ex_new|wd|wd|wd|wd|wd|wd|wd].
Qed.

(** lower_bound("b") is not atomic.  Only "c" is stored when it looks for "b"; before it looks
    for the next key, another process inserts "b" and then "bb"; it returns "bb".  At no time
    was that right: first it was "c", then "b". *)
Definition ex_T_c := ex_tdo ex_T0 0 (TInsert [99] PNull None).
Definition ex_T_c1 := the_world (tree_run ex_T_c 0 (TAt [98])).
Definition ex_T_c2 := ex_tdo ex_T_c1 1 (TInsert [98] PNull None).
Definition ex_T_c3 := ex_tdo ex_T_c2 1 (TInsert [98; 98] PNull None).
Theorem C62_lower_bound_not_atomic_refuted : exists W W0 W1 W2 W3 W4 Wa Wb Wc Wd, new_tree_in W W0 /\
  tree_run W0 0 (TInsert [99] PNull None) = WDone (RTree (TBool true)) W1 /\
  tree_run W1 0 (TAt [98]) = WExn OutOfRange W2 /\
  tree_run W2 1 (TInsert [98] PNull None) = WDone (RTree (TBool true)) W3 /\
  tree_run W3 1 (TInsert [98; 98] PNull None) = WDone (RTree (TBool true)) W4 /\
  tree_run W4 0 (TUpper [98]) = WDone (RTree (TItem (Some ([98; 98], PNull)))) Wa /\
  tree_run W2 0 (TLower [98]) = WDone (RTree (TItem (Some ([99], PNull)))) Wb /\
  tree_run W3 0 (TLower [98]) = WDone (RTree (TItem (Some ([98], PNull)))) Wc /\
  tree_run W4 0 (TLower [98]) = WDone (RTree (TItem (Some ([98], PNull)))) Wd.
Proof.
  exists ex_world, ex_T0, ex_T_c, ex_T_c1, ex_T_c2, ex_T_c3, (ex_tdo ex_T_c3 0 (TUpper [98])),
    (ex_tdo ex_T_c1 0 (TLower [98])), (ex_tdo ex_T_c2 0 (TLower [98])), (ex_tdo ex_T_c3 0 (TLower [98])).
  splits; [exact ex_new|wd|raises|wd|wd|wd|wd|wd|wd].
Qed.

(** Keys "a" and "c": the items at or after "b" and after "b" are said to be "a", too. *)
Theorem C55_bounds_of_absent_key_refuted : exists W W0 W1 W2 Wa Wb, new_tree_in W W0 /\
  tree_run W0 0 (TInsert [97] PNull None) = WDone (RTree (TBool true)) W1 /\
  tree_run W1 0 (TInsert [99] (PInt 2) None) = WDone (RTree (TBool true)) W2 /\
  tree_run W2 0 (TLower [98]) = WDone (RTree (TItem (Some ([97], PNull)))) Wa /\
  tree_run W2 0 (TUpper [98]) = WDone (RTree (TItem (Some ([97], PNull)))) Wb.
Proof.
  exists ex_world, ex_T0, ex_T_a, ex_T_ac, (ex_tdo ex_T_ac 0 (TLower [98])), (ex_tdo ex_T_ac 0 (TUpper [98])).
  splits; [exact ex_new|wd|wd|wd|wd].
Qed.
(** The bounds of stored keys, and of keys past the last one. *)
Example C55_bounds_used : exists Wa Wb Wc Wd We,
  tree_run ex_T_ac 1 (TLower [97]) = WDone (RTree (TItem (Some ([97], PNull)))) Wa /\
  tree_run ex_T_ac 1 (TUpper [97]) = WDone (RTree (TItem (Some ([99], PInt 2)))) Wb /\
  tree_run ex_T_ac 1 (TUpper [97; 98]) = WDone (RTree (TItem (Some ([99], PInt 2)))) Wc /\
  tree_run ex_T_ac 1 (TUpper [99]) = WDone (RTree (TItem None)) Wd /\
  tree_run ex_T_ac 1 (TFind [98]) = WDone (RTree (TItem None)) We.
Proof.
  exists (ex_tdo ex_T_ac 1 (TLower [97])), (ex_tdo ex_T_ac 1 (TUpper [97])), (ex_tdo ex_T_ac 1 (TUpper [97; 98])),
    (ex_tdo ex_T_ac 1 (TUpper [99])), (ex_tdo ex_T_ac 1 (TFind [98])).
  splits; wd.
Qed.

(** "ab" is stored: there is a node for "" and one for "a", which has one slot. *)
Example C56_nodes_used : exists Wa Wb Wc,
  tree_run ex_T_ab 0 (TNodesFor []) = WDone (RTree (TNum 2)) Wa /\
  tree_run ex_T_ab 0 (TNodesFor [97]) = WDone (RTree (TNum 1)) Wb /\
  tree_run ex_T_ab 0 (TNodesFor [97; 98]) = WDone (RTree (TNum 0)) Wc.
Proof.
  exists (ex_tdo ex_T_ab 0 (TNodesFor [])), (ex_tdo ex_T_ab 0 (TNodesFor [97])), (ex_tdo ex_T_ab 0 (TNodesFor [97; 98])).
  splits; wd.
Qed.
Example C57_bytes_used : exists Wa Wb Wc Wd,
  tree_run ex_T_ab 0 (TBytesFor []) = WDone (RTree (TNum (2064 + 24))) Wa /\
  tree_run ex_T_ab 0 (TBytesFor [97]) = WDone (RTree (TNum (8 + 24))) Wb /\
  tree_run ex_T_ab 0 (TBytesFor [97; 98]) = WDone (RTree (TNum 8)) Wc /\
  tree_run ex_T_ab 0 (TBytesFor [97; 99]) = WDone (RTree (TNum 0)) Wd.
Proof.
  exists (ex_tdo ex_T_ab 0 (TBytesFor [])), (ex_tdo ex_T_ab 0 (TBytesFor [97])), (ex_tdo ex_T_ab 0 (TBytesFor [97; 98])),
    (ex_tdo ex_T_ab 0 (TBytesFor [97; 99])).
  splits; wd.
Qed.
(** An empty string is stored: bytes_for_prefix() reads outside the pool. *)
Definition ex_T_es := ex_tdo ex_T0 0 (TInsert [97] (PStr []) None).
Theorem C57_bytes_of_empty_string_refuted : exists W W0 W1, new_tree_in W W0 /\
  tree_run W0 0 (TInsert [97] (PStr []) None) = WDone (RTree (TBool true)) W1 /\
  tree_run W1 0 (TBytesFor [97]) = WBad.
Proof. exists ex_world, ex_T0, ex_T_es. splits; [exact ex_new|wd|vm_compute; reflexivity]. Qed.
(** "ab" is stored, then "a" with a string of ten bytes: the block is not counted. *)
Definition ex_T_ab10 := ex_tdo ex_T_ab 0 (TInsert [97] (PStr (repeat 1 10)) None).
Theorem C57_bytes_of_inner_value_refuted : exists W W0 W1 W2 Wa Wb Wc Wd n, new_tree_in W W0 /\
  tree_run W0 0 (TInsert [97; 98] (PInt 5) None) = WDone (RTree (TBool true)) W1 /\
  tree_run W1 0 (TInsert [97] (PStr (repeat 1 10)) None) = WDone (RTree (TBool true)) W2 /\
  tree_run W1 0 (TBytesFor [97]) = WDone (RTree (TNum 32)) Wa /\
  tree_run W2 0 (TBytesFor [97]) = WDone (RTree (TNum 32)) Wb /\
  ex_do W1 0 sa_bytes_allocated = WDone n Wc /\
  ex_do W2 0 sa_bytes_allocated = WDone (n + 10) Wd.
Proof.
  exists ex_world, ex_T0, ex_T_ab, ex_T_ab10, (ex_tdo ex_T_ab 0 (TBytesFor [97])), (ex_tdo ex_T_ab10 0 (TBytesFor [97])),
    (the_world (ex_do ex_T_ab 0 sa_bytes_allocated)), (the_world (ex_do ex_T_ab10 0 sa_bytes_allocated)), 2104.
  splits; [exact ex_new|wd|wd|wd|wd|wd|wd].
Qed.
(** 0.0 has no block, yet 8 bytes are counted for one. *)
Definition ex_T_z := ex_tdo ex_T_a 0 (TInsert [97] (PDouble 0) None).
Theorem C57_bytes_of_zero_refuted : exists W W0 W1 W2 Wa Wb Wc Wd n, new_tree_in W W0 /\
  tree_run W0 0 (TInsert [97] PNull None) = WDone (RTree (TBool true)) W1 /\
  tree_run W1 0 (TInsert [97] (PDouble 0) None) = WDone (RTree (TBool true)) W2 /\
  tree_run W1 0 (TBytesFor [97]) = WDone (RTree (TNum 8)) Wa /\
  tree_run W2 0 (TBytesFor [97]) = WDone (RTree (TNum 16)) Wb /\
  ex_do W1 0 sa_bytes_allocated = WDone n Wc /\
  ex_do W2 0 sa_bytes_allocated = WDone n Wd.
Proof.
  exists ex_world, ex_T0, ex_T_a, ex_T_z, (ex_tdo ex_T_a 0 (TBytesFor [97])), (ex_tdo ex_T_z 0 (TBytesFor [97])),
    (the_world (ex_do ex_T_a 0 sa_bytes_allocated)), (the_world (ex_do ex_T_z 0 sa_bytes_allocated)), 2080.
  splits; [exact ex_new|wd|wd|wd|wd|wd|wd].
Qed.

(** incr("a", 0.0) of an absent key: reading it afterwards is undefined behaviour,
    whatever the addition of doubles is. *)
Definition ex_T_dz := ex_tdo ex_T0 0 (TIncrDouble [97] (fun a b => a) 0).
Theorem C32_incr_by_zero_refuted : exists W W0 W1, new_tree_in W W0 /\
  tree_run W0 0 (TIncrDouble [97] (fun a b => a) 0) = WDone (RTree (TVal (PDouble 0))) W1 /\
  tree_run W1 0 (TAt [97]) = WBad.
Proof.
  exists ex_world, ex_T0, ex_T_dz. splits; [exact ex_new|wd|vm_compute; reflexivity].
Qed.

(** A process whose pool may not grow: the pool is full, incr() of an absent key
    fails, and then size() counts the key that is not there. *)
Definition ex_T_small := the_world (open_with ex_al ex_T0 2 4096).
Definition ex_T_full := ex_tdo ex_T_small 2 (TInsert [98] (PStr (repeat 1 1630)) None).
Definition ex_T_fail := the_world (tree_run ex_T_full 2 (TIncr [97] (2 ^ 62))).
Theorem C33_size_after_failed_incr_refuted : exists W W0 W1 W2 W3 Wa Wb, new_tree_in W W0 /\
  open_with ex_al W0 2 4096 = WDone tt W1 /\
  tree_run W1 2 (TInsert [98] (PStr (repeat 1 1630)) None) = WDone (RTree (TBool true)) W2 /\
  tree_run W2 2 (TIncr [97] (2 ^ 62)) = WExn RuntimeError W3 /\
  tree_run W3 2 TSize = WDone (RTree (TNum 2)) Wa /\
  tree_run W3 2 (TAt [97]) = WExn OutOfRange Wb.
Proof.
  exists ex_world, ex_T0, ex_T_small, ex_T_full, ex_T_fail,
    (ex_tdo ex_T_fail 2 TSize), (the_world (tree_run ex_T_fail 2 (TAt [97]))).
  splits; [exact ex_new|wd|wd|raises|wd|raises].
Qed.

(** A check that a stored string equals the same string, passed by reference. *)
Definition ex_T_str := ex_tdo ex_T0 0 (TInsert [97] (PStr [1; 2]) None).
Theorem C34_check_by_reference_refuted : exists W W0 W1 Wa Wb, new_tree_in W W0 /\
  tree_run W0 0 (TInsert [97] (PStr [1; 2]) None) = WDone (RTree (TBool true)) W1 /\
  tree_run W1 0 (TInsert [98] PNull (Some ([97], EStrRef [1; 2]))) = WDone (RTree (TBool false)) Wa /\
  tree_run W1 0 (TInsert [98] PNull (Some ([97], EStr [1; 2]))) = WDone (RTree (TBool true)) Wb.
Proof.
  exists ex_world, ex_T0, ex_T_str, (ex_tdo ex_T_str 0 (TInsert [98] PNull (Some ([97], EStrRef [1; 2])))),
    (ex_tdo ex_T_str 0 (TInsert [98] PNull (Some ([97], EStr [1; 2])))).
  splits; [exact ex_new|wd|wd|wd].
Qed.

(** The old value is gone when the new one does not fit. *)
Definition ex_T_old := ex_tdo ex_T_small 2 (TInsert [97] (PStr [1]) None).
Definition ex_T_lost := the_world (tree_run ex_T_old 2 (TInsert [97] (PStr (repeat 1 4000)) None)).
Theorem C35_failed_insert_loses_value_refuted : exists W W0 W1 W2 W3 Wa, new_tree_in W W0 /\
  open_with ex_al W0 2 4096 = WDone tt W1 /\
  tree_run W1 2 (TInsert [97] (PStr [1]) None) = WDone (RTree (TBool true)) W2 /\
  tree_run W2 2 (TInsert [97] (PStr (repeat 1 4000)) None) = WExn RuntimeError W3 /\
  tree_run W3 2 (TAt [97]) = WExn OutOfRange Wa.
Proof.
  exists ex_world, ex_T0, ex_T_small, ex_T_old, ex_T_lost, (the_world (tree_run ex_T_lost 2 (TAt [97]))).
  splits; [exact ex_new|wd|wd|raises|raises].
Qed.

(** ** A history that the theorems cover *)
Definition ex_T1 := ex_tdo ex_T0 0 (TInsert [1; 2; 3] (PStr (repeat 9 20)) None).
Definition ex_T2 := ex_tdo ex_T1 1 (TInsert [1; 2] (PInt (2 ^ 61)) (Some ([1; 2; 3], EStr (repeat 9 20)))).
Definition ex_T3 := ex_tdo ex_T2 0 (TIncr [1; 2] (2 ^ 62 + 2 ^ 61)).
Definition ex_T4 := ex_tdo ex_T3 1 (TInsert [1; 7; 7] (PBool true) None).
Definition ex_T5 := ex_tdo ex_T4 0 (TErase [1; 2; 3] None).
Example C27_history_not_trivial : exists W0 W1 W2 W3 W4 W5 Wa Wb Wc Wd We, new_tree_in ex_world W0 /\
  tree_run W0 0 (TInsert [1; 2; 3] (PStr (repeat 9 20)) None) = WDone (RTree (TBool true)) W1 /\
  tree_run W1 1 (TInsert [1; 2] (PInt (2 ^ 61)) (Some ([1; 2; 3], EStr (repeat 9 20)))) = WDone (RTree (TBool true)) W2 /\
  tree_run W2 0 (TIncr [1; 2] (2 ^ 62 + 2 ^ 61)) = WDone (RTree (TNum (- 2 ^ 63))) W3 /\
  tree_run W3 1 (TInsert [1; 7; 7] (PBool true) None) = WDone (RTree (TBool true)) W4 /\
  tree_run W4 0 TItems = WDone (RTree (TList [([1; 2], PInt (- 2 ^ 63)); ([1; 2; 3], PStr (repeat 9 20)); ([1; 7; 7], PBool true)])) Wa /\
  tree_run W4 0 TNodeSize = WDone (RTree (TNum 4)) Wb /\
  tree_run W4 1 (TNext (Some [1; 2; 3])) = WDone (RTree (TKeyVal [1; 7; 7] (PBool true))) Wc /\
  tree_run W4 0 (TErase [1; 2; 3] None) = WDone (RTree (TBool true)) W5 /\
  tree_run W5 0 TSize = WDone (RTree (TNum 2)) Wd /\
  tree_run W5 0 TNodeSize = WDone (RTree (TNum 3)) We.
Proof.
  exists ex_T0, ex_T1, ex_T2, ex_T3, ex_T4, ex_T5, (ex_tdo ex_T4 0 TItems), (ex_tdo ex_T4 0 TNodeSize),
    (ex_tdo ex_T4 1 (TNext (Some [1; 2; 3]))), (ex_tdo ex_T5 0 TSize), (ex_tdo ex_T5 0 TNodeSize).
  splits; [exact ex_new|wd|wd|wd|wd|wd|wd|wd|wd|wd|wd].
Qed.

(** An iteration over the keys of [ex_T4], [1; 2], [1; 2; 3] and [1; 7; 7].  After its second
    step another process erases [1; 2] and inserts [1; 1] and [1; 2; 4]; the iterator visits
    [1; 2; 4], not [1; 1]. *)
Fixpoint walk_with (G : nat) (cur : option bytes) (W : world) (between : list (list top)) : option (list (bytes * pval)) :=
  match G with
  | O => None
  | S G' =>
      let W1 := fold_left (fun W x => ex_tdo W 1 x) (hd [] between) W in
      match tree_run W1 0 (TNext cur) with
      | WDone (RTree (TKeyVal k v)) W2 =>
          match walk_with G' (Some k) W2 (tl between) with Some l => Some ((k, v) :: l) | None => None end
      | WExn OutOfRange _ => Some []
      | _ => None
      end
  end.
Example C61_case :
  walk_with 10 None ex_T4
    [[]; []; [TErase [1; 2] None; TInsert [1; 1] PNull None; TInsert [1; 2; 4] (PBool false) None]] =
  Some [([1; 2], PInt (- 2 ^ 63)); ([1; 2; 3], PStr (repeat 9 20)); ([1; 2; 4], PBool false); ([1; 7; 7], PBool true)].
Proof. vm_compute. reflexivity. Qed.

Print Assumptions C62_lower_bound_under_changes_partial.
Print Assumptions C62_lower_bound_not_atomic_refuted.
Print Assumptions C61_tree_iteration_under_changes_partial.
Print Assumptions C61_iteration_goes_back_refuted.
Print Assumptions C27_prefix_tree_is_a_map.
Print Assumptions C28_prefix_tree_lossless_partial.
Print Assumptions C29_prefix_tree_exists_partial.
Print Assumptions C30_prefix_tree_erase_partial.
Print Assumptions C31_prefix_tree_order_partial.
Print Assumptions C32_prefix_tree_incr_partial.
Print Assumptions C33_prefix_tree_counts_partial.
Print Assumptions C34_prefix_tree_compare_and_set_partial.
Print Assumptions C35_prefix_tree_failed_insert_partial.
Print Assumptions C35_failed_insert_loses_value_refuted.
Print Assumptions C55_prefix_tree_bounds_partial.
Print Assumptions C55_bounds_of_absent_key_refuted.
Print Assumptions C56_prefix_tree_nodes_for_prefix.
Print Assumptions C57_prefix_tree_bytes_for_prefix_partial.
Print Assumptions C57_bytes_of_empty_string_refuted.
Print Assumptions C57_bytes_of_inner_value_refuted.
Print Assumptions C57_bytes_of_zero_refuted.
