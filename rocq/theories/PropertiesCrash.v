(** * C53: a prefix tree survives a crash of a process at any point of any operation
    (README.md:288-294), over SimpleAllocator.  C54: a crash in the middle of anything
    leaves the other objects as they were.

    [cgame] (CrashSpec.v) plays every history of operations of all data structures in
    which processes also die at any point of an operation, of creating or opening an
    object, of changing the base object or of freeing a raw block, and at any point of the
    repair that follows.  [crash_effect] says which objects are then left, with which
    contents ([crash_leaves]: of a tree); the history goes on with these, and every later
    result is checked against them.  Left out by [crash_handled]: inserting a double over
    an integer that does not fit in 61 bits (refuted below): that tree is then given up.
    Over LogarithmicAllocator both properties are false: C51. *)
From Verif Require Import SimpleSpec StructSpec TreeChecks SimpleMain StructMain TreeMain StructStart PropertiesTree CrashSpec CrashGame.
Open Scope Z_scope.

Theorem C53_prefix_tree_survives_crashes_partial (hash : HashFn) lim W F evs :
  started lim W false -> initialized W -> 2 ^ 62 <= Z.of_nat F ->
  cgame F (fun st ob st' => ideal_results st ob st' /\ tree_is_a_map st ob st' /\ tree_order st ob st')
    evs (CS (GS W ∅ 0 true) false).
Proof.
  intros Hs Hi HF. pose proof (started_GInv _ _ F HF Hs Hi) as HG.
  apply (cgame_inv F HF); [|exact HG]. intros st ob st' H1 H2 H3. split; [exact (proj1 H2)|]. split.
  - exact (steps_tree_map _ _ (simple_limits_ok F HF) F HF W [] HG st ob st' H1 H2 H3).
  - exact (steps_tree_order _ _ (simple_limits_ok F HF) F HF W [] HG st ob st' H1 H2 H3).
Qed.

(** The other objects.  After any number of crashes, at any points, each followed by
    another process taking the lock over: every operation on every object that is left has
    the ideal result, raw blocks have the bytes that were written to them, the base object
    is the one that was set and the pool grows within the limits.  That all objects but
    the one in use are left is what [crash_effect] says. *)
Theorem C54_crash_spares_other_objects_partial (hash : HashFn) lim W F evs :
  started lim W false -> initialized W -> 2 ^ 62 <= Z.of_nat F ->
  cgame F (fun st ob st' => ideal_results st ob st' /\ grows_within st ob st' /\
             blobs_intact st' /\ base_kept (simple_allocator F) st')
    evs (CS (GS W ∅ 0 true) false).
Proof.
  intros Hs Hi HF. pose proof (started_GInv _ _ F HF Hs Hi) as HG.
  apply (cgame_inv F HF); [|exact HG]. intros st ob st' H1 H2 H3. destruct H2 as [H2 [H4 H5]].
  split; [exact H2|]. split; [exact H4|]. split.
  - exact (GInv_blobs _ _ (simple_limits_ok F HF) F HF _ H3).
  - exact (GInv_base _ _ (simple_limits_ok F HF) F HF _ H3).
Qed.
(** [crash_effect], read for one object: it is the same as before unless it is the one
    that was in use. *)
Lemma C54_others_are_left objs bo ev W' objs' bo' : crash_effect objs bo ev W' objs' bo' ->
  forall o v, objs !! o = Some v -> match ev with GOp _ o' _ | GFree _ o' => o <> o' | _ => True end -> objs' !! o = Some v.
Proof.
  intros H o v Ho Hne. destruct ev as [i k|i k|i w|i o' x|i o'|i mx|i]; cbn [crash_effect] in H.
  - destruct H as [-> _]. exact Ho.
  - destruct H as [[-> _]|[_ H]]; [exact Ho|].
    destruct k; try (destruct H as [Hn ->]; rewrite lookup_insert_ne; [exact Ho|congruence]). subst objs'. exact Ho.
  - destruct H as [-> _]. exact Ho.
  - destruct H as (_ & v0 & l & _ & _ & ->). destruct l; [rewrite lookup_insert_ne|rewrite lookup_delete_ne]; congruence.
  - destruct H as [-> _]. rewrite lookup_delete_ne; congruence.
  - destruct H.
  - destruct H.
Qed.

(** ** Where the property is false of the code *)
#[local] Existing Instance fnv1a64.
Definition tree_code (x : top) : prog result := op_prog ex_al 3000 344 (OTree x).
Definition dead_at (k : nat) (W : world) (x : top) : world := die_at W 0 k (sa_lock ;; tree_code x)%prog.
Definition after_crash (W : world) (x : top) : wres result := run_by W 1 (under_lock true (sa_repair 3000) (tree_code x)).
Lemma dead_at_ok k W x : is_Some (w_procs W !! 0%nat) -> dies_in W 0 (sa_lock ;; tree_code x)%prog (dead_at k W x).
Proof. apply die_at_ok. Qed.

(** The key holds 2^62 + 5 and is to become 1.0; after a crash it holds the integer that
    has the same bits as 1.0 (PrefixTree.cc:257-266). *)
Definition ex_C_int := ex_tdo ex_T0 0 (TInsert [97; 98] (PInt (2 ^ 62 + 5)) None).
Definition one_bits : Z := 2 ^ 62 - 2 ^ 52.
Definition ex_C_dbl := dead_at 12 ex_C_int (TInsert [97; 98] (PDouble one_bits) None).
Theorem C53_double_over_integer_refuted : exists W W0 W1 Wc W2, new_tree_in W W0 /\
  tree_run W0 0 (TInsert [97; 98] (PInt (2 ^ 62 + 5)) None) = WDone (RTree (TBool true)) W1 /\
  dies_in W1 0 (sa_lock ;; tree_code (TInsert [97; 98] (PDouble one_bits) None))%prog Wc /\
  after_crash Wc (TAt [97; 98]) = WDone (RTree (TVal (PInt one_bits))) W2.
Proof.
  exists ex_world, ex_T0, ex_C_int, ex_C_dbl, (the_world (after_crash ex_C_dbl (TAt [97; 98]))).
  splits; [exact ex_new|wd| |wd].
  refine (dead_at_ok 12 ex_C_int _ _). vm_compute; eauto.
Qed.

(** A string is replaced; after a crash the tree has no key but size() is 1; or it has
    one key but size() is 0.  The README does not exclude this. *)
Definition ex_C_str := ex_tdo ex_T0 0 (TInsert [97; 98] (PStr (repeat 7 20)) None).
Definition ex_C_s1 := dead_at 12 ex_C_str (TInsert [97; 98] (PStr (repeat 8 10)) None).
Definition ex_C_s2 := dead_at 56 ex_C_str (TInsert [97; 98] (PStr (repeat 8 10)) None).
Theorem C53_size_after_crash_refuted : exists W W0 W1 Wc Wd V1 V2 V3 V4, new_tree_in W W0 /\
  tree_run W0 0 (TInsert [97; 98] (PStr (repeat 7 20)) None) = WDone (RTree (TBool true)) W1 /\
  dies_in W1 0 (sa_lock ;; tree_code (TInsert [97; 98] (PStr (repeat 8 10)) None))%prog Wc /\
  after_crash Wc TItems = WDone (RTree (TList [])) V1 /\ after_crash Wc TSize = WDone (RTree (TNum 1)) V2 /\
  dies_in W1 0 (sa_lock ;; tree_code (TInsert [97; 98] (PStr (repeat 8 10)) None))%prog Wd /\
  after_crash Wd TItems = WDone (RTree (TList [([97; 98], PStr (repeat 8 10))])) V3 /\
  after_crash Wd TSize = WDone (RTree (TNum 0)) V4.
Proof.
  exists ex_world, ex_T0, ex_C_str, ex_C_s1, ex_C_s2, (the_world (after_crash ex_C_s1 TItems)),
    (the_world (after_crash ex_C_s1 TSize)), (the_world (after_crash ex_C_s2 TItems)), (the_world (after_crash ex_C_s2 TSize)).
  splits; [exact ex_new|wd| |wd|wd| |wd|wd].
  - refine (dead_at_ok 12 ex_C_str _ _). vm_compute; eauto.
  - refine (dead_at_ok 56 ex_C_str _ _). vm_compute; eauto.
Qed.

(** While it opens the base object as a queue, a process dies after it has made the new
    block the base object and before the block is set up (Queue.cc:31-38): the next process
    that opens the base object finds a queue that is broken; push_front() then overwrites
    the size of the pool, here with 448. *)
Definition ex_C_blk := the_world (ex_do ex_world 1 (create_prog ex_al (KBlob 8))).
Definition ex_C_qb := die_at ex_C_blk 0 26 (sa_lock ;; q_open_base ex_al)%prog.
Definition ex_C_q1 := the_world (run_by ex_C_qb 1 (under_lock true (sa_repair 10) (q_open_base ex_al))).
Definition ex_C_q2 := the_world (ex_do ex_C_q1 1 (op_prog ex_al 10 376 (QPush true [5; 6]))).
Theorem C54_queue_base_crash_refuted : exists W W0 Wc W1 W2 V o, started ex_lim W false /\ initialized W /\
  ex_do W 1 (create_prog ex_al (KBlob 8)) = WDone 344 W0 /\
  dies_in W0 0 (sa_lock ;; q_open_base ex_al)%prog Wc /\
  run_by Wc 1 (under_lock true (sa_repair 10) (q_open_base ex_al)) = WDone o W1 /\
  ex_do W1 1 (op_prog ex_al 10 o QVerify) = WExn RuntimeError V /\
  ex_do W1 1 (op_prog ex_al 10 o (QPush true [5; 6])) = WDone RUnit W2 /\
  w_size W1 = 4096 /\ w_size W2 = 448.
Proof.
  destruct ex_world_ok as (H1 & H2 & _).
  exists ex_world, ex_C_blk, ex_C_qb, ex_C_q1, ex_C_q2, (the_world (ex_do ex_C_q1 1 (op_prog ex_al 10 376 QVerify))), 376.
  splits; [exact H1|exact H2|wd| |wd| |wd|vm_compute; reflexivity|vm_compute; reflexivity].
  - refine (die_at_ok _ _ _ _ _). vm_compute; eauto.
  - raises.
Qed.

(** ** The hypotheses are met *)
Example C53_hypotheses_met : started ex_lim ex_world false /\ initialized ex_world /\
  2 ^ 62 <= Z.of_nat (Z.to_nat (2 ^ 62)).
Proof. destruct ex_world_ok as (H1 & H2 & _). refine (conj H1 (conj H2 _)). rewrite Z2Nat.id; [apply Z.le_refl|]. discriminate. Qed.
(** Two keys, "ab" and "abc"; process 0 dies in the middle of clear() and a part of the
    tree is left; process 1 takes over and goes on. *)
Definition ex_C_two := ex_tdo ex_C_str 0 (TInsert [97; 98; 99] (PInt 3) None).
Definition ex_C_cl := dead_at 126 ex_C_two TClear.
Definition ex_C_cl2 := the_world (run_by ex_C_cl 1 (under_lock true (sa_repair 3000) (Ret tt))).
Example C53_crash_not_trivial : exists W W0 W1 W2 Wc W3 W4 W5 W6, new_tree_in W W0 /\
  tree_run W0 0 (TInsert [97; 98] (PStr (repeat 7 20)) None) = WDone (RTree (TBool true)) W1 /\
  tree_run W1 0 (TInsert [97; 98; 99] (PInt 3) None) = WDone (RTree (TBool true)) W2 /\
  dies_in W2 0 (sa_lock ;; tree_code TClear)%prog Wc /\
  run_by Wc 1 (under_lock true (sa_repair 3000) (Ret tt)) = WDone tt W3 /\
  tree_run W3 1 TItems = WDone (RTree (TList [([97; 98; 99], PInt 3)])) W4 /\
  tree_run W3 1 (TIncr [97; 98; 99] 4) = WDone (RTree (TNum 7)) W5 /\
  tree_run W5 1 TClear = WDone (RTree TUnit) W6.
Proof.
  exists ex_world, ex_T0, ex_C_str, ex_C_two, ex_C_cl, ex_C_cl2, (ex_tdo ex_C_cl2 1 TItems), (ex_tdo ex_C_cl2 1 (TIncr [97; 98; 99] 4)),
    (ex_tdo (ex_tdo ex_C_cl2 1 (TIncr [97; 98; 99] 4)) 1 TClear).
  splits; [exact ex_new|wd|wd| |wd|wd|wd|wd].
  refine (dead_at_ok 126 ex_C_two _ _). vm_compute; eauto.
Qed.

(** A queue and a priority queue; process 0 dies in the middle of push_front() on the
    queue; process 1 takes over and pops from the priority queue. *)
Definition ex_C_push := die_at ex_S6 0 40 (sa_lock ;; op_prog ex_al 10 344 (QPush true [5; 6]))%prog.
Definition ex_C_over := the_world (run_by ex_C_push 1 (under_lock true (sa_repair 10) (Ret tt))).
Example C54_crash_not_trivial : exists W Wc W1 W2,
  dies_in W 0 (sa_lock ;; op_prog ex_al 10 344 (QPush true [5; 6]))%prog Wc /\
  Wc <> World (w_mem W) (w_fsize W) (w_lim W) (delete 0%nat (w_procs W)) /\
  run_by Wc 1 (under_lock true (sa_repair 10) (Ret tt)) = WDone tt W1 /\
  ex_do W1 1 (op_prog ex_al 10 416 PPop) = WDone (RBytes [7]) W2.
Proof.
  exists ex_S6, ex_C_push, ex_C_over, (the_world (ex_do ex_C_over 1 (op_prog ex_al 10 416 PPop))).
  splits; [| |wd|wd].
  - refine (die_at_ok _ _ _ _ _). vm_compute; eauto.
  - intros H. apply (f_equal (fun W => w_read W 0 4096)) in H. vm_compute in H. discriminate H.
Qed.

Print Assumptions C54_crash_spares_other_objects_partial.
Print Assumptions C54_queue_base_crash_refuted.
Print Assumptions C53_prefix_tree_survives_crashes_partial.
Print Assumptions C53_double_over_integer_refuted.
Print Assumptions C53_size_after_crash_refuted.
