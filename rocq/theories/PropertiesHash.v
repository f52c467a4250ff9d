(** * Property theorems for hash tables: C23-C26, over SimpleAllocator.

    The theorems hold for every hash function and every history (see
    PropertiesStruct.v).  [handled] in StructSpec.v leaves out the calls that the
    code gets wrong (the refutations below), [needs_steady_pool] those that are
    undefined behaviour if the pool may grow.  For C24 and C26 nothing else is left
    out; in C23 and C25 the missing cases belong to the property itself. *)
From Verif Require Import SimpleSpec StructSpec SimpleMain StructMain StructStart IterSpec IterProof.
Open Scope Z_scope.

Section simple.
  Context (hash : HashFn) (lim : Z) (W : world) (F : nat) (evs : list gevent).
  Context (Hs : started lim W false) (Hi : initialized W) (HF : 2 ^ 62 <= Z.of_nat F).

  (** C23, except for the erasures that [handled] leaves out. *)
  Theorem C23_hash_table_is_a_map_partial :
    sgame (simple_allocator F) simple_limits F (fun _ => True) hash_is_a_map evs (GS W ∅ 0 true).
  Proof. exact (main_hash_map _ _ (simple_limits_ok F HF) F HF W evs (started_GInv _ _ _ _ Hs Hi)). Qed.
  (** C24: conditional insert and erase, in the histories of C23. *)
  Theorem C24_hash_table_compare_and_set_partial :
    sgame (simple_allocator F) simple_limits F (fun _ => True) hash_compare_and_set evs (GS W ∅ 0 true).
  Proof. exact (main_hash_cas _ _ (simple_limits_ok F HF) F HF W evs (started_GInv _ _ _ _ Hs Hi)). Qed.
  (** C25, for keys whose slot is not a list, and in a pool that does not grow where
      the key is absent. *)
  Theorem C25_hash_table_incr_partial :
    sgame (simple_allocator F) simple_limits F (fun _ => True) hash_incr_adds evs (GS W ∅ 0 true).
  Proof. exact (main_hash_incr _ _ (simple_limits_ok F HF) F HF W evs (started_GInv _ _ _ _ Hs Hi)). Qed.
  (** C26, in the histories of C23. *)
  Theorem C26_hash_table_iteration_partial :
    sgame (simple_allocator F) simple_limits F (fun _ => True) hash_iteration evs (GS W ∅ 0 true).
  Proof. exact (main_hash_iteration _ _ (simple_limits_ok F HF) F HF W evs (started_GInv _ _ _ _ Hs Hi)). Qed.
  (** C60: iterations while others work, in the histories of C23. *)
  Theorem C60_hash_iteration_under_changes_partial :
    sgame (simple_allocator F) simple_limits F (iteration_under_changes (simple_allocator F) simple_limits F)
      (fun _ _ _ => True) evs (GS W ∅ 0 true).
  Proof. exact (main_iteration _ _ (simple_limits_ok F HF) F HF W evs (started_GInv _ _ _ _ Hs Hi)). Qed.
End simple.

(** ** Where C23 and C25 are false of the code *)
#[local] Existing Instance fnv1a64.
Definition ex_H0 := the_world (ex_do ex_world 0 (create_prog ex_al (KHash 2))).
Definition ex_hdo (W : world) (x : op) : world := the_world (ex_do W 0 (op_prog ex_al 10 344 x)).
Definition ex_H1 := ex_hdo ex_H0 (HInsert [0] [1] None).
Definition ex_H2 := ex_hdo ex_H1 (HInsert [4] [2] None).
Definition ex_H3 := ex_hdo ex_H2 (HInsert [8] [3] None).
Definition ex_H4 := ex_hdo ex_H3 (HErase [0] None).

(** Three keys in one slot; the first is erased; the others are no longer found,
    while size() counts them. *)
Theorem C23_erase_first_of_three_refuted : exists W W0 W1 W2 W3 W4 Wa Wb Wc o,
  started ex_lim W false /\ initialized W /\
  ex_do W 0 (create_prog ex_al (KHash 2)) = WDone o W0 /\
  ex_do W0 0 (op_prog ex_al 10 o (HInsert [0] [1] None)) = WDone (RBool true) W1 /\
  ex_do W1 0 (op_prog ex_al 10 o (HInsert [4] [2] None)) = WDone (RBool true) W2 /\
  ex_do W2 0 (op_prog ex_al 10 o (HInsert [8] [3] None)) = WDone (RBool true) W3 /\
  ex_do W3 0 (op_prog ex_al 10 o (HErase [0] None)) = WDone (RBool true) W4 /\
  ex_do W4 0 (op_prog ex_al 10 o (HExists [4])) = WDone (RBool false) Wa /\
  ex_do W4 0 (op_prog ex_al 10 o (HExists [8])) = WDone (RBool false) Wb /\
  ex_do W4 0 (op_prog ex_al 10 o HSize) = WDone (RNum 2) Wc.
Proof.
  exists ex_world, ex_H0, ex_H1, ex_H2, ex_H3, ex_H4,
    (ex_hdo ex_H4 (HExists [4])), (ex_hdo ex_H4 (HExists [8])), (ex_hdo ex_H4 HSize), 344.
  destruct ex_world_ok as (H1 & H2 & _). splits; first [exact H1|exact H2|wd].
Qed.

(** Two keys in one slot, the first at an offset that is a multiple of 256; the
    second is erased: the code frees a block that does not exist. *)
Definition ex_B0 := the_world (ex_do ex_H0 1 (create_prog ex_al (KBlob 8))).
Definition ex_B1 := ex_hdo ex_B0 (HInsert [0] [1] None).
Definition ex_B2 := ex_hdo ex_B1 (HInsert [4] [2] None).
Theorem C23_erase_second_of_two_refuted : exists W W0 W0' W1 W2 o b,
  started ex_lim W false /\ initialized W /\
  ex_do W 0 (create_prog ex_al (KHash 2)) = WDone o W0 /\
  ex_do W0 1 (create_prog ex_al (KBlob 8)) = WDone b W0' /\
  ex_do W0' 0 (op_prog ex_al 10 o (HInsert [0] [1] None)) = WDone (RBool true) W1 /\
  ex_do W1 0 (op_prog ex_al 10 o (HInsert [4] [2] None)) = WDone (RBool true) W2 /\
  ex_do W2 0 (op_prog ex_al 10 o (HErase [4] None)) = WBad.
Proof.
  exists ex_world, ex_H0, ex_B0, ex_B1, ex_B2, 344, 480.
  destruct ex_world_ok as (H1 & H2 & _). splits; first [exact H1|exact H2|wd|idtac].
  vm_compute. reflexivity.
Qed.

(** Two keys in one slot; incr of one returns a wrong number, leaves the stored
    number as it was, and changes a byte of another block. *)
Definition ex_N (n : Z) : bytes := [n; 0; 0; 0; 0; 0; 0; 0].
Definition ex_I1 := ex_hdo ex_H0 (HInsert [0] (ex_N 7) None).
Definition ex_I2 := ex_hdo ex_I1 (HInsert [4] (ex_N 8) None).
Definition ex_I3 := the_world (ex_do ex_I2 1 (create_prog ex_al (KBlob 600))).
Definition ex_I4 := ex_hdo ex_I3 (HIncr [0] 1).
Theorem C25_incr_in_chain_refuted : exists W W0 W1 W2 W3 W4 Wa o b,
  started ex_lim W false /\ initialized W /\
  ex_do W 0 (create_prog ex_al (KHash 2)) = WDone o W0 /\
  ex_do W0 0 (op_prog ex_al 10 o (HInsert [0] (ex_N 7) None)) = WDone (RBool true) W1 /\
  ex_do W1 0 (op_prog ex_al 10 o (HInsert [4] (ex_N 8) None)) = WDone (RBool true) W2 /\
  ex_do W2 1 (create_prog ex_al (KBlob 600)) = WDone b W3 /\
  ex_do W3 0 (op_prog ex_al 10 o (HIncr [0] 1)) = WDone (RNum 1) W4 /\
  ex_do W4 0 (op_prog ex_al 10 o (HAt [0])) = WDone (RBytes (ex_N 7)) Wa /\
  w_read W3 (b + 304) 1 = [0] /\ w_read W4 (b + 304) 1 = [1].
Proof.
  exists ex_world, ex_H0, ex_I1, ex_I2, ex_I3, ex_I4, (ex_hdo ex_I4 (HAt [0])), 344, 656.
  destruct ex_world_ok as (H1 & H2 & _). splits; first [exact H1|exact H2|wd|vm_compute; reflexivity].
Qed.

(** The hypotheses are met: [C17_hypotheses_met] in PropertiesStruct.v.  A history
    that the theorems cover: three keys in one slot, then the last is erased. *)
Definition ex_E4 := ex_hdo ex_H3 (HErase [8] None).
Definition ex_E5 := ex_hdo ex_E4 (HIncr [1] 300).
Example C23_history_not_trivial : exists W0 W1 W2 W3 W4 W5 Wa Wb,
  ex_do ex_world 0 (create_prog ex_al (KHash 2)) = WDone 344 W0 /\
  ex_do W0 0 (op_prog ex_al 10 344 (HInsert [0] [1] None)) = WDone (RBool true) W1 /\
  ex_do W1 0 (op_prog ex_al 10 344 (HInsert [4] [2] None)) = WDone (RBool true) W2 /\
  ex_do W2 0 (op_prog ex_al 10 344 (HInsert [8] [3] None)) = WDone (RBool true) W3 /\
  ex_do W3 0 (op_prog ex_al 10 344 (HErase [8] None)) = WDone (RBool true) W4 /\
  ex_do W4 0 (op_prog ex_al 10 344 (HIncr [1] 300)) = WDone (RNum 300) W5 /\
  ex_do W5 0 (op_prog ex_al 10 344 (HInsert [4] [9] (Some ([0], Some [2])))) = WDone (RBool false) Wa /\
  ex_do W5 0 (op_prog ex_al 10 344 HItems) = WDone (RPairs [([1], [44; 1; 0; 0; 0; 0; 0; 0]); ([0], [1]); ([4], [2])]) Wb.
Proof.
  exists ex_H0, ex_H1, ex_H2, ex_H3, ex_E4, ex_E5,
    (ex_hdo ex_E5 (HInsert [4] [9] (Some ([0], Some [2])))), (ex_hdo ex_E5 HItems).
  splits; wd.
Qed.

(** An iteration over the keys [0], [4], [8] (the last slot of four).  Before its fourth call
    another process inserts [1] (first slot) and [3] (third slot); before the eleventh it erases
    [8].  It visits [3] and [8], but not [1]. *)
Fixpoint iterate_with {A} (c : client A) (W : world) (between : list (list op)) : option A :=
  match c with
  | Finish a => Some a
  | Wrong => None
  | Call p k =>
      let W1 := fold_left (fun W x => the_world (ex_do W 1 (op_prog ex_al 10 344 x))) (hd [] between) W in
      match ex_do W1 0 p with WDone b W2 => iterate_with (k b) W2 (tl between) | _ => None end
  end.
Example C60_case :
  iterate_with (ih_iterate ex_al 10 10 344) ex_H3
    [[]; []; []; [HInsert [1] [5] None; HInsert [3] [6] None]; []; []; []; []; []; []; [HErase [8] None]] =
  Some (true, [([3], [6]); ([0], [1]); ([4], [2]); ([8], [3])]).
Proof. vm_compute. reflexivity. Qed.

Print Assumptions C60_hash_iteration_under_changes_partial.
Print Assumptions C23_hash_table_is_a_map_partial.
Print Assumptions C24_hash_table_compare_and_set_partial.
Print Assumptions C25_hash_table_incr_partial.
Print Assumptions C26_hash_table_iteration_partial.
Print Assumptions C23_erase_first_of_three_refuted.
Print Assumptions C25_incr_in_chain_refuted.
