(** * Property theorems for the number of slots of hash tables: C65 (BitsSpec.v). *)
From Verif Require Import SimpleSpec StructSpec SimpleMain StructStart LogSpec LogMain PropertiesStructLog HashTableModel BitsSpec BitsProof.
Open Scope Z_scope.

Section both.
  Context (hash : HashFn) (lim : Z) (W : world) (F : nat) (evs : list gevent).
  Context (Hi : initialized W) (HF : 2 ^ 62 <= Z.of_nat F).
  (** C65, over SimpleAllocator *)
  Theorem C65_hash_table_bits_partial : started lim W false ->
    sgame (simple_allocator F) simple_limits F
      (fun st => bits_never_change (simple_allocator F) simple_limits F st /\ few_bits_refused (simple_allocator F) st)
      bits_as_asked evs (GS W ∅ 0 true).
  Proof. intros Hs. exact (main_bits _ _ (simple_limits_ok F HF) F HF W evs (started_GInv _ _ _ _ Hs Hi)). Qed.
  (** C65, over LogarithmicAllocator *)
  Theorem C65_hash_table_bits_log_partial : log_started lim W ->
    sgame (log_allocator F) log_limits F
      (fun st => bits_never_change (log_allocator F) log_limits F st /\ few_bits_refused (log_allocator F) st)
      bits_as_asked evs (GS W ∅ 0 true).
  Proof. intros Hs. exact (main_bits _ _ (log_limits_ok F) F HF W evs (log_started_GInv _ _ _ Hs Hi)). Qed.
End both.

(** A table of 2 bits, to which an item is added by one process; another asks for the bits. *)
#[local] Existing Instance fnv1a64.
Definition ex_t0 := the_world (ex_do ex_world 0 (create_prog ex_al (KHash 2))).
Definition ex_t1 := the_world (ex_do ex_t0 0 (op_prog ex_al 10 344 (HInsert [1] [2] None))).
Ltac raises := match goal with |- ?r = WExn ?e ?w =>
  change w with (the_world r);
  assert (match r with WExn e' _ => Some e' | _ => None end = Some e) as Hraise by (vm_compute; reflexivity);
  revert Hraise; destruct r; intros Hraise; try discriminate Hraise; injection Hraise as ->; reflexivity end.
Example C65_case : exists W0 W1 W2 W3,
  ex_do ex_world 0 (create_prog ex_al (KHash 2)) = WDone 344 W0 /\
  ex_do W0 0 (op_prog ex_al 10 344 (HInsert [1] [2] None)) = WDone (RBool true) W1 /\
  ex_do W1 1 (h_bits 344) = WDone 2 W2 /\
  ex_do W1 1 (h_create ex_al 1) = WExn InvalidArgument W3.
Proof.
  exists ex_t0, ex_t1, (the_world (ex_do ex_t1 1 (h_bits 344))), (the_world (ex_do ex_t1 1 (h_create ex_al 1))).
  splits; [wd|wd|wd|raises].
Qed.

Print Assumptions C65_hash_table_bits_partial.
Print Assumptions C65_hash_table_bits_log_partial.
