(** * Functions that only take the lock for reading: what is claimed (C64). *)
From Verif Require Export ConcSpec.
From Verif Require Import LogAllocModel.
Open Scope Z_scope.

(** The file is the same, byte for byte, and so are the mappings of the other processes. *)
Definition file_unchanged (i : nat) (W W' : world) : Prop :=
  w_mem W' = w_mem W /\ w_fsize W' = w_fsize W /\ w_lim W' = w_lim W /\
  forall j, j <> i -> w_procs W' !! j = w_procs W !! j.
(** In every world, whatever the file contains: if the call returns, raises an exception or
    comes to nothing because its process dies at any point. *)
Definition writes_nothing {A} (p : prog A) : Prop :=
  forall W i,
  match run_by W i (sa_lock ;; p)%prog with
  | WDone _ W' | WExn _ W' => file_unchanged i W W'
  | WBad | WNoProc => True
  end /\
  forall W', dies_in W i (sa_lock ;; p)%prog W' -> file_unchanged i W W'.

(** C64: the operations that take the lock for reading ([op_writes], after the code), the
    functions that iterators use, and those of the allocators. *)
Definition readers_write_nothing {hash : HashFn} (al : allocator) (F : nat) : Prop :=
  (forall o x, op_writes x = false -> writes_nothing (op_prog al F o x)) /\
  (forall o, writes_nothing (h_bits o)) /\
  (forall o i, writes_nothing (h_slot_contents al F o i)) /\
  (forall o, writes_nothing (al_block_size al o)) /\
  writes_nothing (al_get_base al) /\
  writes_nothing (al_bytes_allocated al).
