(** * The Allocator interface (src/Allocator.hh:32-88) used by the data structures.

    The virtual functions of class Allocator as a record of programs; the data
    structures are modelled over this record and instantiated with both
    allocators. *)
From Verif Require Export PoolModel SimpleAllocModel.

Record allocator := Allocator {
  al_allocate : Z -> prog Z;          (* Allocator.hh:34 *)
  al_free : Z -> prog unit;           (* Allocator.hh:51 *)
  al_block_size : Z -> prog Z;        (* Allocator.hh:65 *)
  al_set_base : Z -> prog unit;       (* Allocator.hh:72 *)
  al_get_base : prog Z;               (* Allocator.hh:73 *)
  al_bytes_allocated : prog Z;        (* Allocator.hh:79 *)
  al_construct : prog unit            (* the allocator's constructor *)
}.

(** SimpleAllocator as an Allocator; [F] bounds its search loop. *)
Definition simple_allocator (F : nat) : allocator := {|
  al_allocate := sa_allocate F;
  al_free := sa_free;
  al_block_size := sa_block_size;
  al_set_base := sa_set_base;
  al_get_base := sa_get_base;
  al_bytes_allocated := sa_bytes_allocated;
  al_construct := sa_construct false F |}.
