(** * Model of SimpleAllocator (src/SimpleAllocator.hh, src/SimpleAllocator.cc).

    Offsets of the fields of [SimpleAllocator::Data] (SimpleAllocator.hh:43-57):
    size 0, initialized 8, data_lock 16..279 (ProcessReadWriteLock is 4 + 65*4 =
    264 bytes, ProcessLock.hh:13-33), base_object_offset 280, bytes_allocated 288,
    bytes_committed 296, head 304, tail 312; sizeof(Data) = 320.
    AllocatedBlock (SimpleAllocator.hh:64-70): prev 0, next 8, size 16; 24 bytes. *)
From Verif Require Export PoolModel.

Definition sa_initialized : Z := 8.
Definition sa_base : Z := 280.
Definition sa_bytes_alloc : Z := 288.
Definition sa_bytes_comm : Z := 296.
Definition sa_head : Z := 304.
Definition sa_tail : Z := 312.
Definition sa_sizeof_data : Z := 320.
Definition sa_hdr : Z := 24.

(** [x += d] on a [std::atomic<uint64_t>]. *)
Definition add64 (a d : Z) : prog unit :=
  v <- load64 a ;; store64 a (u64 (v + d)).

(** SimpleAllocator::AllocatedBlock::effective_size (SimpleAllocator.cc:263-265). *)
Definition sa_effective_size (b : Z) : prog Z :=
  sz <- load64 (b + 16) ;; Ret (round8 sz).

(** The search loop of SimpleAllocator::allocate (SimpleAllocator.cc:73-99):
    returns (candidate_offset, candidate_size, candidate_link_location). *)
Fixpoint sa_scan (F : nat) (needed cur coff csize clink : Z) : prog (Z * Z * Z) :=
  if bool_decide (cur = 0 \/ needed = csize) then Ret (coff, csize, clink)
  else
    match F with
    | O => NoFuel
    | S F' =>
      next <- load64 (cur + 8) ;;
      eff <- sa_effective_size cur ;;
      free <- (if bool_decide (next <> 0)
               then Ret (u64 (next - cur - eff - sa_hdr))
               else ps <- pool_size ;; Ret (u64 (ps - cur - eff - sa_hdr))) ;;
      if bool_decide (needed <= free /\ (csize < needed \/ free < csize))
      then sa_scan F' needed next (u64 (cur + sa_hdr + eff)) free cur
      else sa_scan F' needed next coff csize clink
    end.

(** Linking the new block: pointers (SimpleAllocator.cc:127-145). *)
Definition sa_link_ptrs (coff clink tail : Z) : prog unit :=
  if bool_decide (clink = 0) then
    h <- load64 sa_head ;;
    store64 (coff + 8) h ;;
    store64 coff 0 ;;
    store64 sa_head coff ;;
    n <- load64 (coff + 8) ;;
    store64 n coff
  else if bool_decide (clink = tail) then
    store64 (coff + 8) 0 ;;
    t <- load64 sa_tail ;;
    store64 coff t ;;
    p <- load64 coff ;;
    store64 (p + 8) coff ;;
    store64 sa_tail coff
  else
    next <- load64 (clink + 8) ;;
    store64 (coff + 8) next ;;
    store64 coff clink ;;
    store64 (clink + 8) coff ;;
    store64 next coff.

(** Creating and linking the new block (SimpleAllocator.cc:125-150). *)
Definition sa_link (size coff clink : Z) : prog Z :=
  store64 (coff + 16) size ;;
  tail <- load64 sa_tail ;;
  sa_link_ptrs coff clink tail ;;
  add64 sa_bytes_alloc size ;;
  eff <- sa_effective_size coff ;;
  add64 sa_bytes_comm (u64 (eff + sa_hdr)) ;;
  Ret (u64 (coff + sa_hdr)).

(** SimpleAllocator::allocate (SimpleAllocator.cc:32-151). *)
Definition sa_allocate (F : nat) (size : Z) : prog Z :=
  let needed := u64 (round8 size + sa_hdr) in
  head <- load64 sa_head ;;
  tail <- load64 sa_tail ;;
  if bool_decide (head = 0 /\ tail = 0) then
    ps <- load64 0 ;;
    (if bool_decide (u64 (ps - sa_sizeof_data) < needed)
     then pool_expand (u64 (needed + sa_sizeof_data)) else Ret tt) ;;
    store64 sa_sizeof_data 0 ;;
    store64 (sa_sizeof_data + 8) 0 ;;
    store64 (sa_sizeof_data + 16) size ;;
    store64 sa_head sa_sizeof_data ;;
    store64 sa_tail sa_sizeof_data ;;
    add64 sa_bytes_alloc size ;;
    eff <- sa_effective_size sa_sizeof_data ;;
    add64 sa_bytes_comm (u64 (eff + sa_hdr)) ;;
    Ret (sa_sizeof_data + sa_hdr)
  else
    '(coff, csize, clink) <-
       sa_scan F needed head sa_sizeof_data (u64 (head - sa_sizeof_data)) 0 ;;
    '(coff, clink) <-
      (if bool_decide (csize < needed) then
         t <- load64 sa_tail ;;
         eff <- sa_effective_size t ;;
         pool_expand (u64 (t + sa_hdr + eff + needed)) ;;
         t <- load64 sa_tail ;;
         eff <- sa_effective_size t ;;
         Ret (u64 (t + sa_hdr + eff), t)
       else Ret (coff, clink)) ;;
    sa_link size coff clink.

(** SimpleAllocator::free (SimpleAllocator.cc:153-176). *)
Definition sa_free (offset : Z) : prog unit :=
  ps <- pool_size ;;
  if bool_decide (offset < sa_sizeof_data \/ offset > u64 (ps - sa_hdr)) then Ret tt
  else
    let b := u64 (offset - sa_hdr) in
    sz <- load64 (b + 16) ;;
    add64 sa_bytes_alloc (- sz) ;;
    eff <- sa_effective_size b ;;
    add64 sa_bytes_comm (- (eff + sa_hdr)) ;;
    prev <- load64 b ;;
    next <- load64 (b + 8) ;;
    (if bool_decide (prev <> 0) then store64 (prev + 8) next
     else store64 sa_head next) ;;
    if bool_decide (next <> 0) then store64 next prev
    else store64 sa_tail prev.

(** SimpleAllocator::block_size (SimpleAllocator.cc:178-182). *)
Definition sa_block_size (offset : Z) : prog Z :=
  load64 (u64 (offset - sa_hdr) + 16).

(** SimpleAllocator::set_base_object_offset, base_object_offset
    (SimpleAllocator.cc:184-190). *)
Definition sa_set_base (offset : Z) : prog unit := store64 sa_base offset.
Definition sa_get_base : prog Z := load64 sa_base.

(** SimpleAllocator::bytes_allocated, bytes_free (SimpleAllocator.cc:192-199). *)
Definition sa_bytes_allocated : prog Z := load64 sa_bytes_alloc.
Definition sa_bytes_free : prog Z :=
  ps <- load64 0 ;; c <- load64 sa_bytes_comm ;; Ret (u64 (ps - c)).

(** SimpleAllocator::repair (SimpleAllocator.cc:238-261). *)
Fixpoint sa_repair_loop (F : nat) (prev block balloc bcomm : Z) : prog (Z * Z * Z) :=
  if bool_decide (block = 0) then Ret (prev, balloc, bcomm)
  else
    match F with
    | O => NoFuel
    | S F' =>
      store64 block prev ;;
      sz <- load64 (block + 16) ;;
      eff <- sa_effective_size block ;;
      next <- load64 (block + 8) ;;
      sa_repair_loop F' block next (u64 (balloc + sz)) (u64 (bcomm + eff + sa_hdr))
    end.
Definition sa_repair (F : nat) : prog unit :=
  h <- load64 sa_head ;;
  '(prev, balloc, bcomm) <- sa_repair_loop F 0 h 0 sa_sizeof_data ;;
  store64 sa_tail prev ;;
  store64 sa_bytes_alloc balloc ;;
  store64 sa_bytes_comm bcomm.

(** SimpleAllocator::lock (SimpleAllocator.cc:201-220) as seen by a process
    that obtains the lock: the pool is remapped before and after the lock is
    acquired; if the lock was stolen from a dead process, repair() runs before
    the caller's code.  The lock protocol itself is modelled in
    ProcessLockModel.v. *)
Definition sa_lock : prog unit := check_size_and_remap ;; check_size_and_remap.
Definition under_lock {A} (stolen : bool) (repair : prog unit) (op : prog A) : prog A :=
  sa_lock ;; (if stolen then repair else Ret tt) ;; op.

(** SimpleAllocator::SimpleAllocator (SimpleAllocator.cc:10-30).  [stolen]: the
    lock taken by the constructor had been left by a dead process. *)
Definition sa_init_body : prog unit :=
  i <- load64 sa_initialized ;;
  if bool_decide (i <> 0) then Ret tt
  else
    store64 sa_initialized 1 ;;
    store64 sa_base 0 ;;
    store64 sa_head 0 ;;
    store64 sa_tail 0 ;;
    store64 sa_bytes_alloc 0 ;;
    store64 sa_bytes_comm sa_sizeof_data.
Definition sa_construct (stolen : bool) (F : nat) : prog unit :=
  i <- load64 sa_initialized ;;
  if bool_decide (i <> 0) then Ret tt
  else under_lock stolen (sa_repair F) sa_init_body.
