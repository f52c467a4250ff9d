(** * Model of Queue (src/Queue.hh, src/Queue.cc).

    Layout (Queue.hh:64-79): QueueBase = item_count 0, total_value_bytes 8,
    front_node 16 (prev 16, next 24), back_node 32 (prev 32, next 40); 48 bytes.
    Node = prev_offset 0, next_offset 8, data 16...  The functions below are the
    bodies that run under the allocator's lock; [base] is [this->base_offset].
    Pointers into the pool are modelled by offsets.  Pointers are not kept across
    calls to allocate in this file, so remapping cannot invalidate them. *)
From Verif Require Export AllocModel.

Definition q_front (base : Z) : Z := base + 16.
Definition q_back (base : Z) : Z := base + 32.

(** Queue::setup_base_locked (Queue.cc:42-50). *)
Definition q_setup_base (base : Z) : prog unit :=
  store64 (q_front base) 0 ;;
  store64 (q_front base + 8) (q_back base) ;;
  store64 (q_back base) (q_front base) ;;
  store64 (q_back base + 8) 0.

(** allocate_object<QueueBase>() (Allocator.hh:37-42) with QueueBase::QueueBase
    (Queue.cc:190-192). *)
Definition q_alloc_base (al : allocator) : prog Z :=
  base <- al_allocate al 48 ;;
  store64 base 0 ;;
  store64 (base + 8) 0 ;;
  Ret base.

(** Queue::Queue(allocator) (Queue.cc:16-21). *)
Definition q_create (al : allocator) : prog Z :=
  base <- q_alloc_base al ;;
  q_setup_base base ;;
  Ret base.

(** Queue::Queue(allocator, base_offset), the part under the write lock when no
    base offset was given (Queue.cc:31-39). *)
Definition q_open_base (al : allocator) : prog Z :=
  b <- al_get_base al ;;
  if bool_decide (b = 0) then
    base <- q_alloc_base al ;;
    al_set_base al base ;;
    q_setup_base base ;;
    Ret base
  else Ret b.

(** Queue::link_node_locked (Queue.cc:60-71). *)
Definition q_link_node (al : allocator) (base new prev next : Z) : prog unit :=
  store64 new prev ;;
  store64 (new + 8) next ;;
  store64 (prev + 8) new ;;
  store64 next new ;;
  c <- load64 base ;;
  store64 base (u64 (c + 1)) ;;
  bs <- al_block_size al new ;;
  t <- load64 (base + 8) ;;
  store64 (base + 8) (u64 (t + (bs - 16))).

(** Queue::unlink_node_locked (Queue.cc:73-84). *)
Definition q_unlink_node (al : allocator) (base node : Z) : prog unit :=
  prev <- load64 node ;;
  next <- load64 (node + 8) ;;
  store64 (prev + 8) next ;;
  store64 next prev ;;
  c <- load64 base ;;
  store64 base (u64 (c - 1)) ;;
  bs <- al_block_size al node ;;
  t <- load64 (base + 8) ;;
  store64 (base + 8) (u64 (t - (bs - 16))).

(** Queue::create_node_locked (Queue.cc:86-92); allocate_object<Node>(size)
    value-initializes the two words of the node (Allocator.hh:37-42). *)
Definition q_create_node (al : allocator) (data : list Z) : prog Z :=
  new <- al_allocate al (u64 (16 + Z.of_nat (length data))) ;;
  store64 new 0 ;;
  store64 (new + 8) 0 ;;
  store_bytes (new + 16) data ;;
  Ret new.

(** Queue::push_back (Queue.cc:94-106), Queue::push_front (Queue.cc:108-120). *)
Definition q_push_back (al : allocator) (base : Z) (data : list Z) : prog unit :=
  new <- q_create_node al data ;;
  p <- load64 (q_back base) ;;
  q_link_node al base new p (q_back base).
Definition q_push_front (al : allocator) (base : Z) (data : list Z) : prog unit :=
  new <- q_create_node al data ;;
  n <- load64 (q_front base + 8) ;;
  q_link_node al base new (q_front base) n.
(** Queue::push (Queue.cc:122-136). *)
Definition q_push (al : allocator) (base : Z) (front : bool) (data : list Z) : prog unit :=
  if front then q_push_front al base data else q_push_back al base data.

(** The common tail of pop_back and pop_front (Queue.cc:147-152, 164-169). *)
Definition q_take (al : allocator) (base node : Z) : prog (list Z) :=
  q_unlink_node al base node ;;
  bs <- al_block_size al node ;;
  d <- load_bytes (node + 16) (Z.to_nat (u64 (bs - 16))) ;;
  al_free al node ;;
  Ret d.

(** Queue::pop_back (Queue.cc:138-153), Queue::pop_front (Queue.cc:155-170). *)
Definition q_pop_back (al : allocator) (base : Z) : prog (list Z) :=
  node <- load64 (q_back base) ;;
  p <- load64 node ;;
  if bool_decide (p = 0) then Throw OutOfRange else q_take al base node.
Definition q_pop_front (al : allocator) (base : Z) : prog (list Z) :=
  node <- load64 (q_front base + 8) ;;
  n <- load64 (node + 8) ;;
  if bool_decide (n = 0) then Throw OutOfRange else q_take al base node.
(** Queue::pop (Queue.cc:172-178). *)
Definition q_pop (al : allocator) (base : Z) (front : bool) : prog (list Z) :=
  if front then q_pop_front al base else q_pop_back al base.

(** Queue::size, Queue::bytes (Queue.cc:180-188). *)
Definition q_size (base : Z) : prog Z := load64 base.
Definition q_bytes (base : Z) : prog Z := load64 (base + 8).

(** Queue::verify (Queue.cc:194-241), without the printing; [count] starts at -2
    (Queue.cc:201-203). *)
Fixpoint q_verify_loop (al : allocator) (F : nat) (base cur prev count bytes : Z) : prog (Z * Z * Z) :=
  if bool_decide (cur = 0) then Ret (prev, count, bytes)
  else match F with
  | O => NoFuel
  | S F' =>
      n <- (if bool_decide (cur <> q_front base /\ cur <> q_back base)
            then bs <- al_block_size al cur ;; Ret (u64 (bs - 16)) else Ret 0) ;;
      p <- load64 cur ;;
      if bool_decide (p <> prev) then Throw RuntimeError
      else
        nx <- load64 (cur + 8) ;;
        q_verify_loop al F' base nx cur (u64 (count + 1)) (u64 (bytes + n))
  end.
Definition q_verify (al : allocator) (F : nat) (base : Z) : prog unit :=
  '(prev, count, bytes) <- q_verify_loop al F base (q_front base) 0 (u64 (-2)) 0 ;;
  if bool_decide (prev <> q_back base) then Throw RuntimeError
  else
    c <- load64 base ;;
    if bool_decide (count <> c) then Throw RuntimeError
    else
      b <- load64 (base + 8) ;;
      if bool_decide (bytes <> b) then Throw RuntimeError else Ret tt.
