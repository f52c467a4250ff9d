(** * Model of LogarithmicAllocator (src/LogarithmicAllocator.hh, src/LogarithmicAllocator.cc).

    Offsets of the fields of [LogarithmicAllocator::Data] (LogarithmicAllocator.hh:34-52):
    size 0, initialized 8, data_lock 16..279, base_object_offset 280,
    bytes_allocated 288, bytes_committed 296, free_head[54] 304, free_tail[54] 736;
    sizeof(Data) = 1168.  FreeBlock (LogarithmicAllocator.hh:57-65): the word at 0 has
    the allocated flag in bit 63, the order in bits 57..62 and prev below; next at 8.
    AllocatedBlock (LogarithmicAllocator.hh:67-73): the word at 0 has the allocated flag
    in bit 63 and the size below; 8 bytes.

    Array accesses beyond the bounds of free_head and free_tail (the code makes
    them, see [la_search] and [la_init_body]) are modelled as accesses of the flat
    memory, which is what compilers make of them. *)
From Verif Require Export AllocModel.
Open Scope Z_scope.

Definition la_sizeof_data : Z := 1168.
(** minimum_order, maximum_order (LogarithmicAllocator.cc:658-659). *)
Definition la_min : Z := 4.
Definition la_max : Z := 57.
(** &free_head[order - minimum_order], &free_tail[order - minimum_order]. *)
Definition la_head (order : Z) : Z := 304 + 8 * (order - la_min).
Definition la_tail (order : Z) : Z := 736 + 8 * (order - la_min).

(** FreeBlock::prev, order, allocated (LogarithmicAllocator.cc:15-25). *)
Definition fb_prev (w : Z) : Z := Z.land w (2 ^ 57 - 1).
Definition fb_order (w : Z) : Z := Z.land (Z.shiftr w 57) 63.
Definition fb_allocated (w : Z) : bool := Z.odd (Z.shiftr w 63).
(** AllocatedBlock::size (LogarithmicAllocator.cc:27-29). *)
Definition ab_size (w : Z) : Z := Z.land w (2 ^ 63 - 1).

(** size_for_order (LogarithmicAllocator.cc:36-38): [1 << order] is computed as an int
    and then sign-extended. *)
Definition size_for_order (order : Z) : prog Z :=
  if bool_decide (0 <= order <= 30) then Ret (2 ^ order)
  else if bool_decide (order = 31) then Ret (2 ^ 64 - 2 ^ 31)
  else Undef.

(** order_for_size (LogarithmicAllocator.cc:41-50), largest_order_within_size
    (LogarithmicAllocator.cc:53-55); [63 - clz x] is the binary logarithm.  The result
    of clz(0) is undefined; here it is such that the logarithm is 0. *)
Definition order_for_size (size : Z) : Z :=
  if bool_decide (Z.land size (u64 (size - 1)) = 0) then Z.log2 size else Z.log2 size + 1.
Definition largest_order_within_size (size : Z) : Z := Z.log2 size.
(** order_alignment_of_size (LogarithmicAllocator.cc:58-62). *)
Definition order_alignment_of_size (offset : Z) : Z :=
  order_for_size (Z.shiftr (u64 (Z.lxor offset (u64 (offset - 1)) + 1)) 1).
(** next_order_boundary(sizeof(Data), minimum_order) (LogarithmicAllocator.cc:65-71):
    1168 is a multiple of 16. *)
Definition la_start : Z := 1168.

(** create_free_block (LogarithmicAllocator.cc:281-299); a failing assert aborts. *)
Definition la_create_free_block (offset order : Z) : prog unit :=
  t <- load64 (la_tail order) ;;
  store64 offset (Z.lor (u64 (Z.shiftl order 57)) t) ;;
  store64 (offset + 8) 0 ;;
  t <- load64 (la_tail order) ;;
  if bool_decide (t <> 0) then
    w <- load64 t ;;
    if bool_decide (fb_order w <> order) then Undef
    else
      store64 (t + 8) offset ;;
      store64 (la_tail order) offset
  else
    store64 (la_head order) offset ;;
    store64 (la_tail order) offset.

(** create_free_blocks (LogarithmicAllocator.cc:301-323): the two loops.  [F] bounds
    the number of blocks. *)
Fixpoint la_create_shrinking (F : nat) (offset end_offset : Z) : prog unit :=
  if bool_decide (offset < end_offset) then
    match F with
    | O => NoFuel
    | S F' =>
        let order := largest_order_within_size (end_offset - offset) in
        la_create_free_block offset order ;;
        os <- size_for_order order ;;
        la_create_shrinking F' (u64 (offset + os)) end_offset
    end
  else Ret tt.
Fixpoint la_create_growing (F : nat) (offset end_offset : Z) : prog unit :=
  if bool_decide (offset < end_offset) then
    match F with
    | O => NoFuel
    | S F' =>
        let order := order_alignment_of_size offset in
        os <- size_for_order order ;;
        if bool_decide (u64 (offset + os) > end_offset) then la_create_shrinking F offset end_offset
        else
          la_create_free_block offset order ;;
          la_create_growing F' (u64 (offset + os)) end_offset
    end
  else Ret tt.
Definition la_create_free_blocks (offset size : Z) : prog unit :=
  la_create_growing 128 offset (u64 (offset + size)).

(** unlink_block (LogarithmicAllocator.cc:402-417). *)
Definition la_unlink (b : Z) : prog unit :=
  w <- load64 b ;;
  let order := fb_order w in
  nx <- load64 (b + 8) ;;
  (if bool_decide (nx <> 0)
   then store64 nx (Z.lor (u64 (Z.shiftl order 57)) (fb_prev w))
   else store64 (la_tail order) (fb_prev w)) ;;
  w <- load64 b ;;
  nx <- load64 (b + 8) ;;
  if bool_decide (fb_prev w <> 0)
  then store64 (fb_prev w + 8) nx
  else store64 (la_head order) nx.

(** merge_blocks_at (LogarithmicAllocator.cc:354-400); the return value, the offset
    plus order_for_size(order), is what the code computes.  At most 64 rounds. *)
Fixpoint la_merge_loop (F : nat) (b order : Z) : prog (Z * Z) :=
  match F with
  | O => NoFuel
  | S F' =>
      os <- size_for_order order ;;
      let other := Z.lxor b os in
      if bool_decide (other < la_start) then Ret (b, order)
      else
        sz <- load64 0 ;;
        if bool_decide (u64 (other + os) > sz) then Ret (b, order)
        else
          w <- load64 other ;;
          if fb_allocated w then Ret (b, order)
          else if bool_decide (fb_order w <> order) then Ret (b, order)
          else
            la_unlink other ;;
            la_merge_loop F' (if bool_decide (other < b) then other else b) (order + 1)
  end.
Definition la_merge_blocks_at (b : Z) : prog Z :=
  w <- load64 b ;;
  la_unlink b ;;
  '(b, order) <- la_merge_loop 64 b (fb_order w) ;;
  la_create_free_block b order ;;
  Ret (u64 (b + order_for_size order)).

(** The search of allocate for an order with a free block
    (LogarithmicAllocator.cc:113-119): the result is at most [maximum_order + 1]. *)
Fixpoint la_search (F : nat) (order : Z) : prog Z :=
  h <- load64 (la_head order) ;;
  if bool_decide (h = 0 /\ order <= la_max) then
    match F with O => NoFuel | S F' => la_search F' (order + 1) end
  else Ret order.
(** Splitting (LogarithmicAllocator.cc:125-135). *)
Fixpoint la_split (F : nat) (split_order needed_order : Z) : prog unit :=
  if bool_decide (split_order > needed_order) then
    match F with
    | O => NoFuel
    | S F' =>
        let new_order := split_order - 1 in
        h <- load64 (la_head split_order) ;;
        os <- size_for_order new_order ;;
        let new_block := u64 (h + os) in
        la_unlink h ;;
        la_create_free_block h new_order ;;
        la_create_free_block new_block new_order ;;
        la_split F' (split_order - 1) needed_order
    end
  else Ret tt.
(** The check of the blocks at the end of the pool (LogarithmicAllocator.cc:196-213). *)
Fixpoint la_end_scan (F : nat) (original_size b order : Z) : prog (Z * Z) :=
  if bool_decide (order >= la_min /\ b < original_size) then
    match F with
    | O => NoFuel
    | S F' =>
        w <- load64 b ;;
        if fb_allocated w then Ret (b, order)
        else if bool_decide (fb_order w <> order) then Ret (b, order)
        else
          os <- size_for_order order ;;
          la_end_scan F' original_size (u64 (b + os)) (order - 1)
    end
  else Ret (b, order).
(** LogarithmicAllocator.cc:242-248. *)
Fixpoint la_unlink_end (F : nat) (order original_size b : Z) : prog unit :=
  if bool_decide (b < original_size) then
    match F with
    | O => NoFuel
    | S F' =>
        la_unlink b ;;
        os <- size_for_order order ;;
        la_unlink_end F' order original_size (u64 (b + os))
    end
  else Ret tt.

(** The part of allocate that takes the first free block of its order
    (LogarithmicAllocator.cc:137-154). *)
Definition la_take (size order : Z) : prog Z :=
  b <- load64 (la_head order) ;;
  nx <- load64 (b + 8) ;;
  store64 (la_head order) nx ;;
  nx <- load64 (b + 8) ;;
  (if bool_decide (nx <> 0) then store64 nx (u64 (Z.shiftl order 57))
   else store64 (la_tail order) 0) ;;
  add64 sa_bytes_alloc size ;;
  os <- size_for_order order ;;
  add64 sa_bytes_comm os ;;
  store64 b (Z.lor size (2 ^ 63)) ;;
  Ret (u64 (b + 8)).
(** The part of allocate that expands the pool (LogarithmicAllocator.cc:157-278). *)
Definition la_grow (size order : Z) : prog Z :=
  original_size <- pool_size ;;
  os <- size_for_order order ;;
  let base := Z.ldiff original_size (u64 (os - 1)) in
  '(b, border) <- la_end_scan 64 original_size base (largest_order_within_size (u64 (original_size - base))) ;;
  let ab := if bool_decide (b >= original_size) then base else u64 (base + os) in
  pool_expand (u64 (ab + os)) ;;
  (if bool_decide (b >= original_size) then la_unlink_end 4096 border original_size ab else Ret tt) ;;
  store64 ab (Z.lor size (2 ^ 63)) ;;
  (if bool_decide (ab > original_size) then
     la_create_free_blocks original_size (ab - original_size) ;;
     la_merge_blocks_at original_size ;;
     Ret tt
   else Ret tt) ;;
  let ae := u64 (ab + os) in
  sz <- load64 0 ;;
  la_create_free_blocks ae (u64 (sz - ae)) ;;
  add64 sa_bytes_alloc size ;;
  add64 sa_bytes_comm os ;;
  Ret (u64 (ab + 8)).
(** LogarithmicAllocator::allocate (LogarithmicAllocator.cc:103-279).  The order is
    never negative. *)
Definition la_allocate (size : Z) : prog Z :=
  let order := order_for_size (u64 (size + 8)) in
  so <- la_search 64 order ;;
  if bool_decide (so < la_max) then
    la_split 64 so order ;;
    la_take size order
  else la_grow size order.

(** LogarithmicAllocator::free (LogarithmicAllocator.cc:325-352). *)
Definition la_free (offset : Z) : prog unit :=
  sz <- load64 0 ;;
  if bool_decide (offset < la_sizeof_data + 8 \/ offset > sz) then Ret tt
  else
    let b := u64 (offset - 8) in
    w <- load64 b ;;
    if negb (fb_allocated w) then Ret tt
    else
      let n := ab_size w in
      let order := order_for_size (u64 (n + 8)) in
      os <- size_for_order order ;;
      add64 sa_bytes_alloc (- n) ;;
      add64 sa_bytes_comm (- os) ;;
      la_create_free_block b order ;;
      la_merge_blocks_at b ;;
      Ret tt.

(** block_size, set_base_object_offset, base_object_offset, bytes_allocated, bytes_free
    (LogarithmicAllocator.cc:419-440). *)
Definition la_block_size (offset : Z) : prog Z :=
  w <- load64 (u64 (offset - 8)) ;; Ret (ab_size w).
Definition la_set_base (offset : Z) : prog unit := store64 sa_base offset.
Definition la_get_base : prog Z := load64 sa_base.
Definition la_bytes_allocated : prog Z := load64 sa_bytes_alloc.
Definition la_bytes_free : prog Z :=
  ps <- load64 0 ;; c <- load64 sa_bytes_comm ;; Ret (u64 (ps - c)).

(** Storing 0 into [n] consecutive words. *)
Fixpoint clear_words (n : nat) (a : Z) : prog unit :=
  match n with
  | O => Ret tt
  | S n' => store64 a 0 ;; clear_words n' (a + 8)
  end.
(** LogarithmicAllocator::repair (LogarithmicAllocator.cc:566-621).  The second pass
    does nothing, since [offset] is already at the end of the pool. *)
Fixpoint la_repair_loop (F : nat) (offset ba bc : Z) : prog (Z * Z) :=
  sz <- load64 0 ;;
  if bool_decide (offset < sz) then
    match F with
    | O => NoFuel
    | S F' =>
        w <- load64 offset ;;
        if fb_allocated w then
          let order := order_for_size (u64 (ab_size w + 8)) in
          os <- size_for_order order ;;
          la_repair_loop F' (u64 (offset + os)) (u64 (ba + ab_size w)) (u64 (bc + os))
        else
          let order := fb_order w in
          la_create_free_block offset order ;;
          os <- size_for_order order ;;
          la_repair_loop F' (u64 (offset + os)) ba bc
    end
  else Ret (ba, bc).
Definition la_repair (F : nat) : prog unit :=
  clear_words 53 304 ;;
  clear_words 53 736 ;;
  '(ba, bc) <- la_repair_loop F la_start 0 la_start ;;
  store64 sa_bytes_alloc ba ;;
  store64 sa_bytes_comm bc.

(** LogarithmicAllocator::LogarithmicAllocator (LogarithmicAllocator.cc:73-101).  The
    loop clears 60 elements of each array, six more than there are; the order of the
    stores does not matter. *)
Definition la_init_body : prog unit :=
  i <- load64 sa_initialized ;;
  if bool_decide (i <> 0) then Ret tt
  else
    store64 sa_initialized 1 ;;
    store64 sa_base 0 ;;
    store64 sa_bytes_alloc 0 ;;
    store64 sa_bytes_comm la_start ;;
    clear_words 60 304 ;;
    clear_words 60 736 ;;
    sz <- load64 0 ;;
    la_create_free_blocks la_start (u64 (sz - la_start)).
Definition la_construct (stolen : bool) (F : nat) : prog unit :=
  i <- load64 sa_initialized ;;
  if bool_decide (i <> 0) then Ret tt
  else under_lock stolen (la_repair F) la_init_body.

(** next_order_boundary (LogarithmicAllocator.cc:65-71). *)
Definition next_order_boundary (offset order : Z) : prog Z :=
  os <- size_for_order order ;;
  let mask := u64 (os - 1) in
  Ret (if bool_decide (Z.land offset mask <> 0) then Z.ldiff (u64 (offset + mask)) mask else offset).
(** LogarithmicAllocator::verify (LogarithmicAllocator.cc:474-564), without its lock; it
    throws runtime_error when a check fails.  The texts of the exceptions are left out.
    The first loop (LogarithmicAllocator.cc:482-519): the blocks; its result are the
    sums of the sizes and of the lengths of the allocated blocks. *)
Fixpoint la_verify_blocks (F : nat) (offset ba bc : Z) : prog (Z * Z) :=
  sz <- load64 0 ;;
  if bool_decide (offset < sz) then
    match F with
    | O => NoFuel
    | S F' =>
        w <- load64 offset ;;
        if fb_allocated w then
          os <- size_for_order (order_for_size (u64 (ab_size w + 8))) ;;
          let next_offset := u64 (offset + os) in
          if bool_decide (next_offset <= offset) then Throw RuntimeError
          else la_verify_blocks F' next_offset (u64 (ba + ab_size w)) (u64 (bc + os))
        else if bool_decide (fb_order w < la_min \/ fb_order w > la_max) then Throw RuntimeError
        else
          p <- next_order_boundary (fb_prev w) (fb_order w) ;;
          if bool_decide (p <> fb_prev w) then Throw RuntimeError
          else
            nx <- load64 (offset + 8) ;;
            q <- next_order_boundary nx (fb_order w) ;;
            if bool_decide (q <> nx) then Throw RuntimeError
            else
              os <- size_for_order (fb_order w) ;;
              let next_offset := u64 (offset + os) in
              if bool_decide (next_offset <= offset) then Throw RuntimeError
              else la_verify_blocks F' next_offset ba bc
    end
  else Ret (ba, bc).
(** The free list of one order (LogarithmicAllocator.cc:536-556); the result is the
    last block, or 0. *)
Fixpoint la_verify_list (F : nat) (order offset prev_offset : Z) : prog Z :=
  if bool_decide (offset = 0) then Ret prev_offset
  else
    match F with
    | O => NoFuel
    | S F' =>
        w <- load64 offset ;;
        if bool_decide (fb_order w <> order) then Throw RuntimeError
        else if fb_allocated w then Throw RuntimeError
        else if bool_decide (fb_prev w <> prev_offset) then Throw RuntimeError
        else
          nx <- load64 (offset + 8) ;;
          la_verify_list F' order nx offset
    end.
(** The loop over the orders (LogarithmicAllocator.cc:533-563): [n] orders from [order]
    on. *)
Fixpoint la_verify_lists (F n : nat) (order : Z) : prog unit :=
  match n with
  | O => Ret tt
  | S n' =>
      h <- load64 (la_head order) ;;
      p <- la_verify_list F order h 0 ;;
      t <- load64 (la_tail order) ;;
      if bool_decide (t <> p) then Throw RuntimeError
      else la_verify_lists F n' (order + 1)
  end.
(** LogarithmicAllocator.cc:478-563; the last order, maximum_order, is not looked at. *)
Definition la_verify (F : nat) : prog unit :=
  '(ba, bc) <- la_verify_blocks F la_start 0 la_start ;;
  a <- load64 sa_bytes_alloc ;;
  if bool_decide (a <> ba) then Throw RuntimeError
  else
    c <- load64 sa_bytes_comm ;;
    if bool_decide (c <> bc) then Throw RuntimeError
    else la_verify_lists F 53 la_min.

(** LogarithmicAllocator as an Allocator. *)
Definition log_allocator (F : nat) : allocator := {|
  al_allocate := la_allocate;
  al_free := la_free;
  al_block_size := la_block_size;
  al_set_base := la_set_base;
  al_get_base := la_get_base;
  al_bytes_allocated := la_bytes_allocated;
  al_construct := la_construct false F |}.
