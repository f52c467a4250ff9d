(** * Model of PriorityQueue (src/PriorityQueue.hh, src/PriorityQueue.cc).

    Layout (PriorityQueue.hh:60-66): QueueBase = count 0, allocated_count 8,
    array_offset 16; 24 bytes.  The functions are the bodies that run under the
    allocator's lock; [base] is [this->base_offset]. *)
From Verif Require Export AllocModel.

(** allocate_object<QueueBase>() with QueueBase::QueueBase (PriorityQueue.cc:146-149). *)
Definition pq_alloc_base (al : allocator) : prog Z :=
  base <- al_allocate al 24 ;;
  store64 base 0 ;;
  store64 (base + 8) 0 ;;
  store64 (base + 16) 0 ;;
  Ret base.
(** PriorityQueue::PriorityQueue(allocator) (PriorityQueue.cc:16-20). *)
Definition pq_create (al : allocator) : prog Z := pq_alloc_base al.
(** PriorityQueue::PriorityQueue(allocator, 0), the part under the write lock
    (PriorityQueue.cc:30-38). *)
Definition pq_open_base (al : allocator) : prog Z :=
  b <- al_get_base al ;;
  if bool_decide (b = 0) then
    base <- pq_alloc_base al ;;
    al_set_base al base ;;
    Ret base
  else Ret b.

(** memcmp on two byte strings of the same length: the sign of the first
    difference. *)
Fixpoint memcmp (a b : list Z) : comparison :=
  match a, b with
  | x :: a', y :: b' => match x ?= y with Eq => memcmp a' b' | r => r end
  | _, _ => Eq
  end.

(** PriorityQueue::less_locked (PriorityQueue.cc:167-181). *)
Definition pq_less (al : allocator) (a b : Z) : prog bool :=
  a_size <- al_block_size al a ;;
  b_size <- al_block_size al b ;;
  let n := Z.to_nat (if bool_decide (a_size < b_size) then a_size else b_size) in
  da <- load_bytes a n ;;
  db <- load_bytes b n ;;
  Ret match memcmp da db with
      | Lt => true
      | Gt => false
      | Eq => bool_decide (a_size < b_size)
      end.

(** PriorityQueue::sift_down_locked (PriorityQueue.cc:183-201).  The loop runs at
    most [target_index] times. *)
Fixpoint pq_sift_down_loop (al : allocator) (F : nat) (array start target displaced : Z) : prog unit :=
  if bool_decide (target > start) then
    match F with
    | O => NoFuel
    | S F' =>
      let parent := Z.shiftr (target - 1) 1 in
      pv <- load64 (array + 8 * parent) ;;
      l <- pq_less al displaced pv ;;
      if negb l then store64 (array + 8 * target) displaced
      else
        pv <- load64 (array + 8 * parent) ;;
        store64 (array + 8 * target) pv ;;
        pq_sift_down_loop al F' array start parent displaced
    end
  else store64 (array + 8 * target) displaced.
Definition pq_sift_down (al : allocator) (base start target : Z) : prog unit :=
  array <- load64 (base + 16) ;;
  displaced <- load64 (array + 8 * target) ;;
  pq_sift_down_loop al (S (Z.to_nat target)) array start target displaced.

(** PriorityQueue::sift_up_locked (PriorityQueue.cc:203-227).  The loop runs at most
    [count] times. *)
Fixpoint pq_sift_up_loop (al : allocator) (F : nat) (base array target : Z) : prog Z :=
  let left := u64 (2 * target + 1) in
  count <- load64 base ;;
  if bool_decide (left < count) then
    match F with
    | O => NoFuel
    | S F' =>
      let right := u64 (left + 1) in
      count <- load64 base ;;
      least <-
        (if bool_decide (right < count) then
           lv <- load64 (array + 8 * left) ;;
           rv <- load64 (array + 8 * right) ;;
           l <- pq_less al lv rv ;;
           Ret (if negb l then right else left)
         else Ret left) ;;
      v <- load64 (array + 8 * least) ;;
      store64 (array + 8 * target) v ;;
      pq_sift_up_loop al F' base array least
    end
  else Ret target.
Definition pq_sift_up (al : allocator) (base target : Z) : prog unit :=
  array <- load64 (base + 16) ;;
  displaced <- load64 (array + 8 * target) ;;
  count <- load64 base ;;
  t <- pq_sift_up_loop al (S (Z.to_nat count)) base array target ;;
  store64 (array + 8 * t) displaced ;;
  pq_sift_down al base target t.

(** The copying loop of push (PriorityQueue.cc:75-77), [n] elements from index [x]. *)
Fixpoint pq_copy (n : nat) (x old_array new_array : Z) : prog unit :=
  match n with
  | O => Ret tt
  | S n' =>
      v <- load64 (old_array + 8 * x) ;;
      store64 (new_array + 8 * x) v ;;
      pq_copy n' (x + 1) old_array new_array
  end.

(** PriorityQueue::push (PriorityQueue.cc:49-92). *)
Definition pq_push (al : allocator) (base : Z) (data : list Z) : prog unit :=
  ac <- load64 (base + 8) ;;
  count <- load64 base ;;
  '(new_ac, new_off) <-
    (if bool_decide (ac = 0) then
       o <- al_allocate al (32 * 8) ;; Ret (32, o)
     else if bool_decide (ac = count) then
       o <- al_allocate al (u64 (u64 (ac * 2) * 8)) ;; Ret (u64 (ac * 2), o)
     else o <- load64 (base + 16) ;; Ret (ac, o)) ;;
  arr <- load64 (base + 16) ;;
  (if bool_decide (new_off <> arr) then
     count <- load64 base ;;
     pq_copy (Z.to_nat count) 0 arr new_off ;;
     store64 (base + 16) new_off ;;
     store64 (base + 8) new_ac
   else Ret tt) ;;
  item <- al_allocate al (Z.of_nat (length data)) ;;
  store_bytes item data ;;
  arr <- load64 (base + 16) ;;
  count <- load64 base ;;
  store64 (arr + 8 * count) item ;;
  count <- load64 base ;;
  store64 base (u64 (count + 1)) ;;
  count <- load64 base ;;
  pq_sift_down al base 0 (u64 (count - 1)).

(** PriorityQueue::pop (PriorityQueue.cc:98-126). *)
Definition pq_pop (al : allocator) (base : Z) : prog (list Z) :=
  count <- load64 base ;;
  if bool_decide (count = 0) then Throw OutOfRange
  else
    item <-
      (if bool_decide (count = 1) then
         arr <- load64 (base + 16) ;;
         it <- load64 arr ;;
         store64 base 0 ;;
         Ret it
       else
         arr <- load64 (base + 16) ;;
         it <- load64 arr ;;
         l <- load64 (arr + 8 * (count - 1)) ;;
         store64 arr l ;;
         store64 base (u64 (count - 1)) ;;
         pq_sift_up al base 0 ;;
         Ret it) ;;
    n <- al_block_size al item ;;
    d <- load_bytes item (Z.to_nat n) ;;
    al_free al item ;;
    Ret d.

(** PriorityQueue::clear (PriorityQueue.cc:128-139). *)
Fixpoint pq_clear_loop (al : allocator) (n : nat) (array : Z) : prog unit :=
  match n with
  | O => Ret tt
  | S n' =>
      it <- load64 (array + 8 * Z.of_nat n') ;;
      al_free al it ;;
      pq_clear_loop al n' array
  end.
Definition pq_clear (al : allocator) (base : Z) : prog unit :=
  array <- load64 (base + 16) ;;
  count <- load64 base ;;
  store64 base 0 ;;
  pq_clear_loop al (Z.to_nat count) array.

(** PriorityQueue::size (PriorityQueue.cc:141-144). *)
Definition pq_size (base : Z) : prog Z := load64 base.
