(** * Model of HashTable and HashTableIterator (src/HashTable.hh, src/HashTable.cc).

    Layout (HashTable.hh:113-136): HashTableBase = bits 0, slots_offset 8,
    item_count 16; 24 bytes.  Slot = key_offset 0, key_size 8; 16 bytes.
    IndirectValue = next 0, key_offset 8, key_size 16; 24 bytes.  A slot whose
    key_offset is odd points to a list of IndirectValues.  The functions are the
    bodies that run under the allocator's lock; [base] is [this->base_offset].

    [hsh] stands for fnv1a64 (a library function); nothing is assumed about it.
    A pointer into the pool that is used after a call of allocate is undefined
    behaviour if the pool has been mapped anew in between: where the code keeps
    such pointers (only in incr), the model compares the remap counter. *)
From Verif Require Export AllocModel.

Notation len k := (Z.of_nat (length k)).

Section hash.
Context (al : allocator) (F : nat) (hsh : list Z -> Z).

(** [if (remapped since e0) undefined behaviour]. *)
Definition h_same_mapping (e0 : Z) : prog unit :=
  e <- get_epoch ;; if bool_decide (e = e0) then Ret tt else Undef.

(** The loop of create_hash_base over [n] slots (HashTable.cc:670-673). *)
Fixpoint h_clear_slots (n : nat) (a : Z) : prog unit :=
  match n with
  | O => Ret tt
  | S n' => store64 a 0 ;; store64 (a + 8) 0 ;; h_clear_slots n' (a + 16)
  end.

(** HashTable::create_hash_base (HashTable.cc:654-676); for [bits] up to 30, where
    [1 << bits] does not overflow. *)
Definition h_create (bits : Z) : prog Z :=
  if bool_decide (bits < 2) then Throw InvalidArgument
  else
    base <- al_allocate al 24 ;;
    slots <- al_allocate al (u64 (16 * Z.shiftl 1 bits)) ;;
    store64 base bits ;;
    store64 (base + 8) slots ;;
    store64 (base + 16) 0 ;;
    h_clear_slots (Z.to_nat (Z.shiftl 1 bits)) slots ;;
    Ret base.

(** HashTable::HashTable(allocator, 0, bits), the part under the write lock
    (HashTable.cc:27-34). *)
Definition h_open_base (bits : Z) : prog Z :=
  b <- al_get_base al ;;
  if bool_decide (b = 0) then
    base <- h_create bits ;;
    al_set_base al base ;;
    Ret base
  else Ret b.

(** [table->slots_offset + (hash & ((1 << table->bits) - 1)) * sizeof(Slot)]
    (HashTable.cc:86, 186, 427, 707). *)
Definition h_slot (base hash : Z) : prog Z :=
  slots <- load64 (base + 8) ;;
  bits <- load64 base ;;
  Ret (slots + 16 * Z.land hash (Z.shiftl 1 bits - 1)).

(** [(key_size == k_size) && !memcmp(p->at<void>(key_offset), k, k_size)]
    (HashTable.cc:102-103, 204-205, 438-439, 685-686, 718-719). *)
Definition h_match (key_offset key_size : Z) (k : list Z) : prog bool :=
  if bool_decide (key_size = len k) then
    d <- load_bytes key_offset (length k) ;; Ret (bool_decide (d = k))
  else Ret false.

(** HashTable::walk_indirect_list (HashTable.cc:678-695). *)
Fixpoint h_walk (G : nat) (prev cur : Z) (k : list Z) : prog (Z * Z) :=
  if bool_decide (cur = 0) then Ret (prev, cur)
  else match G with
  | O => NoFuel
  | S G' =>
      ks <- load64 (cur + 16) ;;
      ko <- load64 (cur + 8) ;;
      m <- h_match ko ks k ;;
      if (m : bool) then Ret (prev, cur)
      else nx <- load64 cur ;; h_walk G' cur nx k
  end.

(** HashTable::walk_tables (HashTable.cc:697-738): offset and size of the value,
    (0, 0) if the key is absent. *)
Definition h_find (base : Z) (k : list Z) : prog (Z * Z) :=
  so <- load64 (base + 8) ;;
  if bool_decide (so = 0) then Ret (0, 0)
  else
    slot <- h_slot base (hsh k) ;;
    ko <- load64 slot ;;
    if bool_decide (ko = 0) then Ret (0, 0)
    else if negb (Z.odd ko) then
      ks <- load64 (slot + 8) ;;
      m <- h_match ko ks k ;;
      if (m : bool) then
        bs <- al_block_size al ko ;; Ret (ko + ks, u64 (bs - ks))
      else Ret (0, 0)
    else
      '(_, cur) <- h_walk F 0 (Z.ldiff ko 1) k ;;
      if bool_decide (cur <> 0) then
        ko <- load64 (cur + 8) ;;
        ks <- load64 (cur + 16) ;;
        bs <- al_block_size al ko ;;
        Ret (ko + ks, u64 (bs - ks))
      else Ret (0, 0).

(** CheckRequest (HashTable.hh:40-56): the key to look at and the expected value,
    None for "must be absent" ([value == nullptr]). *)
Notation check := (list Z * option (list Z))%type.

(** HashTable::execute_check (HashTable.cc:740-753). *)
Definition h_check (base : Z) (c : check) : prog bool :=
  '(vo, vs) <- h_find base (fst c) ;;
  if bool_decide (vo <> 0) then
    match snd c with
    | None => Ret false
    | Some v =>
        if bool_decide (len v <> vs) then Ret false
        else d <- load_bytes vo (length v) ;; Ret (bool_decide (d = v))
    end
  else Ret (match snd c with None => true | Some _ => false end).
(** [check && !this->execute_check( *check )] (HashTable.cc:74, 417). *)
Definition h_allowed (base : Z) (c : option check) : prog bool :=
  match c with None => Ret true | Some c => h_check base c end.

(** [table->item_count += d]. *)
Definition h_count (base d : Z) : prog unit :=
  n <- load64 (base + 16) ;; store64 (base + 16) (u64 (n + d)).

(** HashTable::insert (HashTable.cc:68-159). *)
Definition h_insert (base : Z) (k v : list Z) (c : option check) : prog bool :=
  ok <- h_allowed base c ;;
  if negb ok then Ret false
  else
    kv <- al_allocate al (u64 (len k + len v)) ;;
    store_bytes kv k ;;
    store_bytes (kv + len k) v ;;
    slot <- h_slot base (hsh k) ;;
    ko <- load64 slot ;;
    if bool_decide (ko = 0) then
      store64 slot kv ;;
      store64 (slot + 8) (len k) ;;
      h_count base 1 ;;
      Ret true
    else if negb (Z.odd ko) then
      ks <- load64 (slot + 8) ;;
      m <- h_match ko ks k ;;
      if (m : bool) then
        al_free al ko ;;
        store64 slot kv ;;
        store64 (slot + 8) (len k) ;;
        Ret true
      else
        ex <- al_allocate al 24 ;;
        cr <- al_allocate al 24 ;;
        store64 cr 0 ;;
        store64 (cr + 8) kv ;;
        store64 (cr + 16) (len k) ;;
        store64 ex cr ;;
        ko <- load64 slot ;;
        store64 (ex + 8) ko ;;
        ks <- load64 (slot + 8) ;;
        store64 (ex + 16) ks ;;
        store64 slot (Z.lor ex 1) ;;
        store64 (slot + 8) 0 ;;
        h_count base 1 ;;
        Ret true
    else
      '(prev, cur) <- h_walk F 0 (Z.ldiff ko 1) k ;;
      if bool_decide (cur <> 0) then
        ko <- load64 (cur + 8) ;;
        al_free al ko ;;
        store64 (cur + 8) kv ;;
        store64 (cur + 16) (len k) ;;
        Ret true
      else
        cr <- al_allocate al 24 ;;
        store64 prev cr ;;
        store64 cr 0 ;;
        store64 (cr + 8) kv ;;
        store64 (cr + 16) (len k) ;;
        h_count base 1 ;;
        Ret true.

(** The update of a number: [upd size] is the function from the stored bytes to the
    new ones, None if the size is not supported; [vo], [vs] are v_offset and v_size
    (HashTable.cc:208-222, 260-274, 332-340, 378-386). *)
Definition h_update (upd : Z -> option (list Z -> list Z)) (vo vs : Z) : prog (list Z) :=
  match upd vs with
  | None => Throw OutOfRange
  | Some f =>
      old <- load_bytes vo (Z.to_nat vs) ;;
      store_bytes vo (f old) ;;
      load_bytes vo (Z.to_nat vs)
  end.

(** HashTable::incr (HashTable.cc:176-294 and 300-406); [new] is the 8-byte
    representation of delta.  The pointers [slot], [table], [created], [prev] of the
    code are used across the call of allocate for the new pair. *)
Definition h_incr (upd : Z -> option (list Z -> list Z)) (new : list Z) (base : Z) (k : list Z) : prog (list Z) :=
  e0 <- get_epoch ;;
  slot <- h_slot base (hsh k) ;;
  ko <- load64 slot ;;
  if bool_decide (ko = 0) then
    kv <- al_allocate al (u64 (len k + 8)) ;;
    h_same_mapping e0 ;;
    store64 slot kv ;;
    store_bytes kv k ;;
    store_bytes (kv + len k) new ;;
    store64 (slot + 8) (len k) ;;
    h_count base 1 ;;
    Ret new
  else if negb (Z.odd ko) then
    ks <- load64 (slot + 8) ;;
    m <- h_match ko ks k ;;
    if (m : bool) then
      bs <- al_block_size al ko ;;
      h_update upd (ko + ks) (u64 (bs - ks))
    else
      ex <- al_allocate al 24 ;;
      cr <- al_allocate al 24 ;;
      e1 <- get_epoch ;;
      store64 cr 0 ;;
      kv <- al_allocate al (u64 (len k + 8)) ;;
      h_same_mapping e1 ;;
      store64 (cr + 8) kv ;;
      store_bytes kv k ;;
      store_bytes (kv + len k) new ;;
      store64 (cr + 16) (len k) ;;
      store64 ex cr ;;
      ko <- load64 slot ;;
      store64 (ex + 8) ko ;;
      ks <- load64 (slot + 8) ;;
      store64 (ex + 16) ks ;;
      store64 slot (Z.lor ex 1) ;;
      store64 (slot + 8) 0 ;;
      h_count base 1 ;;
      Ret new
  else
    '(prev, cur) <- h_walk F 0 (Z.ldiff ko 1) k ;;
    if bool_decide (cur <> 0) then
      ko <- load64 (cur + 8) ;;
      ks <- load64 (cur + 16) ;;
      bs <- al_block_size al ko ;;
      h_update upd (u64 (ko + ko)) (u64 (bs - ks))
    else
      cr <- al_allocate al 24 ;;
      e1 <- get_epoch ;;
      store64 prev cr ;;
      store64 cr 0 ;;
      kv <- al_allocate al (u64 (len k + 8)) ;;
      h_same_mapping e1 ;;
      store64 (cr + 8) kv ;;
      store_bytes kv k ;;
      store_bytes (kv + len k) new ;;
      store64 (cr + 16) (len k) ;;
      h_count base 1 ;;
      Ret new.

(** incr(k, int64_t delta): sizes 1, 2, 4 and 8, two's complement.  Signed overflow
    is taken to wrap around (strictly it is undefined in C++). *)
Definition int_add (delta size : Z) : option (list Z -> list Z) :=
  if bool_decide (size = 1 \/ size = 2 \/ size = 4 \/ size = 8)
  then Some (fun old => le_bytes (Z.to_nat size) (le_val old + delta)) else None.
(** Two's complement reading. *)
Definition sval (d : list Z) : Z :=
  let m := 256 ^ len d in let x := le_val d in if decide (2 * x < m) then x else x - m.
Definition h_incr_int (base : Z) (k : list Z) (delta : Z) : prog Z :=
  d <- h_incr (int_add delta) (le_bytes 8 delta) base k ;; Ret (sval d).
(** incr(k, double delta): sizes 4 and 8; the floating-point addition is [fadd],
    about which nothing is assumed.  The result is the stored bytes. *)
Definition float_add (fadd : list Z -> list Z -> Z) (delta : list Z) (size : Z) : option (list Z -> list Z) :=
  if bool_decide (size = 4 \/ size = 8)
  then Some (fun old => le_bytes (Z.to_nat size) (fadd old delta)) else None.
Definition h_incr_float (fadd : list Z -> list Z -> Z) (base : Z) (k : list Z) (delta : list Z) : prog (list Z) :=
  h_incr (float_add fadd delta) delta base k.

(** HashTable::erase (HashTable.cc:412-489).  [deleted_offset] is always 0 when it
    is compared. *)
Definition h_erase (base : Z) (k : list Z) (c : option check) : prog bool :=
  ok <- h_allowed base c ;;
  if negb ok then Ret false
  else
    slot <- h_slot base (hsh k) ;;
    ko <- load64 slot ;;
    if bool_decide (ko = 0) then Ret false
    else if negb (Z.odd ko) then
      ks <- load64 (slot + 8) ;;
      m <- h_match ko ks k ;;
      if (m : bool) then
        al_free al ko ;;
        ko <- load64 slot ;;
        store64 slot 0 ;;
        store64 (slot + 8) 0 ;;
        h_count base (-1) ;;
        Ret (bool_decide (ko <> 0))
      else Ret false
    else
      '(prev, cur) <- h_walk F 0 (Z.ldiff ko 1) k ;;
      if bool_decide (cur <> 0) then
        nx <- load64 cur ;;
        (if bool_decide (prev <> 0) then store64 prev nx else store64 slot nx) ;;
        ko <- load64 (cur + 8) ;;
        al_free al ko ;;
        deleted <- load64 (cur + 8) ;;
        al_free al cur ;;
        ind <- load64 slot ;;
        (if bool_decide (ind = 0) then Ret tt
         else
           nx <- load64 ind ;;
           if bool_decide (nx = 0) then
             ko <- load64 (ind + 8) ;;
             store64 slot ko ;;
             ks <- load64 (ind + 16) ;;
             store64 (slot + 8) ks ;;
             al_free al ind
           else Ret tt) ;;
        h_count base (-1) ;;
        Ret (bool_decide (deleted <> 0))
      else Ret false.

(** HashTable::clear (HashTable.cc:495-533). *)
Fixpoint h_free_chain (G : nat) (ind : Z) : prog unit :=
  if bool_decide (ind = 0) then Ret tt
  else match G with
  | O => NoFuel
  | S G' =>
      nx <- load64 ind ;;
      ko <- load64 (ind + 8) ;;
      al_free al ko ;;
      al_free al ind ;;
      h_free_chain G' nx
  end.
Fixpoint h_clear_loop (n : nat) (slot : Z) : prog unit :=
  match n with
  | O => Ret tt
  | S n' =>
      ko <- load64 slot ;;
      (if bool_decide (ko = 0) then Ret tt
       else
         (if Z.odd ko then h_free_chain F (Z.ldiff ko 1) else al_free al ko) ;;
         store64 slot 0 ;;
         store64 (slot + 8) 0) ;;
      h_clear_loop n' (slot + 16)
  end.
Definition h_clear (base : Z) : prog unit :=
  slots <- load64 (base + 8) ;;
  bits <- load64 base ;;
  h_clear_loop (Z.to_nat (Z.shiftl 1 bits)) slots ;;
  store64 (base + 16) 0.

(** HashTable::exists, at, size, bits (HashTable.cc:535-562, 612-620). *)
Definition h_exists (base : Z) (k : list Z) : prog bool :=
  '(vo, _) <- h_find base k ;; Ret (bool_decide (vo <> 0)).
Definition h_at (base : Z) (k : list Z) : prog (list Z) :=
  '(vo, vs) <- h_find base k ;;
  if bool_decide (vo <> 0) then load_bytes vo (Z.to_nat vs) else Throw OutOfRange.
Definition h_size (base : Z) : prog Z := load64 (base + 16).
Definition h_bits (base : Z) : prog Z := b <- load64 base ;; Ret (b mod 256).

(** HashTable::get_slot_contents (HashTable.cc:564-602). *)
Definition h_read_pair (ko ks : Z) : prog (list Z * list Z) :=
  key <- load_bytes ko (Z.to_nat ks) ;;
  bs <- al_block_size al ko ;;
  value <- load_bytes (ko + ks) (Z.to_nat (u64 (bs - ks))) ;;
  Ret (key, value).
Fixpoint h_read_chain (G : nat) (ind : Z) : prog (list (list Z * list Z)) :=
  if bool_decide (ind = 0) then Ret []
  else match G with
  | O => NoFuel
  | S G' =>
      ko <- load64 (ind + 8) ;;
      ks <- load64 (ind + 16) ;;
      x <- h_read_pair ko ks ;;
      nx <- load64 ind ;;
      r <- h_read_chain G' nx ;;
      Ret (x :: r)
  end.
Definition h_slot_contents (base i : Z) : prog (list (list Z * list Z)) :=
  slots <- load64 (base + 8) ;;
  let slot := slots + i * 16 in
  ko <- load64 slot ;;
  if bool_decide (ko = 0) then Ret []
  else if negb (Z.odd ko) then
    ks <- load64 (slot + 8) ;;
    x <- h_read_pair ko ks ;;
    Ret [x]
  else h_read_chain F (Z.ldiff ko 1).

(** HashTableIterator (HashTable.cc:755-829): slot index, result index, contents of
    the current slot. *)
Record h_iter := HIter { hi_slot : Z; hi_index : nat; hi_items : list (list Z * list Z) }.

(** advance_to_nonempty_slot_if_needed (HashTable.cc:813-824). *)
Fixpoint h_advance (G : nat) (base : Z) (it : h_iter) : prog h_iter :=
  if bool_decide (length (hi_items it) <= hi_index it)%nat then
    match G with
    | O => NoFuel
    | S G' =>
        bits <- h_bits base ;;
        if bool_decide (hi_slot it + 1 < Z.shiftl 1 bits) then
          l <- h_slot_contents base (hi_slot it + 1) ;;
          h_advance G' base (HIter (hi_slot it + 1) 0 l)
        else Ret (HIter (hi_slot it + 1) 0 [])
    end
  else Ret it.
(** The constructor with slot index 0, i.e. begin() (HashTable.cc:604-606, 755-765). *)
Definition h_begin (base : Z) : prog h_iter :=
  bits <- h_bits base ;;
  if bool_decide (0 < Z.shiftl 1 bits) then
    l <- h_slot_contents base 0 ;;
    h_advance F base (HIter 0 0 l)
  else Ret (HIter 0 0 []).
(** operator++ (HashTable.cc:788-801). *)
Definition h_next (base : Z) (it : h_iter) : prog h_iter :=
  bits <- h_bits base ;;
  if bool_decide (Z.shiftl 1 bits <= hi_slot it) then Throw InvalidArgument
  else
    h_advance F base
      (HIter (hi_slot it)
         (if bool_decide (hi_index it < length (hi_items it))%nat then S (hi_index it) else hi_index it)
         (hi_items it)).
(** [it == end()] (HashTable.cc:608-610, 767-782): end() has slot index [1 << bits]
    and no contents. *)
Definition h_is_end (base : Z) (it : h_iter) : prog bool :=
  bits <- h_bits base ;;
  Ret (bool_decide (hi_slot it = Z.shiftl 1 bits /\ (length (hi_items it) <= hi_index it)%nat)).
(** [for (it = begin(); it != end(); ++it) use( *it )]: the pairs that are used. *)
Fixpoint h_iterate_from (G : nat) (base : Z) (it : h_iter) : prog (list (list Z * list Z)) :=
  e <- h_is_end base it ;;
  if (e : bool) then Ret []
  else match G with
  | O => NoFuel
  | S G' =>
      match hi_items it !! hi_index it with
      | None => Undef
      | Some x =>
          it' <- h_next base it ;;
          r <- h_iterate_from G' base it' ;;
          Ret (x :: r)
      end
  end.
Definition h_iterate (base : Z) : prog (list (list Z * list Z)) :=
  it <- h_begin base ;; h_iterate_from F base it.
End hash.
