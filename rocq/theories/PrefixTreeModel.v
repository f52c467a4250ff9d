(** * Model of PrefixTree and PrefixTreeIterator (src/PrefixTree.hh, src/PrefixTree.cc).

    Layout (PrefixTree.hh:205-277): TreeBase = item_count 0, node_count 8, root 16.
    Node = start 0, end 1, parent_slot 2 (one byte each), unused 3..8, value 8,
    children 16 (8 bytes each, for the characters from start to end).  The low three
    bits of a slot are the type of its contents (PrefixTree.hh:226-270).  The
    functions are the bodies that run under the allocator's lock; [base] is
    [this->base_offset].  No pointer into the pool is used after a call of allocate
    without being computed anew (PrefixTree.cc:1004-1006, 1055).

    Doubles are represented by their 64 bits; their addition is a parameter. *)
From Verif Require Export AllocModel TreeSpec.
Open Scope Z_scope.
Open Scope prog_scope.

(** PrefixTree::value_for_contents, type_for_contents, int_value_for_contents
    (PrefixTree.cc:1432-1446). *)
Definition t_value (c : Z) : Z := Z.ldiff c 7.
Definition t_type (c : Z) : Z := Z.land c 7.
Definition t_int (c : Z) : Z :=
  let v := Z.shiftr (t_value c) 3 in if Z.testbit v 60 then wrap64 (Z.lor v (14 * 2 ^ 60)) else v.
(** [high_bits == 0x00 || high_bits == 0x0F] (PrefixTree.cc:210-211, 394-395). *)
Definition t_small (v : Z) : bool :=
  let h := Z.land (Z.shiftr v 60) 15 in bool_decide (h = 0) || bool_decide (h = 15).
(** The loop that packs a short string (PrefixTree.cc:102-105). *)
Fixpoint t_pack (v shift : Z) (s : list Z) : Z :=
  match s with [] => v | x :: s' => t_pack (Z.lor v (Z.shiftl x shift)) (shift - 8) s' end.
(** The loop that unpacks it (PrefixTree.cc:1238-1242). *)
Fixpoint t_unpack (n : nat) (c shift : Z) : list Z :=
  match n with O => [] | S n' => Z.land (Z.shiftr c shift) 255 :: t_unpack n' c (shift - 8) end.

Section tree.
Context (al : allocator) (F : nat).

(** increment_item_count, increment_node_count (PrefixTree.cc:896-902). *)
Definition t_items_add (base d : Z) : prog unit := n <- load64 base ;; store64 base (u64 (n + d)).
Definition t_nodes_add (base d : Z) : prog unit := n <- load64 (base + 8) ;; store64 (base + 8) (u64 (n + d)).

(** Clearing [n] slots from [a] on (PrefixTree.cc:867-871, 1014-1016, 1027-1029). *)
Fixpoint t_zero (n : nat) (a : Z) : prog unit :=
  match n with O => Ret tt | S n' => store64 a 0 ;; t_zero n' (a + 8) end.
(** Copying [n] slots (PrefixTree.cc:1017-1020, 1023-1026). *)
Fixpoint t_copy (n : nat) (from to : Z) : prog unit :=
  match n with
  | O => Ret tt
  | S n' => x <- load64 from ;; store64 to x ;; t_copy n' (from + 8) (to + 8)
  end.
(** Node::Node(start, end, parent_slot, value) (PrefixTree.cc:845-853). *)
Definition t_init_node (o s e ps v : Z) : prog unit :=
  store8 o s ;; store8 (o + 1) e ;; store8 (o + 2) ps ;; store64 (o + 8) v.

(** The creating constructor (PrefixTree.cc:16-22) with TreeBase::TreeBase() and
    Node::Node() (863-872, 891-894). *)
Definition t_create : prog Z :=
  base <- al_allocate al 2080 ;;
  store64 base 0 ;;
  store64 (base + 8) 1 ;;
  t_init_node (base + 16) 0 255 0 0 ;;
  t_zero 256 (base + 32) ;;
  Ret base.
(** The opening constructor with offset 0, the part under the write lock
    (PrefixTree.cc:33-41). *)
Definition t_open_base : prog Z :=
  b <- al_get_base al ;;
  if bool_decide (b = 0) then
    base <- t_create ;;
    al_set_base al base ;;
    Ret base
  else Ret b.

(** The result of the first part of traverse: the slot is found, or the search stops
    at [node] (child of [parent]) with the characters [rest] left.  [nodes] are the
    node_offsets. *)
Inductive walked :=
  | Found (slot : Z) (nodes : list Z)
  | Stopped (parent node : Z) (rest : list Z).
(** PrefixTree::traverse with return_values_only, up to the test of [create]
    (PrefixTree.cc:904-977). *)
Fixpoint t_walk (parent node : Z) (nodes : list Z) (k : list Z) : prog walked :=
  match k with
  | [] => Ret (Found (node + 8) nodes)
  | c :: k' =>
      s <- load8 node ;;
      e <- load8 (node + 1) ;;
      if bool_decide (c < s \/ c > e) then Ret (Stopped parent node k)
      else
        x <- load64 (node + 16 + 8 * (c - s)) ;;
        if bool_decide (x = 0) then Ret (Stopped parent node k)
        else if bool_decide (t_type x <> 0) then
          if bool_decide (k' = []) then Ret (Found (node + 16 + 8 * (c - s)) nodes)
          else Ret (Stopped parent node k)
        else t_walk node x (nodes ++ [x]) k'
  end.
Definition t_traverse (base : Z) (k : list Z) : prog walked :=
  t_walk 0 (base + 16) [base + 16] k.
(** traverse(k, s, true, false): the slot, 0 if there is none. *)
Definition t_find (base : Z) (k : list Z) : prog Z :=
  w <- t_traverse base k ;;
  match w with Found slot _ => Ret slot | Stopped _ _ _ => Ret 0 end.

(** The node is replaced by a wider one if it has no slot for [c]; the resulting node
    (PrefixTree.cc:989-1046). *)
Definition t_extend (parent node c : Z) : prog Z :=
  s <- load8 node ;;
  e <- load8 (node + 1) ;;
  if bool_decide (c < s \/ c > e) then
    let lower := bool_decide (c < s) in
    let s' := if lower then c else s in
    let e' := if lower then e else c in
    ps <- load8 (node + 2) ;;
    v <- load64 (node + 8) ;;
    new <- al_allocate al (16 + 8 * (e' - s' + 1)) ;;
    t_init_node new s' e' ps v ;;
    (if lower
     then t_zero (Z.to_nat (s - s')) (new + 16) ;;
          t_copy (Z.to_nat (e - s + 1)) (node + 16) (new + 16 + 8 * (s - s'))
     else t_copy (Z.to_nat (e - s + 1)) (node + 16) (new + 16) ;;
          t_zero (Z.to_nat (e' - e)) (new + 16 + 8 * (e - s + 1))) ;;
    qs <- load8 parent ;;
    store64 (parent + 16 + 8 * (ps - qs)) new ;;
    al_free al node ;;
    Ret new
  else Ret node.
(** New nodes for all the characters but the last; the slot of the last one
    (PrefixTree.cc:1048-1069).  The size of a node with one slot is 24. *)
Fixpoint t_chain_nodes (base node c : Z) (k : list Z) : prog Z :=
  match k with
  | [] => s <- load8 node ;; Ret (node + 16 + 8 * (c - s))
  | c' :: k' =>
      s <- load8 node ;;
      v <- load64 (node + 16 + 8 * (c - s)) ;;
      new <- al_allocate al 24 ;;
      t_init_node new c' c' c v ;;
      store64 (new + 16) 0 ;;
      s <- load8 node ;;
      store64 (node + 16 + 8 * (c - s)) new ;;
      t_nodes_add base 1 ;;
      t_chain_nodes base new c' k'
  end.
(** traverse(k, s, true, false, true) (PrefixTree.cc:904-1070). *)
Definition t_make (base : Z) (k : list Z) : prog Z :=
  w <- t_traverse base k ;;
  match w with
  | Found slot _ => Ret slot
  | Stopped _ _ [] => Undef (* does not happen *)
  | Stopped parent node (c :: k') =>
      node <- t_extend parent node c ;;
      t_chain_nodes base node c k'
  end.

(** PrefixTree::lookup_result_for_contents (PrefixTree.cc:1222-1272). *)
Definition t_lookup (c : Z) : prog pval :=
  match t_type c with
  | 0 => Throw OutOfRange
  | 1 => if bool_decide (t_value c = 0) then Ret (PStr [])
         else n <- al_block_size al (t_value c) ;;
              d <- load_bytes (t_value c) (Z.to_nat n) ;; Ret (PStr d)
  | 6 => Ret (PStr (t_unpack (Z.to_nat (Z.land (Z.shiftr c 3) 7)) c 56))
  | 2 => Ret (PInt (t_int c))
  | 3 => z <- load64 (t_value c) ;; Ret (PInt (wrap64 z))
  | 4 => if bool_decide (t_value c = 0) then Ret (PDouble 0)
         else b <- load64 (t_value c) ;; Ret (PDouble b)
  | 5 => let id := Z.shiftr (t_value c) 3 in
         if bool_decide (id = 2) then Ret PNull else Ret (PBool (negb (bool_decide (id = 0))))
  | _ => Throw InvalidArgument
  end.

(** PrefixTree::execute_check (PrefixTree.cc:1081-1093). *)
Definition t_check (base : Z) (c : bytes * expected) : prog bool :=
  slot <- t_find base (fst c) ;;
  if bool_decide (slot = 0) then Ret (meets None (snd c))
  else
    x <- load64 slot ;;
    if bool_decide (x = 0) then Ret (meets None (snd c))
    else v <- t_lookup x ;; Ret (meets (Some v) (snd c)).
Definition t_allowed (base : Z) (c : tcheck) : prog bool :=
  match c with None => Ret true | Some c => t_check base c end.

(** PrefixTree::clear_value_slot and clear_node (PrefixTree.cc:1274-1329); [G] bounds
    the depth of the recursion. *)
Fixpoint t_clear_slot (G : nat) (base slot : Z) : prog unit :=
  c <- load64 slot ;;
  if bool_decide (c = 0) then Ret tt
  else if bool_decide (t_type c = 0) then
    match G with
    | O => NoFuel
    | S G' =>
        let node := t_value c in
        t_clear_slot G' base (node + 8) ;;
        s <- load8 node ;;
        e <- load8 (node + 1) ;;
        (fix slots (n : nat) (a : Z) : prog unit :=
           match n with O => Ret tt | S n' => t_clear_slot G' base a ;; slots n' (a + 8) end)
          (Z.to_nat (e - s + 1)) (node + 16) ;;
        store64 slot 0 ;;
        al_free al node ;;
        t_nodes_add base (- 1)
    end
  else if bool_decide (t_type c = 1 \/ t_type c = 3 \/ t_type c = 4) then
    store64 slot 0 ;;
    (if bool_decide (t_value c = 0) then Ret tt else al_free al (t_value c)) ;;
    t_items_add base (- 1)
  else if bool_decide (t_type c = 2 \/ t_type c = 5 \/ t_type c = 6) then
    store64 slot 0 ;;
    t_items_add base (- 1)
  else Ret tt.
(** PrefixTree::clear_node(root), which is clear() (PrefixTree.cc:541-544, 1274-1283). *)
Fixpoint t_clear_slots (G : nat) (base : Z) (n : nat) (a : Z) : prog unit :=
  match n with O => Ret tt | S n' => t_clear_slot G base a ;; t_clear_slots G base n' (a + 8) end.
Definition t_clear (base : Z) : prog unit :=
  t_clear_slot F base (base + 16 + 8) ;;
  s <- load8 (base + 16) ;;
  e <- load8 (base + 17) ;;
  t_clear_slots F base (Z.to_nat (e - s + 1)) (base + 32).

(** insert of a string (PrefixTree.cc:78-117); an iovec array (134-187) is taken as
    the concatenation of its parts. *)
Definition t_insert_string (base : Z) (k s : list Z) : prog unit :=
  slot <- t_make base k ;;
  t_clear_slot F base slot ;;
  let n := Z.of_nat (length s) in
  (if bool_decide (n = 0) then store64 slot 1
   else if bool_decide (n < 8) then store64 slot (t_pack (Z.lor (Z.shiftl n 3) 6) 56 s)
   else
     o <- al_allocate al n ;;
     store_bytes o s ;;
     store64 slot (Z.lor o 1)) ;;
  t_items_add base 1.
(** insert of an integer (PrefixTree.cc:194-225). *)
Definition t_insert_int (base : Z) (k : list Z) (v : Z) : prog unit :=
  slot <- t_make base k ;;
  t_clear_slot F base slot ;;
  (if t_small v then store64 slot (Z.lor (u64 (Z.shiftl v 3)) 2)
   else
     o <- al_allocate al 8 ;;
     store64 o (u64 v) ;;
     store64 slot (Z.lor o 3)) ;;
  t_items_add base 1.
(** insert of a double (PrefixTree.cc:232-280). *)
Definition t_insert_double (base : Z) (k : list Z) (v : Z) : prog unit :=
  slot <- t_make base k ;;
  c <- load64 slot ;;
  if d_zero v then
    t_clear_slot F base slot ;;
    store64 slot 4 ;;
    t_items_add base 1
  else if bool_decide ((t_type c = 4 \/ t_type c = 3) /\ c <> 4) then
    store64 (t_value c) v ;;
    if bool_decide (t_type c = 3) then store64 slot (Z.lor (t_value c) 4) else Ret tt
  else
    o <- al_allocate al 8 ;;
    store64 o v ;;
    t_clear_slot F base slot ;;
    store64 slot (Z.lor o 4) ;;
    t_items_add base 1.
(** insert of a boolean and of null (PrefixTree.cc:286-305, 311-329); [id] is the
    number of the singleton. *)
Definition t_insert_trivial (base : Z) (k : list Z) (id : Z) : prog unit :=
  slot <- t_make base k ;;
  t_clear_slot F base slot ;;
  store64 slot (Z.lor (Z.shiftl id 3) 5) ;;
  t_items_add base 1.
(** insert of any value, with its check (PrefixTree.cc:82-85, 198-201, 236-239,
    289-292, 314-317, 335-355); a LookupResult that holds "missing" is not included:
    it is erase. *)
Definition t_insert (base : Z) (k : list Z) (v : pval) (c : tcheck) : prog bool :=
  ok <- t_allowed base c ;;
  if negb ok then Ret false
  else
    match v with
    | PStr s => t_insert_string base k s
    | PInt z => t_insert_int base k z
    | PDouble b => t_insert_double base k b
    | PBool b => t_insert_trivial base k (if b then 1 else 0)
    | PNull => t_insert_trivial base k 2
    end ;;
    Ret true.

(** incr of an integer (PrefixTree.cc:361-417); the addition wraps around. *)
Definition t_incr_int (base : Z) (k : list Z) (delta : Z) : prog Z :=
  slot <- t_make base k ;;
  c <- load64 slot ;;
  old <- (if bool_decide (t_type c = 2) then Ret (t_int c)
          else if bool_decide (t_type c = 3) then z <- load64 (t_value c) ;; Ret (wrap64 z)
          else if bool_decide (c = 0) then t_items_add base 1 ;; Ret 0
          else Throw OutOfRange) ;;
  let value := wrap64 (old + delta) in
  (if t_small value then
     store64 slot (Z.lor (u64 (Z.shiftl value 3)) 2) ;;
     if bool_decide (t_type c = 3) then al_free al (t_value c) else Ret tt
   else if bool_decide (t_type c = 3) then store64 (t_value c) (u64 value)
   else
     o <- al_allocate al 8 ;;
     store64 o (u64 value) ;;
     store64 slot (Z.lor o 3)) ;;
  Ret value.
(** incr of a double (PrefixTree.cc:423-481).  The assignment of the number 4.0 (bits
    0x4010000000000000) to the slot is what line 462 does. *)
Definition t_incr_dbl (fadd : Z -> Z -> Z) (base : Z) (k : list Z) (delta : Z) : prog Z :=
  slot <- t_make base k ;;
  c <- load64 slot ;;
  if bool_decide (t_type c = 4) then
    let o := t_value c in
    old <- (if bool_decide (o = 0) then Ret 0 else load64 o) ;;
    let new := u64 (fadd old delta) in
    (if d_zero new then
       store64 slot 4 ;;
       if bool_decide (o = 0) then Ret tt else al_free al o
     else if bool_decide (o = 0) then
       o <- al_allocate al 8 ;;
       store64 o new ;;
       store64 slot (Z.lor o 4)
     else store64 o new) ;;
    Ret new
  else if bool_decide (c = 0) then
    (if d_zero delta then store64 slot (1025 * 2 ^ 52)
     else
       o <- al_allocate al 8 ;;
       store64 o delta ;;
       store64 slot (Z.lor o 4)) ;;
    t_items_add base 1 ;;
    Ret delta
  else Throw OutOfRange.

(** Node::has_children (PrefixTree.cc:874-881). *)
Fixpoint t_any_child (n : nat) (a : Z) : prog bool :=
  match n with
  | O => Ret false
  | S n' => x <- load64 a ;; if bool_decide (x <> 0) then Ret true else t_any_child n' (a + 8)
  end.
(** The loop of erase that deletes the empty nodes (PrefixTree.cc:507-532); the nodes
    are given from the leaf to the root. *)
Fixpoint t_trim (base : Z) (nodes : list Z) : prog unit :=
  match nodes with
  | node :: ((parent :: _) as nodes') =>
      s <- load8 node ;;
      e <- load8 (node + 1) ;;
      b <- t_any_child (Z.to_nat (e - s + 1)) (node + 16) ;;
      if (b : bool) then Ret tt
      else
        v <- load64 (node + 8) ;;
        ps <- load8 (node + 2) ;;
        qs <- load8 parent ;;
        store64 (parent + 16 + 8 * (ps - qs)) v ;;
        al_free al node ;;
        t_nodes_add base (- 1) ;;
        if bool_decide (v <> 0) then Ret tt else t_trim base nodes'
  | _ => Ret tt
  end.
(** PrefixTree::erase (PrefixTree.cc:487-535). *)
Definition t_erase_key (base : Z) (k : list Z) (c : tcheck) : prog bool :=
  ok <- t_allowed base c ;;
  if negb ok then Ret false
  else
    w <- t_traverse base k ;;
    match w with
    | Stopped _ _ _ => Ret false
    | Found slot nodes =>
        t_clear_slot F base slot ;;
        t_trim base (rev nodes) ;;
        Ret true
    end.

(** PrefixTree::exists, type, at (PrefixTree.cc:546-549, 555-590, 596-612). *)
Definition t_has (base : Z) (k : list Z) : prog bool :=
  slot <- t_find base k ;; Ret (bool_decide (slot <> 0)).
Definition t_type_at (base : Z) (k : list Z) : prog Z :=
  slot <- t_find base k ;;
  if bool_decide (slot = 0) then Ret 0
  else
    c <- load64 slot ;;
    match t_type c with
    | 0 => Ret 0
    | 1 | 6 => Ret 1
    | 2 | 3 => Ret 2
    | 4 => Ret 3
    | 5 => Ret (if bool_decide (t_value c = 16) then 5 else 4)
    | _ => Throw InvalidArgument
    end.
Definition t_at (base : Z) (k : list Z) : prog pval :=
  slot <- t_find base k ;;
  if bool_decide (slot = 0) then Throw OutOfRange
  else
    c <- load64 slot ;;
    if bool_decide (c = 0) then Throw OutOfRange else t_lookup c.

(** PrefixTree::next_key_value_internal.  Following [k] as far as possible
    (PrefixTree.cc:1123-1153): slot_id and the node_offsets, the last one first. *)
Fixpoint t_descend (node : Z) (nodes : list Z) (k : list Z) : prog (Z * list Z) :=
  match k with
  | [] => Ret (0, nodes)
  | c :: k' =>
      s <- load8 node ;;
      e <- load8 (node + 1) ;;
      if bool_decide (c < s) then Ret (s, nodes)
      else if bool_decide (c > e) then Ret (256, nodes)
      else
        x <- load64 (node + 16 + 8 * (c - s)) ;;
        if bool_decide (t_type x <> 0) then Ret (c + 1, nodes)
        else t_descend x (x :: nodes) k'
  end.
(** The search for the next value (PrefixTree.cc:1157-1200): its contents, slot_id and
    the node_offsets; contents 0 if there is none. *)
Fixpoint t_scan (G : nat) (slot_id : Z) (nodes : list Z) : prog (Z * Z * list Z) :=
  match G, nodes with
  | O, _ => NoFuel
  | S _, [] => Ret (0, slot_id, [])
  | S G', node :: rest =>
      s <- load8 node ;;
      e <- load8 (node + 1) ;;
      v <- (if bool_decide (slot_id < 0) then load64 (node + 8) else Ret 0) ;;
      if bool_decide (v <> 0) then Ret (v, slot_id, nodes)
      else
        let slot_id := if bool_decide (slot_id < s) then s else slot_id in
        if bool_decide (slot_id > e) then
          match rest with
          | [] => Ret (0, slot_id, [])
          | _ => ps <- load8 (node + 2) ;; t_scan G' (ps + 1) rest
          end
        else
          c <- load64 (node + 16 + 8 * (slot_id - s)) ;;
          if bool_decide (c = 0) then t_scan G' (slot_id + 1) nodes
          else if bool_decide (t_type c <> 0) then Ret (c, slot_id, nodes)
          else t_scan G' (- 1) (t_value c :: nodes)
  end.
(** The key of the value that was found (PrefixTree.cc:1207-1217). *)
Fixpoint t_key_of (nodes : list Z) : prog (list Z) :=
  match nodes with
  | [] => Ret []
  | n :: nodes' => c <- load8 (n + 2) ;; k <- t_key_of nodes' ;; Ret (c :: k)
  end.
(** next_key_value; [cur] is None for [current == nullptr] (PrefixTree.cc:1095-1220). *)
Definition t_next_key_value (base : Z) (cur : option (list Z)) : prog (list Z * pval) :=
  let root := base + 16 in
  v <- (match cur with None => load64 (root + 8) | Some _ => Ret 0 end) ;;
  if bool_decide (v <> 0) then x <- t_lookup v ;; Ret ([], x)
  else
    '(slot_id, nodes) <- (match cur with None => Ret (0, [root]) | Some k => t_descend root [root] k end) ;;
    '(c, slot_id, nodes) <- t_scan F slot_id nodes ;;
    if bool_decide (c = 0) then Throw OutOfRange
    else
      k <- t_key_of (tail (rev nodes)) ;;
      x <- t_lookup c ;;
      Ret (k ++ (if bool_decide (slot_id >= 0) then [slot_id] else []), x).
(** The iterator from begin() to end() (PrefixTree.cc:636-642, 1453-1466, 1493-1503);
    here the whole loop runs under one lock. *)
Fixpoint t_iterate_from (G : nat) (base : Z) (cur : option (list Z)) : prog (list (list Z * pval)) :=
  match G with
  | O => NoFuel
  | S G' =>
      r <- catch (x <- t_next_key_value base cur ;; Ret (Some x))
                 (fun e => if bool_decide (e = OutOfRange) then Ret None else Throw e) ;;
      match r with
      | None => Ret []
      | Some (k, v) => l <- t_iterate_from G' base (Some k) ;; Ret ((k, v) :: l)
      end
  end.
Definition t_iterate (base : Z) : prog (list (list Z * pval)) := t_iterate_from F base None.

(** find, upper_bound, lower_bound (PrefixTree.cc:644-686): the item that the iterator
    is at, None for end().  lower_bound takes the lock twice. *)
Definition t_or_end {A} (p : prog A) : prog (option A) :=
  catch (x <- p ;; Ret (Some x)) (fun e => if bool_decide (e = OutOfRange) then Ret None else Throw e).
Definition t_find_item (base : Z) (k : list Z) : prog (option (list Z * pval)) :=
  t_or_end (v <- t_at base k ;; Ret (k, v)).
Definition t_upper_bound (base : Z) (k : list Z) : prog (option (list Z * pval)) :=
  t_or_end (t_next_key_value base (Some k)).
Definition t_lower_bound (base : Z) (k : list Z) : prog (option (list Z * pval)) :=
  r <- t_find_item base k ;;
  match r with Some x => Ret (Some x) | None => t_upper_bound base k end.

(** traverse(k, s, false, true): the slot of the value or of the node, 0 if there is
    none (PrefixTree.cc:904-977); [last] is the character before [k]. *)
Fixpoint t_walk_slot (parent node last : Z) (k : list Z) : prog Z :=
  match k with
  | [] => s <- load8 parent ;; Ret (parent + 16 + 8 * Z.land (last - s) 255)
  | c :: k' =>
      s <- load8 node ;;
      e <- load8 (node + 1) ;;
      if bool_decide (c < s \/ c > e) then Ret 0
      else
        x <- load64 (node + 16 + 8 * (c - s)) ;;
        if bool_decide (x = 0) then Ret 0
        else if bool_decide (t_type x <> 0) then
          if bool_decide (k' = []) then Ret (node + 16 + 8 * (c - s)) else Ret 0
        else t_walk_slot node x c k'
  end.
(** The loop over the children in bytes_for_contents and nodes_for_contents
    (PrefixTree.cc:713-715, 777-779). *)
Fixpoint t_sum_slots (f : Z -> prog Z) (n : nat) (a ret : Z) : prog Z :=
  match n with
  | O => Ret ret
  | S n' => x <- load64 a ;; y <- f x ;; t_sum_slots f n' (a + 8) (u64 (ret + y))
  end.
(** nodes_for_contents (PrefixTree.cc:766-781); [G] bounds the depth of the recursion. *)
Fixpoint t_nodes_below (G : nat) (c : Z) : prog Z :=
  if bool_decide (c = 0 \/ t_type c <> 0) then Ret 0
  else
    match G with
    | O => NoFuel
    | S G' =>
        s <- load8 c ;;
        e <- load8 (c + 1) ;;
        t_sum_slots (t_nodes_below G') (Z.to_nat (e - s + 1)) (c + 16) 1
    end.
(** bytes_for_contents (PrefixTree.cc:698-740). *)
Fixpoint t_bytes_below (G : nat) (c : Z) : prog Z :=
  match t_type c with
  | 0 =>
      if bool_decide (c = 0) then Ret 8
      else
        match G with
        | O => NoFuel
        | S G' =>
            s <- load8 c ;;
            e <- load8 (c + 1) ;;
            t_sum_slots (t_bytes_below G') (Z.to_nat (e - s + 1)) (c + 16) 24
        end
  | 1 => n <- al_block_size al (t_value c) ;; Ret (u64 (8 + n))
  | 2 | 5 | 6 => Ret 8
  | 3 | 4 => Ret 16
  | _ => Throw OutOfRange
  end.
(** nodes_for_prefix and bytes_for_prefix (PrefixTree.cc:742-764, 783-798). *)
Definition t_nodes_for_prefix (base : Z) (p : list Z) : prog Z :=
  if bool_decide (p = []) then t_nodes_below F (base + 16)
  else
    slot <- t_walk_slot 0 (base + 16) 0 p ;;
    if bool_decide (slot = 0) then Ret 0 else c <- load64 slot ;; t_nodes_below F c.
Definition t_bytes_for_prefix (base : Z) (p : list Z) : prog Z :=
  if bool_decide (p = []) then n <- t_bytes_below F (base + 16) ;; Ret (u64 (n - 8))
  else
    slot <- t_walk_slot 0 (base + 16) 0 p ;;
    if bool_decide (slot = 0) then Ret 0 else c <- load64 slot ;; t_bytes_below F c.

(** size() and node_size() (PrefixTree.cc:688-696). *)
Definition t_size (base : Z) : prog Z := load64 base.
Definition t_node_count (base : Z) : prog Z := load64 (base + 8).
End tree.
