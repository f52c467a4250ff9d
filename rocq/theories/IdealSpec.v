(** * Ideal data structures: what the structures are supposed to do. *)
From Verif Require Export Base.
Open Scope Z_scope.

Notation bytes := (list Z).
Definition dlen (d : bytes) : Z := Z.of_nat (length d).

(** Pool space that certainly suffices for one allocation of [n] bytes. *)
Definition room (n : Z) : Z := 2 * n + 16384.
Definition space (l : list Z) : Z := foldr (fun n s => room n + s) 0 l.

(** ** Double-ended queues: the list of items from front to back *)
Definition q_total (l : list bytes) : Z := foldr (fun d s => dlen d + s) 0 l.
Definition q_push_ideal (front : bool) (d : bytes) (l : list bytes) : list bytes :=
  if front then d :: l else l ++ [d].
Definition q_pop_ideal (front : bool) (l : list bytes) : option (bytes * list bytes) :=
  if front then match l with [] => None | d :: l' => Some (d, l') end
  else match last l with None => None | Some d => Some (d, removelast l) end.
Definition q_need (d : bytes) : Z := room (16 + dlen d).

(** ** Priority queues: the items in ascending order *)
(** Lexicographic order of byte strings; a proper prefix is smaller. *)
Fixpoint lex_lt (a b : bytes) : bool :=
  match a, b with
  | _, [] => false
  | [], _ :: _ => true
  | x :: a', y :: b' => (x <? y) || ((x =? y) && lex_lt a' b')
  end.
Definition lex_le (a b : bytes) : Prop := lex_lt b a = false.
Fixpoint insert_sorted (d : bytes) (l : list bytes) : list bytes :=
  match l with
  | [] => [d]
  | x :: l' => if lex_lt x d then x :: insert_sorted d l' else d :: l
  end.
Definition pq_pop_ideal (l : list bytes) : option (bytes * list bytes) :=
  match l with [] => None | d :: l' => Some (d, l') end.
(** A push may also allocate an array of twice the number of items. *)
Definition pq_need (n : nat) (d : bytes) : Z := room (256 + 16 * Z.of_nat n) + room (dlen d).

(** ** Numbers stored as bytes, least significant byte first *)
(** Two's complement reading. *)
Definition signed (d : bytes) : Z :=
  let m := 256 ^ dlen d in let x := le_val d in if decide (2 * x < m) then x else x - m.
(** Adding [delta] to an integer of [size] bytes, with wrap-around. *)
Definition add_int (delta size : Z) : option (bytes -> bytes) :=
  if bool_decide (size = 1 \/ size = 2 \/ size = 4 \/ size = 8)
  then Some (fun old => le_bytes (Z.to_nat size) (le_val old + delta)) else None.
(** Adding to a float or a double; the floating-point addition is [fadd]. *)
Definition add_float (fadd : bytes -> bytes -> Z) (delta : bytes) (size : Z) : option (bytes -> bytes) :=
  if bool_decide (size = 4 \/ size = 8)
  then Some (fun old => le_bytes (Z.to_nat size) (fadd old delta)) else None.

(** ** Hash tables *)
(** The 64-bit FNV-1a hash, which the code uses; the theorems hold for every hash
    function. *)
Class HashFn := the_hash : bytes -> Z.
Definition fnv1a64 : HashFn := fun d =>
  fold_left (fun h b => Z.lxor h b * 1099511628211 mod 2 ^ 64) d 14695981039346656037.
(** A table is its list of slots.  A slot lists its (key, value) pairs; the flag says
    whether the pairs are kept in a linked list ("indirect") or directly in the slot. *)
Notation hslot := (bool * list (bytes * bytes))%type.
Notation htable := (list hslot).
Definition h_items (t : htable) : list (bytes * bytes) := concat (map snd t).
(** The finite map that a table stands for. *)
Definition h_map (t : htable) : gmap bytes bytes := list_to_map (h_items t).
Definition h_new (bits : Z) : htable := repeat (false, []) (Z.to_nat (2 ^ bits)).

Fixpoint get_key (k : bytes) (l : list (bytes * bytes)) : option bytes :=
  match l with
  | [] => None
  | (k', v) :: l' => if bool_decide (k = k') then Some v else get_key k l'
  end.
Fixpoint set_key (k v : bytes) (l : list (bytes * bytes)) : list (bytes * bytes) :=
  match l with
  | [] => []
  | (k', v') :: l' => if bool_decide (k = k') then (k, v) :: l' else (k', v') :: set_key k v l'
  end.
Fixpoint del_key (k : bytes) (l : list (bytes * bytes)) : list (bytes * bytes) :=
  match l with
  | [] => []
  | (k', v') :: l' => if bool_decide (k = k') then l' else (k', v') :: del_key k l'
  end.
Definition is_first (k : bytes) (l : list (bytes * bytes)) : bool :=
  match l with [] => false | (k', _) :: _ => bool_decide (k = k') end.

Definition slot_put (k v : bytes) (s : hslot) : hslot :=
  match get_key k (snd s) with
  | Some _ => (fst s, set_key k v (snd s))
  | None => match snd s with [] => (false, [(k, v)]) | l => (true, l ++ [(k, v)]) end
  end.
Definition slot_del (k : bytes) (s : hslot) : hslot :=
  match del_key k (snd s) with
  | [] => (false, [])
  | l => (fst s && negb (is_first k (snd s)), l)
  end.

Section hash.
  Context (hsh : bytes -> Z).
  Definition h_index (t : htable) (k : bytes) : nat := Z.to_nat (hsh k mod Z.of_nat (length t)).
  Definition h_slot_of (t : htable) (k : bytes) : hslot := nth (h_index t k) t (false, []).
  Definition h_get (t : htable) (k : bytes) : option bytes := get_key k (snd (h_slot_of t k)).
  Definition h_put (t : htable) (k v : bytes) : htable :=
    <[h_index t k := slot_put k v (h_slot_of t k)]> t.
  Definition h_del (t : htable) (k : bytes) : htable :=
    <[h_index t k := slot_del k (h_slot_of t k)]> t.
  (** Conditional writes: the key to look at, and the value it must have (None: it
      must be absent). *)
  Definition h_holds (t : htable) (c : option (bytes * option bytes)) : bool :=
    match c with None => true | Some (k, v) => bool_decide (h_get t k = v) end.
  (** incr: [u n] says how a stored number of [n] bytes is changed (None: there are
      no numbers of that size), [new] is the number for an absent key.  The new value,
      None if there is none. *)
  Definition h_incr_value (u : Z -> option (bytes -> bytes)) (new : bytes) (t : htable) (k : bytes) : option bytes :=
    match h_get t k with
    | None => Some new
    | Some w => match u (dlen w) with Some f => Some (f w) | None => None end
    end.
  (** Keys that the code erases properly ([odd8] is a property of the allocator, see
      C23): not the first of three or more keys in a list, and not the second of two
      unless [odd8]. *)
  Definition erase_ok (odd8 : bool) (t : htable) (k : bytes) : Prop :=
    let '(ind, l) := h_slot_of t k in
    ind = true -> get_key k l <> None ->
    if is_first k l then (length l <= 2)%nat else odd8 = true \/ (3 <= length l)%nat.
  (** Bytes that the table occupies in the pool. *)
  Definition pair_size (x : bytes * bytes) : Z := dlen (fst x) + dlen (snd x).
  (** Sizes of the blocks of the pairs in a slot, in a table. *)
  Definition slot_frees (s : hslot) : list Z :=
    concat (map (fun x => pair_size x :: if fst s then [24] else []) (snd s)).
  Definition h_frees (t : htable) : list Z := concat (map slot_frees t).
  Definition h_cleared (t : htable) : htable := map (fun _ => (false, [])) t.
  Definition slot_bytes (s : hslot) : Z :=
    foldr (fun x n => pair_size x + (if fst s then 24 else 0) + n) 0 (snd s).
  Definition h_bytes (t : htable) : Z :=
    24 + 16 * Z.of_nat (length t) + foldr (fun s n => slot_bytes s + n) 0 t.
End hash.
