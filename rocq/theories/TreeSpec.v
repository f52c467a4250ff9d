(** * Ideal prefix trees: what PrefixTree is supposed to do. *)
From Verif Require Export IdealSpec.
Open Scope Z_scope.

(** ** Values *)
(** Typed values; a double is given by its 64 bits. *)
Inductive pval := PStr (s : bytes) | PInt (z : Z) | PDouble (b : Z) | PBool (b : bool) | PNull.
Global Instance pval_eq_dec : EqDecision pval.
Proof. solve_decision. Defined.
(** The types that type() reports (PrefixTree::ResultValueType); 0 is "missing". *)
Definition type_code (v : option pval) : Z :=
  match v with
  | None => 0 | Some (PStr _) => 1 | Some (PInt _) => 2 | Some (PDouble _) => 3
  | Some (PBool _) => 4 | Some PNull => 5
  end.
(** IEEE 754: the two zeros, not-a-number, the == of doubles. *)
Definition d_zero (b : Z) : bool := b mod 2 ^ 63 =? 0.
Definition d_nan (b : Z) : bool := 2047 * 2 ^ 52 <? b mod 2 ^ 63.
Definition d_eq (a b : Z) : bool := (d_zero a && d_zero b) || ((a =? b) && negb (d_nan a)).
(** Two's complement. *)
Definition wrap64 (z : Z) : Z := (z + 2 ^ 63) mod 2 ^ 64 - 2 ^ 63.
Definition is_s64 (z : Z) : Prop := - 2 ^ 63 <= z < 2 ^ 63.
(** The sign of zero is not kept. *)
Definition stored (v : pval) : pval :=
  match v with PDouble b => if d_zero b then PDouble 0 else v | _ => v end.
Definition pval_ok (v : pval) : Prop :=
  match v with PStr s => bytes_ok s | PInt z => is_s64 z | PDouble b => is_u64 b | _ => True end.

(** What a check expects of a key: the alternatives of LookupResult.  A string that
    is passed by reference is never equal to a stored one. *)
Inductive expected := EMissing | EStr (s : bytes) | EStrRef (s : bytes) | EInt (z : Z)
  | EDouble (b : Z) | EBool (b : bool) | ENull.
Definition meets (v : option pval) (x : expected) : bool :=
  match v, x with
  | None, EMissing => true
  | Some (PStr s), EStr s' => bool_decide (s = s')
  | Some (PInt z), EInt z' => z =? z'
  | Some (PDouble b), EDouble b' => d_eq b b'
  | Some (PBool b), EBool b' => eqb b b'
  | Some PNull, ENull => true
  | _, _ => false
  end.
Notation tcheck := (option (bytes * expected)).

(** ** Trees *)
(** The keys and their values; the paths of the nodes with the range of characters
    that each has slots for; the errors of the item count and of the node count. *)
Record ptree := PT { t_map : gmap bytes pval; t_nodes : gmap bytes (Z * Z); t_extra : Z; t_nerr : Z }.
Definition t_new : ptree := PT ∅ {[ [] := (0, 255) ]} 0 0.

Definition t_holds (m : gmap bytes pval) (c : tcheck) : bool :=
  match c with None => true | Some (k, x) => meets (m !! k) x end.

(** The nodes after making room for key [p ++ k], where node [p] exists: existing
    nodes are followed, the last one is widened, and new nodes are added for all the
    other characters but the last. *)
Definition widen (c : Z) (r : Z * Z) : Z * Z := (Z.min c (fst r), Z.max c (snd r)).
Fixpoint t_chain (N : gmap bytes (Z * Z)) (p k : bytes) : gmap bytes (Z * Z) :=
  match k with
  | c :: (c' :: _) as k' => t_chain (<[p ++ [c] := (c', c')]> N) (p ++ [c]) k'
  | _ => N
  end.
Fixpoint t_reach (N : gmap bytes (Z * Z)) (p k : bytes) : gmap bytes (Z * Z) :=
  match k with
  | [] => N
  | c :: k' =>
      if bool_decide (is_Some (N !! (p ++ [c]))) then t_reach N (p ++ [c]) k'
      else t_chain (alter (widen c) p N) p k
  end.
(** Removing the nodes without children on a path, given from the bottom up. *)
Definition has_child (m : gmap bytes pval) (N : gmap bytes (Z * Z)) (p : bytes) : bool :=
  existsb (fun c => bool_decide (is_Some (m !! (p ++ [c]))) || bool_decide (is_Some (N !! (p ++ [c])))) (seqZ 0 256).
Fixpoint t_prune (m : gmap bytes pval) (N : gmap bytes (Z * Z)) (l : list bytes) : gmap bytes (Z * Z) :=
  match l with
  | [] => N
  | q :: l' =>
      if has_child m N q then N
      else if bool_decide (is_Some (m !! q)) then delete q N else t_prune m (delete q N) l'
  end.
(** The paths of the nodes from [p] along [k], without [p], from the bottom up. *)
Fixpoint t_path (N : gmap bytes (Z * Z)) (p k : bytes) : list bytes :=
  match k with
  | [] => []
  | c :: k' =>
      if bool_decide (is_Some (N !! (p ++ [c]))) then t_path N (p ++ [c]) k' ++ [p ++ [c]] else []
  end.

(** ** Operations *)
Definition t_exists (t : ptree) (k : bytes) : bool :=
  bool_decide (is_Some (t_map t !! k)) || bool_decide (is_Some (t_nodes t !! k)).
Definition t_put (t : ptree) (k : bytes) (v : pval) : ptree :=
  PT (<[k := v]> (t_map t)) (t_reach (t_nodes t) [] k) (t_extra t) (t_nerr t).
Definition t_erase (t : ptree) (k : bytes) : ptree :=
  if t_exists t k
  then PT (delete k (t_map t))
          (t_prune (delete k (t_map t)) (t_nodes t) (t_path (t_nodes t) [] k)) (t_extra t) (t_nerr t)
  else t.
Definition t_cleared (t : ptree) : ptree := PT ∅ {[ [] := (0, 255) ]} (t_extra t) (t_nerr t).
Definition t_incr (m : gmap bytes pval) (k : bytes) (delta : Z) : option Z :=
  match m !! k with
  | None => Some (wrap64 delta)
  | Some (PInt z) => Some (wrap64 (z + delta))
  | Some _ => None
  end.
(** [fadd] is the addition of doubles. *)
Definition t_incr_double (fadd : Z -> Z -> Z) (m : gmap bytes pval) (k : bytes) (delta : Z) : option Z :=
  match m !! k with
  | None => Some delta
  | Some (PDouble b) => Some (u64 (fadd b delta))
  | Some _ => None
  end.

(** The items in ascending order of the keys, and those after a key. *)
Fixpoint insert_item (x : bytes * pval) (l : list (bytes * pval)) : list (bytes * pval) :=
  match l with
  | [] => [x]
  | y :: l' => if lex_lt (fst y) (fst x) then y :: insert_item x l' else x :: l
  end.
Definition t_items (m : gmap bytes pval) : list (bytes * pval) := foldr insert_item [] (map_to_list m).
Definition is_after (cur : option bytes) (k : bytes) : bool :=
  match cur with None => true | Some c => lex_lt c k end.
Definition t_next (m : gmap bytes pval) (cur : option bytes) : option (bytes * pval) :=
  head (List.filter (fun x => is_after cur (fst x)) (t_items m)).
(** Following [k] from node [p] ends at an empty slot. *)
Fixpoint t_hole (t : ptree) (p k : bytes) : bool :=
  match k with
  | [] => false
  | c :: k' =>
      match t_nodes t !! p with
      | None => false
      | Some (s, e) =>
          (s <=? c) && (c <=? e) &&
          if bool_decide (is_Some (t_nodes t !! (p ++ [c]))) then t_hole t (p ++ [c]) k'
          else negb (bool_decide (is_Some (t_map t !! (p ++ [c]))))
      end
  end.

(** ** Memory *)
Definition node_bytes (r : Z * Z) : Z := 16 + 8 * (snd r - fst r + 1).
(** The block of a value, if it has one. *)
Definition small_int (z : Z) : bool := (- 2 ^ 60 <=? z) && (z <? 2 ^ 60).
Definition val_sizes (v : pval) : list Z :=
  match v with
  | PStr s => if dlen s <? 8 then [] else [dlen s]
  | PInt z => if small_int z then [] else [8]
  | PDouble b => if d_zero b then [] else [8]
  | PBool _ | PNull => []
  end.
Definition val_sizes_at (m : gmap bytes pval) (k : bytes) : list Z :=
  match m !! k with Some v => val_sizes v | None => [] end.
(** Requests for the nodes of a new key. *)
Fixpoint chain_sizes (k : bytes) : list Z :=
  match k with _ :: (_ :: _) as k' => 24 :: chain_sizes k' | _ => [] end.
Fixpoint reach_sizes (N : gmap bytes (Z * Z)) (p k : bytes) : list Z :=
  match k with
  | [] => []
  | c :: k' =>
      if bool_decide (is_Some (N !! (p ++ [c]))) then reach_sizes N (p ++ [c]) k'
      else (match N !! p with
            | Some r => if (fst r <=? c) && (c <=? snd r) then [] else [node_bytes (widen c r)]
            | None => []
            end) ++ chain_sizes k
  end.
(** The node that is replaced by a wider one. *)
Fixpoint reach_frees (N : gmap bytes (Z * Z)) (p k : bytes) : list Z :=
  match k with
  | [] => []
  | c :: k' =>
      if bool_decide (is_Some (N !! (p ++ [c]))) then reach_frees N (p ++ [c]) k'
      else match N !! p with
           | Some r => if (fst r <=? c) && (c <=? snd r) then [] else [node_bytes r]
           | None => []
           end
  end.
(** The nodes on the path of a key. *)
Definition path_sizes (N : gmap bytes (Z * Z)) (k : bytes) : list Z :=
  concat (map (fun p => match N !! p with Some r => [node_bytes r] | None => [] end) (t_path N [] k)).
(** A double takes over the 8 bytes of the number it replaces. *)
Definition insert_sizes (t : ptree) (k : bytes) (v : pval) : list Z :=
  match v, val_sizes_at (t_map t) k, t_map t !! k with
  | PDouble _, _ :: _, Some (PInt _ | PDouble _) => []
  | _, _, _ => val_sizes v
  end.
Definition incr_sizes (t : ptree) (k : bytes) (new : option pval) : list Z :=
  match new, val_sizes_at (t_map t) k with
  | Some v, [] => val_sizes v
  | _, _ => []
  end.
Definition node_sizes (N : gmap bytes (Z * Z)) : list Z :=
  map (fun x => node_bytes (snd x)) (map_to_list (delete [] N)).
Definition all_val_sizes (m : gmap bytes pval) : list Z :=
  concat (map (fun x => val_sizes (snd x)) (map_to_list m)).
Definition sum_list_Z (l : list Z) : Z := foldr Z.add 0 l.
Definition t_bytes (t : ptree) : Z :=
  2080 + sum_list_Z (node_sizes (t_nodes t)) + sum_list_Z (all_val_sizes (t_map t)).

(** The nodes for keys that begin with [p], and the bytes that the part of the tree
    below [p] takes: the slot that leads there, the nodes, the blocks of the values.
    There is no slot that leads to the root. *)
Definition t_nodes_for (t : ptree) (p : bytes) : Z :=
  Z.of_nat (size (filter (fun x => p `prefix_of` fst x) (t_nodes t))).
Definition t_bytes_for (t : ptree) (p : bytes) : Z :=
  (if bool_decide (p <> []) && t_exists t p then 8 else 0) +
  sum_list_Z (map (fun x => node_bytes (snd x)) (map_to_list (filter (fun x => p `prefix_of` fst x) (t_nodes t)))) +
  sum_list_Z (all_val_sizes (filter (fun x => p `prefix_of` fst x) (t_map t))).

(** A tree in which memory ran out while room was made for key [k]: some of the nodes
    may have been made. *)
Definition partly_reached (k : bytes) (N N' : gmap bytes (Z * Z)) : Prop :=
  exists n : nat, N' = t_reach N [] (take n k).
