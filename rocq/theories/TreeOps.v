(** * The operations of ideal prefix trees: results, effects, memory. *)
From Verif Require Export Prog TreeSpec.
Open Scope Z_scope.

Inductive top :=
  | TInsert (k : bytes) (v : pval) (check : tcheck)
  | TErase (k : bytes) (check : tcheck)
  | TIncr (k : bytes) (delta : Z)
  | TIncrDouble (k : bytes) (fadd : Z -> Z -> Z) (delta : Z)
  | TClear
  | TExists (k : bytes) | TType (k : bytes) | TAt (k : bytes)
  | TNext (cur : option bytes) | TItems | TSize | TNodeSize
  | TFind (k : bytes) | TLower (k : bytes) | TUpper (k : bytes)
  | TNodesFor (p : bytes) | TBytesFor (p : bytes).
Inductive tresult := TUnit | TBool (b : bool) | TNum (n : Z) | TVal (v : pval)
  | TKeyVal (k : bytes) (v : pval) | TList (l : list (bytes * pval))
  | TItem (x : option (bytes * pval)).  (* None: end() *)

(** A result and a new tree, or an exception. *)
Definition t_ideal (t : ptree) (x : top) : (tresult * ptree) + exn :=
  match x with
  | TInsert k v c =>
      if t_holds (t_map t) c then inl (TBool true, t_put t k (stored v)) else inl (TBool false, t)
  | TErase k c =>
      if t_holds (t_map t) c then inl (TBool (t_exists t k), t_erase t k) else inl (TBool false, t)
  | TIncr k delta =>
      match t_incr (t_map t) k delta with
      | Some z => inl (TNum z, t_put t k (PInt z))
      | None => inr OutOfRange
      end
  | TIncrDouble k fadd delta =>
      match t_incr_double fadd (t_map t) k delta with
      | Some b => inl (TVal (PDouble b), t_put t k (stored (PDouble b)))
      | None => inr OutOfRange
      end
  | TClear => inl (TUnit, t_cleared t)
  | TExists k => inl (TBool (t_exists t k), t)
  | TType k => inl (TNum (type_code (t_map t !! k)), t)
  | TAt k => match t_map t !! k with Some v => inl (TVal v, t) | None => inr OutOfRange end
  | TNext cur => match t_next (t_map t) cur with Some (k, v) => inl (TKeyVal k v, t) | None => inr OutOfRange end
  | TItems => inl (TList (t_items (t_map t)), t)
  | TSize => inl (TNum (u64 (Z.of_nat (size (t_map t)) + t_extra t)), t)
  | TNodeSize => inl (TNum (u64 (Z.of_nat (size (t_nodes t)) + t_nerr t)), t)
  | TFind k => inl (TItem ((fun v => (k, v)) <$> t_map t !! k), t)
  | TLower k => inl (TItem (match t_map t !! k with Some v => Some (k, v) | None => t_next (t_map t) (Some k) end), t)
  | TUpper k => inl (TItem (t_next (t_map t) (Some k)), t)
  | TNodesFor p => inl (TNum (t_nodes_for t p), t)
  | TBytesFor p => inl (TNum (t_bytes_for t p), t)
  end.

(** What may be left of the tree after an exception.  Only running out of memory
    leaves a trace: nodes on the path of the key; an insertion may have deleted the
    old value; an increment may have counted a new key. *)
Definition t_left (t : ptree) (x : top) (e : exn) (t' : ptree) : Prop :=
  t_nerr t' = t_nerr t /\
  match x, e with
  | TInsert k _ _, RuntimeError =>
      partly_reached k (t_nodes t) (t_nodes t') /\
      (t_map t' = t_map t \/ t_map t' = delete k (t_map t)) /\ t_extra t' = t_extra t
  | TIncr k _, RuntimeError =>
      partly_reached k (t_nodes t) (t_nodes t') /\ t_map t' = t_map t /\
      (t_extra t' = t_extra t \/ t_map t !! k = None /\ t_extra t' = t_extra t + 1)
  | TIncrDouble k _ _, RuntimeError =>
      partly_reached k (t_nodes t) (t_nodes t') /\ t_map t' = t_map t /\ t_extra t' = t_extra t
  | _, _ => t' = t
  end.

Definition t_requests (t : ptree) (x : top) : list Z :=
  match x with
  | TInsert k v c =>
      if t_holds (t_map t) c then reach_sizes (t_nodes t) [] k ++ insert_sizes t k v else []
  | TIncr k delta => reach_sizes (t_nodes t) [] k ++ incr_sizes t k (PInt <$> t_incr (t_map t) k delta)
  | TIncrDouble k fadd delta =>
      reach_sizes (t_nodes t) [] k ++ incr_sizes t k (PDouble <$> t_incr_double fadd (t_map t) k delta)
  | _ => []
  end.
Definition t_frees (t : ptree) (x : top) : list Z :=
  match x with
  | TInsert k _ _ | TIncr k _ | TIncrDouble k _ _ => reach_frees (t_nodes t) [] k ++ val_sizes_at (t_map t) k
  | TErase k _ => val_sizes_at (t_map t) k ++ path_sizes (t_nodes t) k
  | TClear => node_sizes (t_nodes t) ++ all_val_sizes (t_map t)
  | _ => []
  end.
Definition t_args_ok (x : top) : Prop :=
  match x with
  | TInsert k v _ => bytes_ok k /\ pval_ok v
  | TIncr k _ => bytes_ok k
  | TIncrDouble k _ delta => bytes_ok k /\ is_u64 delta
  | _ => True
  end.
(** Values that bytes_for_prefix() counts correctly: not "", not 0.0, and no block at
    keys that are prefixes of other ones. *)
Definition counted (t : ptree) (k : bytes) (v : pval) : Prop :=
  match v with PStr [] => False | PDouble b => d_zero b = false | _ => True end /\
  (is_Some (t_nodes t !! k) -> val_sizes v = []).
(** Cases that the code gets wrong (see C31, C32, C55 and C57) are left out. *)
Definition t_handled (t : ptree) (x : top) : Prop :=
  match x with
  | TIncrDouble k _ delta => t_map t !! k = None -> d_zero delta = false
  | TNext (Some k) | TUpper k => t_hole t [] k = false
  | TLower k => t_map t !! k = None -> t_hole t [] k = false
  | TBytesFor p => map_Forall (fun k v => p `prefix_of` k -> counted t k v) (t_map t)
  | _ => True
  end.
