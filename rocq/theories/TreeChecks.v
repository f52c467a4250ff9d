(** * What a user relies on of prefix trees (C27-C35, C55-C57), in terms of the finite maps from
    keys to typed values that they stand for.  The checks are played along the
    histories of StructSpec.v. *)
From Coq Require Export Sorting.Sorted.
From Verif Require Export StructSpec.
Open Scope Z_scope.

(** [w] is read back where [v] was stored. *)
Definition same_value (v w : pval) : Prop :=
  w = v \/ exists b, v = PDouble b /\ d_zero b = true /\ w = PDouble 0.
(** [p] is a proper prefix of [k]. *)
Definition proper_prefix (p k : bytes) : Prop := exists c r, k = p ++ c :: r.
(** What exists() answers: C29 asks for membership only. *)
Definition seems_stored (m : gmap bytes pval) (k : bytes) : Prop :=
  is_Some (m !! k) \/ k = [] \/ exists k', is_Some (m !! k') /\ proper_prefix k k'.
(** The nodes that are needed for the keys of [m]. *)
Definition proper_prefixes (k : bytes) : list bytes := map (fun n => take n k) (seq 0 (length k)).
Definition needed_nodes (m : gmap bytes pval) : gset bytes :=
  list_to_set ([] :: concat (map (fun x => proper_prefixes (fst x)) (map_to_list m))).
(** Expected and current value agree, in the forms where the code compares them
    correctly; see [C34_check_by_reference_refuted] for the other one. *)
Definition agrees (v : option pval) (x : expected) : Prop :=
  match x with
  | EMissing => v = None
  | EStr s => v = Some (PStr s)
  | EStrRef s => False
  | EInt z => v = Some (PInt z)
  | EDouble b => exists b', v = Some (PDouble b') /\ d_eq b' b = true
  | EBool b => v = Some (PBool b)
  | ENull => v = Some PNull
  end.
Definition check_holds (m : gmap bytes pval) (c : tcheck) : Prop :=
  match c with None => True | Some (k, x) => agrees (m !! k) x end.
Definition value_bytes (v : pval) : Z := match v with PStr s => dlen s | _ => 8 end.
(** Room for storing value [v] under key [k]. *)
Definition tree_room (k : bytes) (v : pval) : Z := (dlen k + 1) * room (2064 + value_bytes v).

Section tree_checks.
  Context {hash : HashFn} (al : allocator) (F : nat).

  (** Every process that calls at() and type() on object [o] gets [v]. *)
  Definition reads_back (st : gstate) (o : Z) (k : bytes) (v : pval) : Prop :=
    forall i, is_Some (w_procs (g_w st) !! i) ->
    (exists w W', run_by (g_w st) i (sa_lock ;; op_prog al F o (OTree (TAt k)))%prog = WDone (RTree (TVal w)) W' /\
       same_value v w) /\
    (exists W', run_by (g_w st) i (sa_lock ;; op_prog al F o (OTree (TType k)))%prog =
       WDone (RTree (TNum (type_code (Some v)))) W').

  Context (st : gstate) (ob : gobs) (st' : gstate).
  (** Object [o] is a tree with contents [m], before and after; the flag says that no
      operation on it has ever run out of memory. *)
  Let has o m ok := exists t, g_objs st !! o = Some (VTree t ok) /\ t_map t = m.
  Let is o m := exists ok, has o m ok.
  Let becomes o m := exists t ok, g_objs st' = <[o := VTree t ok]> (g_objs st) /\ t_map t = m.
  Let unchanged := g_objs st' = g_objs st.
  Let full pr k v := ~ may_grow pr (g_w st) (w_size (g_w st) + tree_room k v).

  (** C27. *)
  Definition tree_is_a_map : Prop :=
    match ob with
    | GOCreated _ KTree o => becomes o ∅
    | GOReturned _ o _ (OTree (TInsert k v None)) r =>
        exists m w, is o m /\ same_value v w /\ r = RTree (TBool true) /\ becomes o (<[k := w]> m)
    | GOReturned _ o _ (OTree (TErase k None)) r => exists m, is o m /\ becomes o (delete k m)
    | GOReturned _ o _ (OTree TClear) r => becomes o ∅
    | GOReturned _ o _ (OTree (TAt k)) r => exists m v, is o m /\ m !! k = Some v /\ r = RTree (TVal v) /\ unchanged
    | GORaised _ o _ (OTree (TAt k)) e => exists m, is o m /\ m !! k = None /\ e = OutOfRange /\ unchanged
    | GOReturned _ o _ (OTree (TType k)) r => exists m, is o m /\ r = RTree (TNum (type_code (m !! k))) /\ unchanged
    | GOReturned _ o _ (OTree (TExists _ | TNext _ | TItems | TSize | TNodeSize)) r => unchanged
    | GOReturned _ o _ (OTree (TFind _ | TLower _ | TUpper _ | TNodesFor _ | TBytesFor _)) r => unchanged
    | GORaised _ o _ (OTree (TNext _)) e => unchanged
    | GORaised pr o _ (OTree (TInsert k v _)) e =>
        e = RuntimeError /\ full pr k v /\
        exists m, is o m /\ (becomes o m \/ becomes o (delete k m))
    | GORaised _ o _ (OTree (TErase _ _ | TExists _ | TType _ | TClear | TItems | TSize | TNodeSize)) e => False
    | GORaised _ o _ (OTree (TFind _ | TLower _ | TUpper _ | TNodesFor _ | TBytesFor _)) e => False
    | _ => True
    end.
  (** C35: a failed insert touches no other key, and nothing at all if its key is new. *)
  Definition tree_failed_insert : Prop :=
    match ob with
    | GORaised pr o _ (OTree (TInsert k v _)) e => e = RuntimeError /\ full pr k v /\
        exists m m', is o m /\ becomes o m' /\
          (forall k', k' <> k -> m' !! k' = m !! k') /\
          (m !! k = None -> m' = m) /\
          (m' !! k = None \/ m' !! k = m !! k)
    | _ => True
    end.
  (** C28. *)
  Definition tree_lossless : Prop :=
    match ob with
    | GOReturned _ o _ (OTree (TInsert k v _)) r => r = RTree (TBool true) -> reads_back st' o k v
    | _ => True
    end.
  (** C29 and C30: with exists() for membership, provided that memory never ran out. *)
  Definition tree_exists : Prop :=
    match ob with
    | GOReturned _ o _ (OTree (TExists k)) r => exists m ok b, has o m ok /\ r = RTree (TBool b) /\
        unchanged /\ (is_Some (m !! k) -> b = true) /\ (ok = true -> b = true <-> seems_stored m k)
    | _ => True
    end.
  Definition tree_erases : Prop :=
    match ob with
    | GOReturned _ o _ (OTree (TErase k None)) r => exists m ok b, has o m ok /\ r = RTree (TBool b) /\
        becomes o (delete k m) /\
        (is_Some (m !! k) -> b = true) /\ (ok = true -> b = true <-> seems_stored m k)
    | _ => True
    end.
  (** C31. *)
  Definition tree_order : Prop :=
    match ob with
    | GOReturned _ o _ (OTree (TNext cur)) r => exists m k v, is o m /\ r = RTree (TKeyVal k v) /\ unchanged /\
        m !! k = Some v /\ is_after cur k = true /\
        forall k', is_Some (m !! k') -> is_after cur k' = true -> lex_le k k'
    | GORaised _ o _ (OTree (TNext cur)) e => exists m, is o m /\ e = OutOfRange /\ unchanged /\
        forall k, is_Some (m !! k) -> is_after cur k = false
    | GOReturned _ o _ (OTree TItems) r => exists m l, is o m /\ r = RTree (TList l) /\ unchanged /\
        StronglySorted (fun x y => lex_lt (fst x) (fst y) = true) l /\
        forall k v, (k, v) ∈ l <-> m !! k = Some v
    | _ => True
    end.
  (** The calls of next_key() that the code gets right: those for stored keys at
      least. *)
  Definition next_of_stored_is_handled : Prop :=
    forall o t ok k, g_objs st !! o = Some (VTree t ok) -> is_Some (t_map t !! k) ->
    t_handled t (TNext (Some k)).
  (** C32. *)
  Definition tree_incr_adds : Prop :=
    match ob with
    | GOReturned _ o _ (OTree (TIncr k delta)) r => exists m new,
        is o m /\ becomes o (<[k := PInt new]> m) /\ r = RTree (TNum new) /\
        match m !! k with
        | None => wraps_to 8 delta new
        | Some (PInt old) => wraps_to 8 (old + delta) new
        | Some _ => False
        end
    | GOReturned _ o _ (OTree (TIncrDouble k fadd delta)) r => exists m new w,
        is o m /\ becomes o (<[k := w]> m) /\ r = RTree (TVal (PDouble new)) /\ same_value (PDouble new) w /\
        match m !! k with
        | None => new = delta
        | Some (PDouble old) => new = u64 (fadd old delta)
        | Some _ => False
        end
    | GORaised pr o _ (OTree (TIncr k _)) e => exists m, is o m /\
        match m !! k with
        | Some (PInt _) | None => e = RuntimeError /\ full pr k PNull /\ becomes o m
        | Some _ => e = OutOfRange /\ unchanged
        end
    | GORaised pr o _ (OTree (TIncrDouble k _ _)) e => exists m, is o m /\
        match m !! k with
        | Some (PDouble _) | None => e = RuntimeError /\ full pr k PNull /\ becomes o m
        | Some _ => e = OutOfRange /\ unchanged
        end
    | _ => True
    end.
  (** C33. *)
  Definition tree_counts : Prop :=
    match ob with
    | GOReturned _ o _ (OTree TSize) r => exists m ok, has o m ok /\ unchanged /\
        (ok = true -> r = RTree (TNum (Z.of_nat (size m))))
    | GOReturned _ o _ (OTree TNodeSize) r => exists m ok, has o m ok /\ unchanged /\
        (ok = true -> r = RTree (TNum (Z.of_nat (size (needed_nodes m)))))
    | _ => True
    end.
  Definition emptied_tree_owns_root_only : Prop :=
    forall o t, g_objs st !! o = Some (VTree t true) -> t_map t = ∅ ->
    t_nodes t = t_nodes t_new /\ footprint (VTree t true) = Some 2080.
  (** C55: the iterator is at the first of the items [P], or at the end if there is
      none. *)
  Definition first_item (m : gmap bytes pval) (P : bytes -> Prop) (x : option (bytes * pval)) : Prop :=
    match x with
    | Some (k, v) => m !! k = Some v /\ P k /\ forall k', is_Some (m !! k') -> P k' -> lex_le k k'
    | None => forall k, is_Some (m !! k) -> ~ P k
    end.
  Definition tree_bounds : Prop :=
    match ob with
    | GOReturned _ o _ (OTree (TFind k)) r =>
        exists m x, is o m /\ r = RTree (TItem x) /\ unchanged /\ first_item m (fun k' => k' = k) x
    | GOReturned _ o _ (OTree (TLower k)) r =>
        exists m x, is o m /\ r = RTree (TItem x) /\ unchanged /\ first_item m (fun k' => lex_le k k') x
    | GOReturned _ o _ (OTree (TUpper k)) r =>
        exists m x, is o m /\ r = RTree (TItem x) /\ unchanged /\ first_item m (fun k' => lex_lt k k' = true) x
    | GORaised _ o _ (OTree (TFind _ | TLower _ | TUpper _)) e => False
    | _ => True
    end.
  (** The bounds that the code gets right: those of stored keys, of prefixes of stored
      keys and of longer keys than a stored one that is no prefix of another one. *)
  Definition bounds_handled : Prop :=
    forall o t ok k, g_objs st !! o = Some (VTree t ok) ->
    (is_Some (t_map t !! k) \/ (exists k', is_Some (t_map t !! k') /\ proper_prefix k k') \/
     (exists k', is_Some (t_map t !! k') /\ proper_prefix k' k /\ t_nodes t !! k' = None)) ->
    t_handled t (TLower k) /\ t_handled t (TUpper k).
  (** C56: the nodes that there are; if memory never ran out, those that are needed. *)
  Definition tree_prefix_nodes : Prop :=
    match ob with
    | GOReturned _ o _ (OTree (TNodesFor p)) r => exists t ok, g_objs st !! o = Some (VTree t ok) /\ unchanged /\
        r = RTree (TNum (t_nodes_for t p)) /\
        (ok = true -> t_nodes_for t p = Z.of_nat (size (filter (fun q => p `prefix_of` q) (needed_nodes (t_map t)))))
    | GORaised _ o _ (OTree (TNodesFor _)) e => False
    | _ => True
    end.
  (** C57. *)
  Definition tree_prefix_bytes : Prop :=
    match ob with
    | GOReturned _ o _ (OTree (TBytesFor p)) r => exists t ok, g_objs st !! o = Some (VTree t ok) /\ unchanged /\
        r = RTree (TNum (t_bytes_for t p)) /\
        (p = [] -> footprint (VTree t ok) = Some (t_bytes_for t [] + 16))
    | GORaised _ o _ (OTree (TBytesFor _)) e => False
    | _ => True
    end.
  (** C34. *)
  Definition tree_compare_and_set : Prop :=
    match ob with
    | GOReturned _ o _ (OTree (TInsert k v c)) r => exists m, is o m /\
        ((check_holds m c /\ r = RTree (TBool true) /\ exists w, same_value v w /\ becomes o (<[k := w]> m)) \/
         (~ check_holds m c /\ r = RTree (TBool false) /\ unchanged))
    | GOReturned _ o _ (OTree (TErase k c)) r => exists m, is o m /\
        ((check_holds m c /\ becomes o (delete k m) /\ (is_Some (m !! k) -> r = RTree (TBool true))) \/
         (~ check_holds m c /\ r = RTree (TBool false) /\ unchanged))
    | _ => True
    end.
End tree_checks.
