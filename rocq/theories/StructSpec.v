(** * What a user of the data structures relies on: histories over one pool.

    Any number of objects (queues, priority queues, hash tables, prefix trees, raw blocks) live in one pool
    and any number of processes use them.  A history is played against the model by
    [sgame]: every event is executed by running the modelled code of one process on
    the shared pool, under the allocator lock; the client keeps, for every object
    (identified by its base offset), its abstract value, updated by [ideal].  Since
    a C++ handle consists of the allocator and the base offset only, the same object
    may be used by any process at any time: this is what closing and reopening by
    offset amounts to. *)
From Verif Require Export World SimpleSpec IdealSpec AllocModel QueueModel PriorityQueueModel HashTableModel PrefixTreeModel TreeOps.
Open Scope Z_scope.

Inductive kind := KQueue | KPrio | KBlob (n : Z) | KHash (bits : Z) | KTree.
Inductive value :=
  | VQueue (l : list bytes)      (* the items from front to back *)
  | VPrio (l : list bytes)       (* the items in ascending order *)
  | VBlob (b : bytes)            (* a raw block and its contents *)
  | VHash (t : htable)           (* the slots *)
  | VTree (t : ptree) (ok : bool).  (* keys, values and nodes; no operation on it has run out of memory *)
Inductive op :=
  | QPush (front : bool) (d : bytes) | QPop (front : bool) | QSize | QBytes | QVerify
  | PPush (d : bytes) | PPop | PClear | PSize
  | BWrite (k : Z) (d : bytes) | BRead (k n : Z) | BSize
  | HInsert (k v : bytes) (check : option (bytes * option bytes))
  | HErase (k : bytes) (check : option (bytes * option bytes))
  | HExists (k : bytes) | HAt (k : bytes) | HSize | HClear | HItems
  | HIncr (k : bytes) (delta : Z)
  | HIncrFloat (k : bytes) (fadd : bytes -> bytes -> Z) (delta : bytes)
  | OTree (x : top).
Inductive result := RUnit | RBytes (d : bytes) | RNum (n : Z) | RBool (b : bool)
  | RPairs (l : list (bytes * bytes)) | RTree (r : tresult).

(** ** The ideal objects *)
(** Either the operation returns a result and leaves a new value, or it raises an
    exception. *)
Inductive answer := Return (r : result) (v : value) | Raise (e : exn).

Section hash_function.
Context {hash : HashFn}.

(** None: the operation does not apply to such an object. *)
Definition ideal (v : value) (x : op) : option answer :=
  match v, x with
  | VQueue l, QPush f d => Some (Return RUnit (VQueue (q_push_ideal f d l)))
  | VQueue l, QPop f =>
      Some match q_pop_ideal f l with
           | Some (d, l') => Return (RBytes d) (VQueue l')
           | None => Raise OutOfRange
           end
  | VQueue l, QSize => Some (Return (RNum (Z.of_nat (length l))) v)
  | VQueue l, QBytes => Some (Return (RNum (q_total l)) v)
  | VQueue l, QVerify => Some (Return RUnit v)
  | VPrio l, PPush d => Some (Return RUnit (VPrio (insert_sorted d l)))
  | VPrio l, PPop =>
      Some match pq_pop_ideal l with
           | Some (d, l') => Return (RBytes d) (VPrio l')
           | None => Raise OutOfRange
           end
  | VPrio l, PClear => Some (Return RUnit (VPrio []))
  | VPrio l, PSize => Some (Return (RNum (Z.of_nat (length l))) v)
  | VBlob b, BWrite k d =>
      if bool_decide (0 <= k /\ k + dlen d <= dlen b)
      then Some (Return RUnit (VBlob (take (Z.to_nat k) b ++ d ++ drop (Z.to_nat k + length d) b)))
      else None
  | VBlob b, BRead k n =>
      if bool_decide (0 <= k /\ 0 <= n /\ k + n <= dlen b)
      then Some (Return (RBytes (take (Z.to_nat n) (drop (Z.to_nat k) b))) v)
      else None
  | VBlob b, BSize => Some (Return (RNum (dlen b)) v)
  | VHash t, HInsert k w c =>
      Some (if h_holds hash t c then Return (RBool true) (VHash (h_put hash t k w)) else Return (RBool false) v)
  | VHash t, HErase k c =>
      Some (if h_holds hash t c
            then Return (RBool (bool_decide (h_get hash t k <> None))) (VHash (h_del hash t k))
            else Return (RBool false) v)
  | VHash t, HExists k => Some (Return (RBool (bool_decide (h_get hash t k <> None))) v)
  | VHash t, HAt k =>
      Some match h_get hash t k with Some w => Return (RBytes w) v | None => Raise OutOfRange end
  | VHash t, HSize => Some (Return (RNum (Z.of_nat (length (h_items t)))) v)
  | VHash t, HClear => Some (Return RUnit (VHash (h_cleared t)))
  | VHash t, HItems => Some (Return (RPairs (h_items t)) v)
  | VHash t, HIncr k delta =>
      Some match h_incr_value hash (add_int delta) (le_bytes 8 delta) t k with
           | Some w => Return (RNum (signed w)) (VHash (h_put hash t k w))
           | None => Raise OutOfRange
           end
  | VHash t, HIncrFloat k fadd delta =>
      Some match h_incr_value hash (add_float fadd delta) delta t k with
           | Some w => Return (RBytes w) (VHash (h_put hash t k w))
           | None => Raise OutOfRange
           end
  | VTree t ok, OTree y =>
      Some match t_ideal t y with inl (r, t') => Return (RTree r) (VTree t' ok) | inr e => Raise e end
  | _, _ => None
  end.
Definition after_op (v : value) (x : op) : value :=
  match ideal v x with Some (Return _ v') => v' | _ => v end.
(** What an exception may leave behind: nothing, except in trees. *)
Definition left_by (v : value) (x : op) (e : exn) (v' : value) : Prop :=
  match v, x with
  | VTree t ok, OTree y => exists t', v' = VTree t' (ok && negb (bool_decide (e = RuntimeError))) /\ t_left t y e t'
  | _, _ => v' = v
  end.

(** The value of a new object; a raw block has whatever contents the memory has. *)
Definition new_value (k : kind) (W : world) (o : Z) : value :=
  match k with
  | KQueue => VQueue []
  | KPrio => VPrio []
  | KBlob n => VBlob (w_read W o (Z.to_nat n))
  | KHash bits => VHash (h_new bits)
  | KTree => VTree t_new true
  end.

(** ** Memory *)
(** Sizes of the blocks that an operation may request from the allocator. *)
Definition requests (v : value) (x : op) : list Z :=
  match v, x with
  | VQueue _, QPush _ d => [16 + dlen d]
  | VPrio l, PPush d =>
      [256] ++ (if bool_decide (l = []) then [] else [16 * Z.of_nat (length l)]) ++ [dlen d]
  | VHash t, HInsert k w _ => [dlen k + dlen w; 24; 24]
  | VHash t, HIncr k _ | VHash t, HIncrFloat k _ _ =>
      match h_get hash t k with Some _ => [] | None => [dlen k + 8; 24; 24] end
  | VTree t _, OTree y => t_requests t y
  | _, _ => []
  end.
Definition create_requests (k : kind) : list Z :=
  match k with KQueue => [48] | KPrio => [24] | KBlob n => [n] | KHash bits => [24; 16 * 2 ^ bits] | KTree => [2080] end.
(** Sizes of the blocks that an operation may give back. *)
Definition frees (v : value) (x : op) : list Z :=
  match v, x with
  | VQueue l, QPop f => match q_pop_ideal f l with Some (d, _) => [16 + dlen d] | None => [] end
  | VPrio l, PPop => match pq_pop_ideal l with Some (d, _) => [dlen d] | None => [] end
  | VPrio l, PClear => map dlen l
  | VHash t, HInsert k _ c =>
      match h_get hash t k with Some w => [dlen k + dlen w] | None => [] end
  | VHash t, HErase k c =>
      match h_get hash t k with Some w => [dlen k + dlen w] ++ (if fst (h_slot_of hash t k) then [24] else []) | None => [] end
  | VHash t, HClear => h_frees t
  | VTree t _, OTree y => t_frees t y
  | _, _ => []
  end.
(** Total size of the blocks that an object owns, where it is a function of the
    value: a priority queue keeps its old arrays. *)
Definition footprint (v : value) : option Z :=
  match v with
  | VQueue l => Some (48 + 16 * Z.of_nat (length l) + q_total l)
  | VPrio _ => None
  | VBlob b => Some (dlen b)
  | VHash t => Some (h_bytes t)
  | VTree t _ => Some (t_bytes t)
  end.
Definition opt_add (x y : option Z) : option Z :=
  match x, y with Some x, Some y => Some (x + y) | _, _ => None end.
Definition total_footprint (objs : gmap Z value) : option Z :=
  map_fold (fun _ v s => opt_add (footprint v) s) (Some 0) objs.

(** What is known of an allocator: the sizes of requests that it serves correctly,
    the sizes up to which free may fail to give a block back (see C45), and whether
    all offsets are odd multiples of 8 (this matters for C23 only). *)
Record alloc_limits := AllocLimits { min_request : Z; max_request : Z; leaky_upto : Z; odd_offsets : bool }.
Definition simple_limits : alloc_limits := AllocLimits 0 (2 ^ 61) 16 false.
Definition request_ok (lm : alloc_limits) (n : Z) : Prop := min_request lm <= n <= max_request lm.
Definition given_back (lm : alloc_limits) (l : list Z) : bool :=
  forallb (fun n => leaky_upto lm <? n) l.

(** Arguments are byte strings; doubles have 8 bytes. *)
Definition args_ok (x : op) : Prop :=
  match x with
  | QPush _ d | PPush d | BWrite _ d => bytes_ok d
  | HInsert k v _ => bytes_ok k /\ bytes_ok v
  | HIncr k _ => bytes_ok k
  | HIncrFloat k _ delta => bytes_ok k /\ bytes_ok delta /\ length delta = 8%nat
  | OTree y => t_args_ok y
  | _ => True
  end.
(** Cases that the code gets wrong (see C23, C25, C31 and C32) are left out. *)
Definition handled (lm : alloc_limits) (v : value) (x : op) : Prop :=
  match v, x with
  | VHash t, HErase k c => h_holds hash t c = true -> erase_ok hash (odd_offsets lm) t k
  | VHash t, HIncr k _ | VHash t, HIncrFloat k _ _ => fst (h_slot_of hash t k) = false
  | VTree t _, OTree y => t_handled t y
  | _, _ => True
  end.
(** Operations that are undefined behaviour if the pool grows (see C25). *)
Definition needs_steady_pool (v : value) (x : op) : bool :=
  match v, x with
  | VHash t, HIncr k _ | VHash t, HIncrFloat k _ _ => bool_decide (h_get hash t k = None)
  | _, _ => false
  end.
Definition sensible (lm : alloc_limits) (v : value) (x : op) : Prop :=
  args_ok x /\ Forall (request_ok lm) (requests v x) /\ handled lm v x.
Definition sensible_kind (lm : alloc_limits) (k : kind) : Prop :=
  Forall (request_ok lm) (create_requests k) /\
  match k with KHash bits => 2 <= bits <= 30 | _ => True end.
(** Blocks may be lost when memory runs out in the middle of an operation. *)
Definition may_lose (lm : alloc_limits) (v : value) (x : op) (e : exn) : bool :=
  match v with
  | VHash _ => bool_decide (e = RuntimeError)
  | VTree _ _ => bool_decide (e = RuntimeError) && negb (given_back lm (frees v x))
  | _ => false
  end.
Definition creation_may_lose (k : kind) : bool :=
  match k with KHash _ => true | _ => false end.

(** ** The code that is run *)
Open Scope prog_scope.
Section code.
  Context (al : allocator) (F : nat).
  Definition create_prog (k : kind) : prog Z :=
    match k with
    | KQueue => q_create al
    | KPrio => pq_create al
    | KBlob n => al_allocate al n
    | KHash bits => h_create al bits
    | KTree => t_create al
    end.
  (** Opening the structure that is the pool's base object, creating it if there is
      none. *)
  Definition open_base_prog (k : kind) : option (prog Z) :=
    match k with
    | KQueue => Some (q_open_base al)
    | KPrio => Some (pq_open_base al)
    | KHash bits => Some (h_open_base al bits)
    | KTree => Some (t_open_base al)
    | KBlob _ => None
    end.
  Definition tree_prog (o : Z) (x : top) : prog tresult :=
    match x with
    | TInsert k v c => b <- t_insert al F o k v c ;; Ret (TBool b)
    | TErase k c => b <- t_erase_key al F o k c ;; Ret (TBool b)
    | TIncr k delta => z <- t_incr_int al o k delta ;; Ret (TNum z)
    | TIncrDouble k fadd delta => b <- t_incr_dbl al fadd o k delta ;; Ret (TVal (PDouble b))
    | TClear => t_clear al F o ;; Ret TUnit
    | TExists k => b <- t_has o k ;; Ret (TBool b)
    | TType k => n <- t_type_at o k ;; Ret (TNum n)
    | TAt k => v <- t_at al o k ;; Ret (TVal v)
    | TNext cur => '(k, v) <- t_next_key_value al F o cur ;; Ret (TKeyVal k v)
    | TItems => l <- t_iterate al F o ;; Ret (TList l)
    | TSize => n <- t_size o ;; Ret (TNum n)
    | TNodeSize => n <- t_node_count o ;; Ret (TNum n)
    | TFind k => r <- t_find_item al o k ;; Ret (TItem r)
    | TLower k => r <- t_lower_bound al F o k ;; Ret (TItem r)
    | TUpper k => r <- t_upper_bound al F o k ;; Ret (TItem r)
    | TNodesFor p => n <- t_nodes_for_prefix F o p ;; Ret (TNum n)
    | TBytesFor p => n <- t_bytes_for_prefix al F o p ;; Ret (TNum n)
    end.
  Definition op_prog (o : Z) (x : op) : prog result :=
    match x with
    | QPush f d => q_push al o f d ;; Ret RUnit
    | QPop f => d <- q_pop al o f ;; Ret (RBytes d)
    | QSize => n <- q_size o ;; Ret (RNum n)
    | QBytes => n <- q_bytes o ;; Ret (RNum n)
    | QVerify => q_verify al F o ;; Ret RUnit
    | PPush d => pq_push al o d ;; Ret RUnit
    | PPop => d <- pq_pop al o ;; Ret (RBytes d)
    | PClear => pq_clear al o ;; Ret RUnit
    | PSize => n <- pq_size o ;; Ret (RNum n)
    | BWrite k d => store_bytes (o + k) d ;; Ret RUnit
    | BRead k n => d <- load_bytes (o + k) (Z.to_nat n) ;; Ret (RBytes d)
    | BSize => n <- al_block_size al o ;; Ret (RNum n)
    | HInsert k v c => b <- h_insert al F hash o k v c ;; Ret (RBool b)
    | HErase k c => b <- h_erase al F hash o k c ;; Ret (RBool b)
    | HExists k => b <- h_exists al F hash o k ;; Ret (RBool b)
    | HAt k => d <- h_at al F hash o k ;; Ret (RBytes d)
    | HSize => n <- h_size o ;; Ret (RNum n)
    | HClear => h_clear al F o ;; Ret RUnit
    | HItems => l <- h_iterate al F o ;; Ret (RPairs l)
    | HIncr k delta => n <- h_incr_int al F hash o k delta ;; Ret (RNum n)
    | HIncrFloat k fadd delta => d <- h_incr_float al F hash fadd o k delta ;; Ret (RBytes d)
    | OTree y => r <- tree_prog o y ;; Ret (RTree r)
    end.
End code.
Close Scope prog_scope.

(** ** Histories *)
Inductive gevent :=
  | GCreate (i : nat) (k : kind)         (* process i creates an object *)
  | GOpenBase (i : nat) (k : kind)       (* process i opens the base object, or creates it *)
  | GSetBase (i : nat) (v : Z)           (* set_base_object_offset *)
  | GOp (i : nat) (o : Z) (x : op)       (* process i uses object o *)
  | GFree (i : nat) (o : Z)              (* process i frees the raw block o *)
  | GOpen (i : nat) (mx : Z)             (* a new process opens the pool *)
  | GDie (i : nat).                      (* process i dies, outside of any operation *)

(** World, objects, base object; [g_tidy]: no block has been lost so far. *)
Record gstate := GS { g_w : world; g_objs : gmap Z value; g_base : Z; g_tidy : bool }.

Inductive gobs :=
  | GOCreated (pr : proc) (k : kind) (o : Z)
  | GOCreateFailed (pr : proc) (k : kind) (e : exn)
  | GOReturned (pr : proc) (o : Z) (v : value) (x : op) (r : result)
  | GORaised (pr : proc) (o : Z) (v : value) (x : op) (e : exn)
  | GOOpenedBase (pr : proc) (k : kind) (o : Z)
  | GOOther.

(** Construction of the allocator by a process that opens the pool. *)
Definition open_with (al : allocator) (W : world) (i : nat) (mx : Z) : wres unit :=
  match open_by W i mx with
  | WDone _ W' => run_by W' i (al_construct al)
  | r => r
  end.

Section game.
  Context (al : allocator) (lm : alloc_limits) (F : nat).
  Context (cs : gstate -> Prop) (ct : gstate -> gobs -> gstate -> Prop).

  Fixpoint sgame (evs : list gevent) (st : gstate) : Prop :=
    cs st /\
    let '(GS W objs bo tidy) := st in
    match evs with
    | [] => True
    | ev :: evs' =>
      let next ob st' := ct st ob st' /\ sgame evs' st' in
      match ev with
      | GCreate i k =>
          sensible_kind lm k ->
          match w_procs W !! i with
          | None => True
          | Some pr =>
              match run_by W i (sa_lock ;; create_prog al k)%prog with
              | WDone o W' => objs !! o = None /\
                  next (GOCreated pr k o) (GS W' (<[o := new_value k W' o]> objs) bo tidy)
              | WExn e W' => next (GOCreateFailed pr k e) (GS W' objs bo (tidy && negb (creation_may_lose k)))
              | WBad | WNoProc => False
              end
          end
      | GOpenBase i k =>
          sensible_kind lm k ->
          match w_procs W !! i, open_base_prog al k with
          | Some pr, Some p =>
              match run_by W i (sa_lock ;; p)%prog with
              | WDone o W' =>
                  if bool_decide (bo = 0)
                  then objs !! o = None /\
                       next (GOCreated pr k o) (GS W' (<[o := new_value k W' o]> objs) o tidy)
                  else next (GOOpenedBase pr k o) (GS W' objs bo tidy)
              | WExn e W' => next (GOCreateFailed pr k e) (GS W' objs bo (tidy && negb (creation_may_lose k)))
              | WBad | WNoProc => False
              end
          | _, _ => True
          end
      | GSetBase i v =>
          is_u64 v ->
          match w_procs W !! i with
          | None => True
          | Some pr =>
              match run_by W i (sa_lock ;; al_set_base al v)%prog with
              | WDone _ W' => next GOOther (GS W' objs v tidy)
              | WExn _ _ | WBad | WNoProc => False
              end
          end
      | GOp i o x =>
          match objs !! o, w_procs W !! i with
          | Some v, Some pr =>
              ideal v x <> None -> sensible lm v x ->
              (needs_steady_pool v x = true -> ~ may_grow pr W (w_size W + 1)) ->
              match run_by W i (sa_lock ;; op_prog al F o x)%prog with
              | WDone r W' =>
                  next (GOReturned pr o v x r)
                       (GS W' (<[o := after_op v x]> objs) bo (tidy && given_back lm (frees v x)))
              | WExn e W' => exists v', left_by v x e v' /\
                  next (GORaised pr o v x e) (GS W' (<[o := v']> objs) bo (tidy && negb (may_lose lm v x e)))
              | WBad | WNoProc => False
              end
          | _, _ => True
          end
      | GFree i o =>
          match objs !! o, w_procs W !! i with
          | Some (VBlob b), Some pr =>
              match run_by W i (sa_lock ;; al_free al o)%prog with
              | WDone _ W' =>
                  next GOOther (GS W' (delete o objs) bo (tidy && given_back lm [dlen b]))
              | WExn _ _ | WBad | WNoProc => False
              end
          | _, _ => True
          end
      | GOpen i mx =>
          0 <= mx -> w_procs W !! i = None ->
          match open_with al W i mx with
          | WDone _ W' => next GOOther (GS W' objs bo tidy)
          | WExn _ _ | WBad | WNoProc => False
          end
      | GDie i =>
          next GOOther (GS (World (w_mem W) (w_fsize W) (w_lim W) (delete i (w_procs W))) objs bo tidy)
      end
    end.
End game.

(** ** The checks *)
(** The outcome of every operation is the ideal one, except that an operation that
    requests memory may raise runtime_error, and then only when the pool may not
    grow; a new object is at a new place. *)
Definition out_of_space (pr : proc) (W : world) (l : list Z) (e : exn) : Prop :=
  e = RuntimeError /\ l <> [] /\ ~ may_grow pr W (w_size W + space l).
Definition ideal_results (st : gstate) (ob : gobs) (st' : gstate) : Prop :=
  match ob with
  | GOReturned pr o v x r => exists v', ideal v x = Some (Return r v')
  | GORaised pr o v x e =>
      ideal v x = Some (Raise e) \/ out_of_space pr (g_w st) (requests v x) e
  | GOCreateFailed pr k e => out_of_space pr (g_w st) (create_requests k) e
  | GOOpenedBase pr k o => o = g_base st
  | GOCreated _ _ _ | GOOther => True
  end.
(** The pool never shrinks, and grows only within the limits of the acting process. *)
Definition grows_within (st : gstate) (ob : gobs) (st' : gstate) : Prop :=
  let grown pr l :=
    w_size (g_w st) <= w_size (g_w st') <= w_size (g_w st) + space l /\
    (w_size (g_w st') = w_size (g_w st) \/ may_grow pr (g_w st) (w_size (g_w st'))) in
  match ob with
  | GOReturned pr o v x _ | GORaised pr o v x _ => grown pr (requests v x)
  | GOCreated pr k _ | GOCreateFailed pr k _ => grown pr (create_requests k)
  | GOOpenedBase _ _ _ | GOOther => w_size (g_w st') = w_size (g_w st)
  end.
(** The bytes of raw blocks are what was written to them. *)
Definition blobs_intact (st : gstate) : Prop :=
  forall o b, g_objs st !! o = Some (VBlob b) -> w_read (g_w st) o (length b) = b.
(** bytes_allocated() is the sum of what the objects own. *)
Definition no_leak (al : allocator) (st : gstate) : Prop :=
  g_tidy st = true -> forall n, total_footprint (g_objs st) = Some n ->
  forall i, is_Some (w_procs (g_w st) !! i) ->
  match run_by (g_w st) i (sa_lock ;; al_bytes_allocated al)%prog with WDone v _ => v = n | _ => False end.
(** The base object, as read by any process. *)
Definition base_kept (al : allocator) (st : gstate) : Prop :=
  forall i, is_Some (w_procs (g_w st) !! i) ->
  match run_by (g_w st) i (sa_lock ;; al_get_base al)%prog with WDone v _ => v = g_base st | _ => False end.

(** C17: queues. *)
Definition deque_results (st : gstate) (ob : gobs) (st' : gstate) : Prop :=
  let is o l := g_objs st !! o = Some (VQueue l) in
  let becomes o l := g_objs st' = <[o := VQueue l]> (g_objs st) in
  let unchanged := g_objs st' = g_objs st in
  match ob with
  | GOReturned _ o _ (QPush true d) r => exists l, is o l /\ becomes o (d :: l)
  | GOReturned _ o _ (QPush false d) r => exists l, is o l /\ becomes o (l ++ [d])
  | GOReturned _ o _ (QPop true) r => exists d l, is o (d :: l) /\ r = RBytes d /\ becomes o l
  | GOReturned _ o _ (QPop false) r => exists d l, is o (l ++ [d]) /\ r = RBytes d /\ becomes o l
  | GORaised _ o _ (QPop _) e => is o [] /\ e = OutOfRange /\ unchanged
  | GORaised pr o _ (QPush _ d) e =>
      e = RuntimeError /\ ~ may_grow pr (g_w st) (w_size (g_w st) + room (16 + dlen d)) /\ unchanged
  | _ => True
  end.
(** C18: size(), bytes() and verify(). *)
Definition queue_counts (st : gstate) (ob : gobs) (st' : gstate) : Prop :=
  let is o l := g_objs st !! o = Some (VQueue l) in
  match ob with
  | GOReturned _ o _ QSize r => exists l, is o l /\ r = RNum (Z.of_nat (length l))
  | GOReturned _ o _ QBytes r => exists l, is o l /\ r = RNum (Z.of_nat (length (concat l)))
  | GORaised _ o _ (QSize | QBytes | QVerify) _ => False
  | _ => True
  end.
(** C21 and C22: priority queues. *)
Definition prio_pops_least (st : gstate) (ob : gobs) (st' : gstate) : Prop :=
  match ob with
  | GOReturned _ o _ PPop r =>
      exists d l, g_objs st !! o = Some (VPrio l) /\ r = RBytes d /\ d ∈ l /\
        forall d', d' ∈ l -> lex_le d d'
  | GORaised _ o _ PPop e => g_objs st !! o = Some (VPrio []) /\ e = OutOfRange /\ g_objs st' = g_objs st
  | _ => True
  end.
Definition prio_multiset (st : gstate) (ob : gobs) (st' : gstate) : Prop :=
  let is o l := g_objs st !! o = Some (VPrio l) in
  let becomes o l := g_objs st' = <[o := VPrio l]> (g_objs st) in
  match ob with
  | GOReturned _ o _ (PPush d) r => exists l l', is o l /\ becomes o l' /\ l' ≡ₚ d :: l
  | GOReturned _ o _ PPop r => exists d l l', is o l /\ r = RBytes d /\ becomes o l' /\ l ≡ₚ d :: l'
  | GOReturned _ o _ PClear r => becomes o []
  | GOReturned _ o _ PSize r => exists l, is o l /\ r = RNum (Z.of_nat (length l))
  | GORaised pr o _ (PPush d) e =>
      exists l, is o l /\ g_objs st' = g_objs st /\ e = RuntimeError /\
        ~ may_grow pr (g_w st) (w_size (g_w st) + space [256; 16 * Z.of_nat (length l); dlen d])
  | GORaised _ o _ (PClear | PSize) _ => False
  | _ => True
  end.

(** C23, C24, C25 and C26: hash tables, in terms of the finite maps they stand for. *)
Definition holds_in (m : gmap bytes bytes) (check : option (bytes * option bytes)) : Prop :=
  match check with
  | None => True
  | Some (k, expected) => m !! k = expected
  end.
Section hash_checks.
  Context (st : gstate) (ob : gobs) (st' : gstate).
  (** Object [o] is a hash table with contents [m], before and after. *)
  Let is o m := exists t, g_objs st !! o = Some (VHash t) /\ h_map t = m.
  Let becomes o m := exists t, g_objs st' = <[o := VHash t]> (g_objs st) /\ h_map t = m.
  Let unchanged := g_objs st' = g_objs st.
  Definition hash_is_a_map : Prop :=
    match ob with
    | GOCreated _ (KHash _) o => exists t, g_objs st' = <[o := VHash t]> (g_objs st) /\ h_map t = ∅
    | GOReturned _ o _ (HInsert k v None) r => exists m, is o m /\ r = RBool true /\ becomes o (<[k := v]> m)
    | GOReturned _ o _ (HErase k None) r =>
        exists m, is o m /\ r = RBool (bool_decide (is_Some (m !! k))) /\ becomes o (delete k m)
    | GOReturned _ o _ (HExists k) r => exists m, is o m /\ r = RBool (bool_decide (is_Some (m !! k))) /\ unchanged
    | GOReturned _ o _ (HAt k) r => exists m v, is o m /\ m !! k = Some v /\ r = RBytes v /\ unchanged
    | GORaised _ o _ (HAt k) e => exists m, is o m /\ m !! k = None /\ e = OutOfRange /\ unchanged
    | GOReturned _ o _ HSize r => exists m, is o m /\ r = RNum (Z.of_nat (size m)) /\ unchanged
    | GOReturned _ o _ HClear r => becomes o ∅
    | GORaised pr o _ (HInsert k v _) e =>
        e = RuntimeError /\ unchanged /\
        ~ may_grow pr (g_w st) (w_size (g_w st) + space [dlen k + dlen v; 24; 24])
    | GORaised _ o _ (HErase _ _ | HExists _ | HSize | HClear | HItems) e => False
    | _ => True
    end.
  Definition hash_compare_and_set : Prop :=
    match ob with
    | GOReturned _ o _ (HInsert k v c) r => exists m, is o m /\
        ((holds_in m c /\ r = RBool true /\ becomes o (<[k := v]> m)) \/
         (~ holds_in m c /\ r = RBool false /\ unchanged))
    | GOReturned _ o _ (HErase k c) r => exists m, is o m /\
        ((holds_in m c /\ r = RBool (bool_decide (is_Some (m !! k))) /\ becomes o (delete k m)) \/
         (~ holds_in m c /\ r = RBool false /\ unchanged))
    | _ => True
    end.
  Definition hash_iteration : Prop :=
    match ob with
    | GOReturned _ o _ HItems r =>
        exists m l, is o m /\ r = RPairs l /\ NoDup (map fst l) /\ list_to_map l = m /\ unchanged
    | _ => True
    end.
  (** [x] is [y] wrapped around to a signed number of [n] bytes. *)
  Definition wraps_to (n : Z) (y x : Z) : Prop :=
    (x - y) mod 256 ^ n = 0 /\ - 256 ^ n <= 2 * x < 256 ^ n.
  Definition hash_incr_adds : Prop :=
    match ob with
    | GOReturned _ o _ (HIncr k delta) r => exists m new n,
        is o m /\ becomes o (<[k := new]> m) /\ dlen new = n /\ r = RNum (signed new) /\
        match m !! k with
        | None => n = 8 /\ wraps_to 8 delta (signed new)
        | Some old => n = dlen old /\ n ∈ [1; 2; 4; 8] /\ wraps_to n (signed old + delta) (signed new)
        end
    | GOReturned _ o _ (HIncrFloat k fadd delta) r => exists m new,
        is o m /\ becomes o (<[k := new]> m) /\ r = RBytes new /\
        match m !! k with
        | None => new = delta
        | Some old => dlen old ∈ [4; 8] /\ new = le_bytes (length old) (fadd old delta)
        end
    | GORaised pr o _ (HIncr k _) e => unchanged /\ exists m, is o m /\
        match m !! k with
        | Some old => e = OutOfRange /\ dlen old ∉ [1; 2; 4; 8]
        | None => e = RuntimeError
        end
    | GORaised pr o _ (HIncrFloat k _ _) e => unchanged /\ exists m, is o m /\
        match m !! k with
        | Some old => e = OutOfRange /\ dlen old ∉ [4; 8]
        | None => e = RuntimeError
        end
    | _ => True
    end.
End hash_checks.
End hash_function.
