(** * Crashes in the middle of operations (README.md:288-294).

    Histories as in StructSpec.v, over a SimpleAllocator, in which a process may also
    die at any point of an operation on any object, while it creates an object, opens or
    changes the base object or frees a raw block, and holds the lock.  The next
    process that needs the lock takes it over and repairs the allocator
    (SimpleAllocator.cc:201-219, 238-262); it may die during that as well.  A process that
    dies in an operation that only reads (it holds the lock for reading) leaves nothing
    to take over (ProcessLock.cc:213-219). *)
From Verif Require Export SimpleSpec StructSpec.
Open Scope Z_scope.

(** The contents a crash during [x] may leave: the old ones or the new ones; an
    insertion may have removed the old value; clear() may have done a part of its work. *)
Definition crash_leaves (t : ptree) (x : top) (m : gmap bytes pval) : Prop :=
  m = t_map t \/
  (exists r t', t_ideal t x = inl (r, t') /\ m = t_map t') \/
  match x with
  | TInsert k _ c => t_holds (t_map t) c = true /\ m = delete k (t_map t)
  | TClear => m ⊆ t_map t
  | _ => False
  end.
(** Inserting a double over an integer that does not fit in 61 bits is left out (see
    C53_double_over_integer_refuted). *)
Definition crash_handled (t : ptree) (x : top) : Prop :=
  match x with
  | TInsert k (PDouble d) c =>
      t_holds (t_map t) c = true -> forall z, t_map t !! k = Some (PInt z) -> small_int z = true \/ d_zero d = true
  | _ => True
  end.

Definition only_reads (x : top) : bool :=
  match x with TInsert _ _ _ | TErase _ _ | TIncr _ _ | TIncrDouble _ _ _ | TClear => false | _ => true end.

(** The operations that take the lock for reading (Queue.cc:180-218, PriorityQueue.cc:141-145,
    HashTable.cc:537-626, PrefixTree.cc:546-697). *)
Definition op_only_reads (x : op) : bool :=
  match x with
  | QSize | QBytes | QVerify | PSize | BRead _ _ | BSize | HExists _ | HAt _ | HSize | HItems => true
  | OTree y => only_reads y
  | _ => false
  end.

Inductive cevent :=
  | CEv (ev : gevent)                       (* as in StructSpec.v *)
  | CCrash (ev : gevent)                    (* the process dies in the middle of ev *)
  | CTakeover (j : nat)                     (* process j takes the lock over and repairs *)
  | CCrashTakeover (j : nat).               (* process j dies while it repairs *)

Definition event_only_reads (ev : gevent) : bool :=
  match ev with GOp _ _ x => op_only_reads x | _ => false end.

(** [c_dirty]: the lock is held by a process that has died. *)
Record cstate := CS { c_g : gstate; c_dirty : bool }.

(** What is left of an object with the value [v] if a process dies in the middle of [x].
    Trees: see C53.  Raw blocks: the bytes outside of the range that is written.  Of a
    queue, a priority queue or a hash table nothing is promised (README.md:288-294, C20). *)
Inductive crash_value : value -> op -> option value -> Prop :=
  | cv_tree t ok y t' : crash_handled t y -> crash_leaves t y (t_map t') ->
      crash_value (VTree t ok) (OTree y) (Some (VTree t' false))
  | cv_tree_lost t ok y : ~ crash_handled t y -> crash_value (VTree t ok) (OTree y) None
  | cv_blob b k d b' : length b' = length b ->
      (forall i, Z.of_nat i < k \/ k + dlen d <= Z.of_nat i -> b' !! i = b !! i) ->
      crash_value (VBlob b) (BWrite k d) (Some (VBlob b'))
  | cv_queue l x : crash_value (VQueue l) x None
  | cv_prio l x : crash_value (VPrio l) x None
  | cv_hash t x : crash_value (VHash t) x None.

(** What is left of all objects and of the base object if a process dies in the middle of
    [ev].  When it opens the base object, there was none and the object is not a queue,
    the base object is then 0 or a complete new object.  (Opening the base object takes
    the lock for reading first and then for writing, e.g. HashTable.cc:22-32; dying under
    the first is [GDie].) *)
Definition crash_effect (objs : gmap Z value) (bo : Z) (ev : gevent) (W' : world) (objs' : gmap Z value) (bo' : Z) : Prop :=
  match ev with
  | GCreate _ _ => objs' = objs /\ bo' = bo
  | GOpenBase _ k =>
      (objs' = objs /\ bo' = bo) \/
      bo = 0 /\ match k with
                | KQueue => objs' = objs
                | _ => objs !! bo' = None /\ objs' = <[bo' := new_value k W' bo']> objs
                end
  | GSetBase _ v => objs' = objs /\ (bo' = bo \/ bo' = v)
  | GOp _ o x => bo' = bo /\ exists v l, objs !! o = Some v /\ crash_value v x l /\
      objs' = match l with Some v' => <[o := v']> objs | None => delete o objs end
  | GFree _ o => objs' = delete o objs /\ bo' = bo
  | GOpen _ _ | GDie _ => False
  end.

Section game.
  Context {hash : HashFn}.
  Context (F : nat) (ct : gstate -> gobs -> gstate -> Prop).
  Let al := simple_allocator F.
  Let takeover : prog unit := under_lock true (sa_repair F) (Ret tt).

  (** The process of [ev] dies at some point of [ev], which it calls as in StructSpec.v. *)
  Definition dies_during (W : world) (objs : gmap Z value) (ev : gevent) (W' : world) : Prop :=
    match ev with
    | GCreate i k => sensible_kind simple_limits k /\ dies_in W i (sa_lock ;; create_prog al k)%prog W'
    | GOpenBase i k => sensible_kind simple_limits k /\
        exists p, open_base_prog al k = Some p /\ dies_in W i (sa_lock ;; p)%prog W'
    | GSetBase i v => is_u64 v /\ dies_in W i (sa_lock ;; al_set_base al v)%prog W'
    | GOp i o x => exists v pr, objs !! o = Some v /\ w_procs W !! i = Some pr /\
        ideal v x <> None /\ sensible simple_limits v x /\
        (needs_steady_pool v x = true -> ~ may_grow pr W (w_size W + 1)) /\
        dies_in W i (sa_lock ;; op_prog al F o x)%prog W'
    | GFree i o => exists b, objs !! o = Some (VBlob b) /\ dies_in W i (sa_lock ;; al_free al o)%prog W'
    | GOpen _ _ | GDie _ => False
    end.

  Fixpoint cgame (evs : list cevent) (st : cstate) : Prop :=
    match evs with
    | [] => True
    | CEv ev :: evs' =>
        match c_dirty st, ev with
        | false, _ =>
            sgame al simple_limits F (fun _ => True)
              (fun st1 ob st2 => ct st1 ob st2 /\ cgame evs' (CS st2 false)) [ev] (c_g st)
        | true, GOpen _ _ | true, GDie _ =>
            sgame al simple_limits F (fun _ => True)
              (fun st1 ob st2 => cgame evs' (CS st2 true)) [ev] (c_g st)
        | true, _ => True                   (* waits for the lock *)
        end
    | CCrash ev :: evs' =>
        let '(GS W objs bo tidy) := c_g st in
        match c_dirty st with
        | false =>
            forall W', dies_during W objs ev W' ->
            if event_only_reads ev then cgame evs' (CS (GS W' objs bo tidy) false)
            else exists objs' bo', crash_effect objs bo ev W' objs' bo' /\
              cgame evs' (CS (GS W' objs' bo' false) true)
        | true => True                      (* waits for the lock *)
        end
    | CTakeover j :: evs' =>
        let '(GS W objs bo tidy) := c_g st in
        match c_dirty st, w_procs W !! j with
        | true, Some _ =>
            match run_by W j takeover with
            | WDone _ W' =>
                (* the operation for which the lock was taken then runs as if the lock had been free *)
                (forall A (p : prog A), run_by W j (under_lock true (sa_repair F) p) = run_by W' j (sa_lock ;; p)%prog) /\
                cgame evs' (CS (GS W' objs bo tidy) false)
            | WExn _ _ | WBad | WNoProc => False
            end
        | _, _ => True
        end
    | CCrashTakeover j :: evs' =>
        let '(GS W objs bo tidy) := c_g st in
        match c_dirty st with
        | true => forall W', dies_in W j takeover W' -> cgame evs' (CS (GS W' objs bo tidy) true)
        | false => True
        end
    end.
End game.
