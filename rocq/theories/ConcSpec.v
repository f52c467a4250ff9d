(** * Concurrent use of the data structures under the allocator's lock (C38).

    Any number of processes call operations on the objects of one pool.  Each call
    takes the allocator's lock (ProcessReadWriteLockGuard, SimpleAllocator.cc:201-220,
    LogarithmicAllocator.cc:442-461), exclusively or shared as in the code, and runs
    there; the schedule interleaves the individual memory accesses and system calls
    of all processes in any way.

    Simplifications.  Obtaining the lock is one step, possible when nobody holds it in
    a conflicting way (that the lock's code achieves this, and that it does not leave
    anybody behind, is C36, C37 and C39).  The call of check_size_and_remap that
    precedes the lock may change the mapping of the waiting process to any size of at
    least one page, at any time, and any number of times.  A process may die while it
    waits or between calls, but not while it holds the lock (for deaths under the
    lock see C06, C13 and C20).  Iterators take the lock anew for each step, so an
    iteration is not one call; nor is lower_bound, which takes it twice. *)
From Verif Require Export StructSpec Lin.
Open Scope Z_scope.

Inductive ccall :=
  | CCreate (k : kind)          (* the constructors without an offset *)
  | COpenBase (k : kind)        (* the constructors that open the base object *)
  | COp (o : Z) (x : op)        (* an operation on the object at o *)
  | CFree (o : Z)               (* Allocator::free, under the caller's lock *)
  | CSetBase (v : Z).           (* set_base_object_offset, under the caller's lock *)
Inductive cres :=
  | CReturned (r : result)
  | CAt (o : Z)                 (* the offset of the object created or opened *)
  | CRaised (e : exn)
  | CFault.                     (* undefined behaviour or an endless loop *)

(** lock(true) or lock(false).  Queue.cc:18-195, PriorityQueue.cc:18-142,
    HashTable.cc:15-623, PrefixTree.cc:17-786. *)
Definition top_writes (x : top) : bool :=
  match x with
  | TInsert _ _ _ | TErase _ _ | TIncr _ _ | TIncrDouble _ _ _ | TClear => true
  | TExists _ | TType _ | TAt _ | TNext _ | TItems | TSize | TNodeSize
  | TFind _ | TLower _ | TUpper _ | TNodesFor _ | TBytesFor _ => false
  end.
Definition op_writes (x : op) : bool :=
  match x with
  | QPush _ _ | QPop _ | PPush _ | PPop | PClear | BWrite _ _
  | HInsert _ _ _ | HErase _ _ | HClear | HIncr _ _ | HIncrFloat _ _ _ => true
  | QSize | QBytes | QVerify | PSize | BRead _ _ | BSize | HExists _ | HAt _ | HSize | HItems => false
  | OTree x => top_writes x
  end.
Definition is_call (c : ccall) : bool :=
  match c with COp _ HItems | COp _ (OTree TItems) | COp _ (OTree (TLower _)) => false | _ => true end.

Section hash_function.
Context {hash : HashFn}.

(** ** The sequential object *)
(** The objects in the pool and the base object; None once a call has been made that
    the properties do not cover: then anything may happen. *)
Notation cstate := (option (gmap Z value * Z)).

Definition usable (lm : alloc_limits) (objs : gmap Z value) (c : ccall) : Prop :=
  match c with
  | CCreate k => sensible_kind lm k
  | COpenBase k => sensible_kind lm k /\ match k with KBlob _ => False | _ => True end
  | COp o x => match objs !! o with
               | Some v => ideal v x <> None /\ sensible lm v x /\ needs_steady_pool v x = false
               | None => False
               end
  | CFree o => match objs !! o with Some (VBlob _) => True | _ => False end
  | CSetBase v => is_u64 v
  end.
(** The possible values of a new object. *)
Definition new_object (k : kind) (v : value) : Prop :=
  match k with
  | KQueue => v = VQueue []
  | KPrio => v = VPrio []
  | KBlob n => exists b, v = VBlob b /\ dlen b = n
  | KHash bits => v = VHash (h_new bits)
  | KTree => v = VTree t_new true
  end.

Inductive cobj (lm : alloc_limits) : cstate -> ccall -> cres -> cstate -> Prop :=
  | ob_none c r : cobj lm None c r None
  | ob_misused objs bo c r : ~ usable lm objs c -> cobj lm (Some (objs, bo)) c r None
  | ob_returned objs bo o v x r v' :
      objs !! o = Some v -> ideal v x = Some (Return r v') ->
      cobj lm (Some (objs, bo)) (COp o x) (CReturned r) (Some (<[o := v']> objs, bo))
  | ob_raised objs bo o v x e v' :
      objs !! o = Some v -> left_by v x e v' ->
      ideal v x = Some (Raise e) \/ (requests v x <> [] /\ e = RuntimeError) ->   (* no memory *)
      cobj lm (Some (objs, bo)) (COp o x) (CRaised e) (Some (<[o := v']> objs, bo))
  | ob_created objs bo k o v :
      objs !! o = None -> new_object k v ->
      cobj lm (Some (objs, bo)) (CCreate k) (CAt o) (Some (<[o := v]> objs, bo))
  | ob_create_failed objs bo k :
      cobj lm (Some (objs, bo)) (CCreate k) (CRaised RuntimeError) (Some (objs, bo))
  | ob_opened objs bo k : bo <> 0 ->
      cobj lm (Some (objs, bo)) (COpenBase k) (CAt bo) (Some (objs, bo))
  | ob_created_base objs k o v :
      objs !! o = None -> new_object k v ->
      cobj lm (Some (objs, 0)) (COpenBase k) (CAt o) (Some (<[o := v]> objs, o))
  | ob_create_base_failed objs k :
      cobj lm (Some (objs, 0)) (COpenBase k) (CRaised RuntimeError) (Some (objs, 0))
  | ob_freed objs bo o b :
      objs !! o = Some (VBlob b) ->
      cobj lm (Some (objs, bo)) (CFree o) (CReturned RUnit) (Some (delete o objs, bo))
  | ob_set_base objs bo v :
      cobj lm (Some (objs, bo)) (CSetBase v) (CReturned RUnit) (Some (objs, v)).

(** ** The machine *)
Open Scope prog_scope.
Section machine.
  Context (al : allocator) (F : nat).

  (** The critical sections of a call: whether exclusive, and the code.  A section
      that returns None is followed by the next one.  Only the constructors that open
      the base object have two (Queue.cc:23-40, PriorityQueue.cc:22-39,
      HashTable.cc:19-35, PrefixTree.cc:24-42). *)
  Definition section (c : ccall) (n : nat) : bool * prog (option cres) :=
    match c, n with
    | CCreate k, O => (true, o <- create_prog al k ;; Ret (Some (CAt o)))
    | COpenBase k, O =>
        (false, b <- al_get_base al ;; Ret (if bool_decide (b = 0) then None else Some (CAt b)))
    | COpenBase k, 1%nat =>
        (true, match open_base_prog al k with
               | Some p => o <- p ;; Ret (Some (CAt o))
               | None => Undef
               end)
    | COp o x, O => (op_writes x, r <- op_prog al F o x ;; Ret (Some (CReturned r)))
    | CFree o, O => (true, al_free al o ;; Ret (Some (CReturned RUnit)))
    | CSetBase v, O => (true, al_set_base al v ;; Ret (Some (CReturned RUnit)))
    | _, _ => (true, Undef)
    end.

  Inductive thread :=
    | TWaiting (c : ccall) (n : nat)                            (* for its n-th section *)
    | TInside (c : ccall) (n : nat) (p : prog (option cres)).   (* with p left to do *)
  Record mstate := MS { m_w : world; m_t : gmap nat thread }.

  Definition compatible (exclusive : bool) (t : thread) : bool :=
    match t with
    | TWaiting _ _ => true
    | TInside c n _ => negb exclusive && negb (fst (section c n))
    end.
  Definition may_enter (T : gmap nat thread) (exclusive : bool) : bool :=
    bool_decide (map_Forall (fun _ t => compatible exclusive t = true) T).

  (** The schedule; events that are not possible have no effect. *)
  Inductive sevent :=
    | SCall (i : nat) (c : ccall)    (* process i makes a call *)
    | SRemap (i : nat) (n : Z)       (* waiting process i changes its mapping *)
    | SStep (i : nat)                (* process i obtains the lock, or makes one access, or returns *)
    | SDie (i : nat)                 (* process i dies, not holding the lock *)
    | SOpen (i : nat) (mx n : Z).    (* a new process opens the pool; maps n bytes *)

  Definition set_proc (W : world) (i : nat) (pr : proc) : world :=
    World (w_mem W) (w_fsize W) (w_lim W) (<[i := pr]> (w_procs W)).
  Definition del_proc (W : world) (i : nat) : world :=
    World (w_mem W) (w_fsize W) (w_lim W) (delete i (w_procs W)).

  Definition cstep (M : mstate) (ev : sevent) : mstate * list (hevent ccall cres) :=
    let '(MS W T) := M in
    match ev with
    | SCall i c =>
        match w_procs W !! i, T !! i with
        | Some _, None => if is_call c then (MS W (<[i := TWaiting c 0]> T), [HCall i c]) else (M, [])
        | _, _ => (M, [])
        end
    | SRemap i n =>
        match w_procs W !! i, T !! i with
        | Some pr, Some (TWaiting _ _) =>
            if bool_decide (PAGE <= n) then (MS (set_proc W i (Proc n (p_max pr) (p_epoch pr + 1))) T, []) else (M, [])
        | _, _ => (M, [])
        end
    | SStep i =>
        match w_procs W !! i, T !! i with
        | Some pr, Some (TWaiting c n) =>
            if may_enter T (fst (section c n))
            then (MS W (<[i := TInside c n (check_size_and_remap ;; snd (section c n))]> T), [])
            else (M, [])
        | Some pr, Some (TInside c n p) =>
            let return_ r := (MS W (delete i T), [HReturn i r]) in
            match p with
            | Ret (Some r) => return_ r
            | Ret None => (MS W (<[i := TWaiting c (S n)]> T), [])
            | Throw e => return_ (CRaised e)
            | Undef | NoFuel => return_ CFault
            | Op e k =>
                match exec e (view W pr) with
                | Some (v, s) => (MS (leave W i s) (<[i := TInside c n (k v)]> T), [])
                | None => return_ CFault
                end
            end
        | _, _ => (M, [])
        end
    | SDie i =>
        match T !! i with
        | Some (TInside _ _ _) => (M, [])
        | _ => (MS (del_proc W i) (delete i T), [HDie i])
        end
    | SOpen i mx n =>
        match w_procs W !! i with
        | None => if bool_decide (0 <= mx /\ PAGE <= n) then (MS (set_proc W i (Proc n mx 0)) T, []) else (M, [])
        | Some _ => (M, [])
        end
    end.

  Fixpoint crun (M : mstate) (evs : list sevent) : mstate * list (hevent ccall cres) :=
    match evs with
    | [] => (M, [])
    | ev :: evs' => let '(M1, h1) := cstep M ev in let '(M2, h2) := crun M1 evs' in (M2, h1 ++ h2)
    end.
End machine.
Close Scope prog_scope.
End hash_function.
Notation cstate := (option (gmap Z value * Z)).
