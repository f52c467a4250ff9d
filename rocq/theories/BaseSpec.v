(** * Opening the pool's base object: what is claimed (C63).

    Constructors called without an offset (Queue.cc:23-40, PriorityQueue.cc:22-39,
    HashTable.cc:20-37, PrefixTree.cc:24-42) read the base object under the read lock.  If
    none is set, they take the write lock, read it again and, if there is still none, create
    an object and make it the base object ([open_base_prog]).  Between the two, anything may
    happen: any history in the sense of [sgame]. *)
From Verif Require Export StructSpec.
Open Scope Z_scope.

Section base.
  Context {hash : HashFn} (al : allocator) (lm : alloc_limits) (F : nat).
  (** The two halves of the constructors. *)
  Definition first_half (st : gstate) (i : nat) : wres Z := run_by (g_w st) i (sa_lock ;; al_get_base al)%prog.
  Definition second_half (st : gstate) (i : nat) (p : prog Z) : wres Z := run_by (g_w st) i (sa_lock ;; p)%prog.

  (** Whoever comes to the end of either half gets [o]. *)
  Definition everyone_gets (o : Z) (st : gstate) : Prop :=
    forall j, is_Some (w_procs (g_w st) !! j) ->
    match first_half st j with WDone b _ => b = o | _ => False end /\
    forall k p, open_base_prog al k = Some p -> sensible_kind lm k ->
    match second_half st j p with WDone b _ => b = o | _ => False end.
  Definition sets_no_base (ev : gevent) : Prop := match ev with GSetBase _ _ => False | _ => True end.
  (** It stays like this until someone calls set_base_object_offset. *)
  Definition from_now_on (o : Z) (st : gstate) : Prop :=
    forall history, List.Forall sets_no_base history ->
    sgame al lm F (everyone_gets o) (fun _ _ _ => True) history st.

  (** C63: in every state, for every process and structure. *)
  Definition openers_agree (st : gstate) : Prop :=
    forall i k p, open_base_prog al k = Some p -> sensible_kind lm k -> is_Some (w_procs (g_w st) !! i) ->
    match first_half st i with
    | WDone b W1 =>
        let st1 := GS W1 (g_objs st) (g_base st) (g_tidy st) in
        (b <> 0 -> from_now_on b st1) /\
        (b = 0 -> forall history,
         sgame al lm F
          (fun st2 => forall pr, w_procs (g_w st2) !! i = Some pr ->
             match second_half st2 i p with
             | WDone o W2 => o <> 0 /\
                 if bool_decide (g_base st2 = 0)
                 then g_objs st2 !! o = None /\
                      from_now_on o (GS W2 (<[o := new_value k W2 o]> (g_objs st2)) o (g_tidy st2))
                 else o = g_base st2 /\ from_now_on o (GS W2 (g_objs st2) o (g_tidy st2))
             | WExn e _ => g_base st2 = 0 /\ out_of_space pr (g_w st2) (create_requests k) e
             | _ => False
             end)
          (fun _ _ _ => True) history st1)
    | _ => False
    end.
End base.
