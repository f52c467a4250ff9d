(** * lower_bound of a prefix tree while others work: what is claimed (C62).

    lower_bound(k) (PrefixTree.cc:657-668) calls at(k) and, if that raises OutOfRange,
    upper_bound(k) (PrefixTree.cc:674-682); each takes the lock for itself, so that anything
    may happen in between: any history in the sense of [sgame]. *)
From Verif Require Export StructSpec TreeChecks.
Open Scope Z_scope.

(** [x] was found in [m2] after [k] was not found in [m1]: it is stored in [m2], after [k], and
    no key at or after [k] that is stored in both comes before it. *)
Definition bound_between (m1 m2 : gmap bytes pval) (k : bytes) (x : option (bytes * pval)) : Prop :=
  match x with Some (k', v) => m2 !! k' = Some v /\ lex_lt k k' = true | None => True end /\
  forall k'', is_Some (m1 !! k'') -> is_Some (m2 !! k'') -> lex_le k k'' ->
  match x with Some (k', _) => lex_le k' k'' | None => False end.

Section bound.
  Context {hash : HashFn} (al : allocator) (lm : alloc_limits) (F : nat).
  (** C62: in every state, for every tree and key; a key [k] that leads to an empty slot is left
      out (see C31, C55). *)
  Definition lower_bound_under_changes (st : gstate) : Prop :=
    forall o t ok i k, g_objs st !! o = Some (VTree t ok) -> is_Some (w_procs (g_w st) !! i) ->
    match run_by (g_w st) i (sa_lock ;; op_prog al F o (OTree (TAt k)))%prog with
    | WDone r _ => exists v, r = RTree (TVal v) /\ t_map t !! k = Some v
    | WExn e W1 => e = OutOfRange /\ t_map t !! k = None /\
        forall history,
        sgame al lm F
          (fun st2 => exists t2 ok2, g_objs st2 !! o = Some (VTree t2 ok2) /\
             (is_Some (w_procs (g_w st2) !! i) -> t_handled t2 (TUpper k) ->
              match run_by (g_w st2) i (sa_lock ;; op_prog al F o (OTree (TUpper k)))%prog with
              | WDone r W2 => exists x, r = RTree (TItem x) /\ bound_between (t_map t) (t_map t2) k x
              | _ => False
              end))
          (fun _ _ _ => True) history (GS W1 (g_objs st) (g_base st) (g_tidy st))
    | _ => False
    end.
End bound.
