(** * Iterations over prefix trees while others work: what is claimed (C61).

    A PrefixTreeIterator holds the current key and value; begin() and ++ call
    next_key_value() (PrefixTree.cc:628-638, 1453-1466, 1491-1501), which takes the lock.
    Between two of these calls anything may happen: any history in the sense of [sgame]. *)
From Verif Require Export StructSpec TreeChecks.
Open Scope Z_scope.

(** The keys ascend, so that none is visited twice; what is visited was in the tree, with
    this value, at the time of one of the calls; at the end, every key that was in the tree
    at the time of all calls has been visited. *)
Definition visits_in_order (finished : bool) (l : list (bytes * pval)) (seen : list value) : Prop :=
  StronglySorted (fun x y => lex_lt (fst x) (fst y) = true) l /\
  (forall k w, (k, w) ∈ l -> exists t ok, VTree t ok ∈ seen /\ t_map t !! k = Some w) /\
  (finished = true -> forall k,
     (forall v, v ∈ seen -> exists t ok, v = VTree t ok /\ is_Some (t_map t !! k)) -> k ∈ map fst l).

Section iteration.
  Context {hash : HashFn} (al : allocator) (lm : alloc_limits) (F : nat).
  (** The iterator is at [cur] (None: not yet at anything) after visiting the items [l]; it
      advances at most [G] times, each time after any history, by any process. [seen] are the
      values that the tree has had when the iterator called it. The code advances wrongly
      from a key that has meanwhile been erased if it falls into a gap of a node (see C31
      and the refutation of C61). OutOfRange is what the iterator catches to come to the
      end. *)
  Fixpoint tree_walk (G : nat) (o : Z) (cur : option bytes) (l : list (bytes * pval)) (seen : list value) (st : gstate) : Prop :=
    visits_in_order false l seen /\
    match G with
    | O => True
    | S G' =>
        forall history,
        sgame al lm F
          (fun st' => exists t ok, g_objs st' !! o = Some (VTree t ok) /\
             forall i, is_Some (w_procs (g_w st') !! i) -> t_handled t (TNext cur) ->
             match run_by (g_w st') i (sa_lock ;; op_prog al F o (OTree (TNext cur)))%prog with
             | WDone (RTree (TKeyVal k v)) W' =>
                 tree_walk G' o (Some k) (l ++ [(k, v)]) (seen ++ [VTree t ok])
                   (GS W' (g_objs st') (g_base st') (g_tidy st'))
             | WExn OutOfRange W' => visits_in_order true l (seen ++ [VTree t ok])
             | _ => False
             end)
          (fun _ _ _ => True) history st
    end.
  (** C61: in every state, for every tree. *)
  Definition tree_iteration_under_changes (st : gstate) : Prop :=
    forall o t ok G, g_objs st !! o = Some (VTree t ok) -> tree_walk G o None [] [] st.
End iteration.
