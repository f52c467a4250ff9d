(** * Iterations while others work: what is claimed (C60).

    An iteration over a hash table consists of many API calls that take the lock one after
    the other.  Here each of them is a step of its own, and between two of them anything
    may happen: any history in the sense of [sgame] (StructSpec.v). *)
From Verif Require Export StructSpec.
Open Scope Z_scope.

(** A client: it calls functions of the API, each of which runs under the lock. *)
Inductive client (A : Type) : Type :=
  | Finish (a : A)
  | Call {B : Type} (p : prog B) (k : B -> client A)
  | Wrong.                       (* undefined behaviour or an exception *)
Arguments Finish {A} a.
Arguments Call {A B} p k.
Arguments Wrong {A}.
Fixpoint cbind {A B} (c : client A) (f : A -> client B) : client B :=
  match c with
  | Finish a => f a
  | Call p k => Call p (fun x => cbind (k x) f)
  | Wrong => Wrong
  end.
Notation "x <~ p ;; q" := (cbind p (fun x => q)) (at level 100, p at next level, right associativity).

(** ** HashTableIterator, with every taking of the lock visible *)
(** The code is that of [h_advance] ... [h_iterate_from] in HashTableModel.v, where it runs
    in one go. *)
Section code.
  Context (al : allocator) (F : nat).
  (** advance_to_nonempty_slot_if_needed (HashTable.cc:813-824): bits() (HashTable.cc:617-620)
      and get_slot_contents() (HashTable.cc:564-602) take the lock. *)
  Fixpoint ih_advance (G : nat) (base : Z) (it : h_iter) : client h_iter :=
    if bool_decide (length (hi_items it) <= hi_index it)%nat then
      match G with
      | O => Wrong
      | S G' =>
          Call (h_bits base) (fun bits =>
          if bool_decide (hi_slot it + 1 < Z.shiftl 1 bits) then
            Call (h_slot_contents al F base (hi_slot it + 1)) (fun l =>
            ih_advance G' base (HIter (hi_slot it + 1) 0 l))
          else Finish (HIter (hi_slot it + 1) 0 []))
      end
    else Finish it.
  (** begin() (HashTable.cc:604-606, 755-765). *)
  Definition ih_begin (base : Z) : client h_iter :=
    Call (h_bits base) (fun bits =>
    if bool_decide (0 < Z.shiftl 1 bits) then
      Call (h_slot_contents al F base 0) (fun l => ih_advance F base (HIter 0 0 l))
    else Finish (HIter 0 0 [])).
  (** operator++ (HashTable.cc:788-801). *)
  Definition ih_next (base : Z) (it : h_iter) : client h_iter :=
    Call (h_bits base) (fun bits =>
    if bool_decide (Z.shiftl 1 bits <= hi_slot it) then Wrong
    else
      ih_advance F base
        (HIter (hi_slot it)
           (if bool_decide (hi_index it < length (hi_items it))%nat then S (hi_index it) else hi_index it)
           (hi_items it))).
  (** [it == end()] (HashTable.cc:608-610, 767-782). *)
  Definition ih_is_end (base : Z) (it : h_iter) : client bool :=
    Call (h_bits base) (fun bits =>
    Finish (bool_decide (hi_slot it = Z.shiftl 1 bits /\ (length (hi_items it) <= hi_index it)%nat))).
  (** [for (it = begin(); it != end(); ++it) l.push_back( *it )], at most [G] rounds: whether it
      has come to the end, and the pairs. *)
  Fixpoint ih_loop (G : nat) (base : Z) (it : h_iter) (l : list (bytes * bytes)) :
      client (bool * list (bytes * bytes)) :=
    e <~ ih_is_end base it ;;
    if (e : bool) then Finish (true, l)
    else match G with
    | O => Finish (false, l)
    | S G' =>
        match hi_items it !! hi_index it with
        | None => Wrong
        | Some x => it' <~ ih_next base it ;; ih_loop G' base it' (l ++ [x])
        end
    end.
  Definition ih_iterate (G : nat) (base : Z) : client (bool * list (bytes * bytes)) :=
    it <~ ih_begin base ;; ih_loop G base it [].

  Context {hash : HashFn} (lm : alloc_limits).
  (** [c] is executed from [st] on, by any processes, with any history before each of its
      calls; [seen] are the values that object [o] has had when calls were made.  No call
      raises an exception, and [Q] holds of the result. *)
  Fixpoint meanwhile {A} (c : client A) (o : Z) (seen : list value) (Q : A -> list value -> Prop)
      (st : gstate) : Prop :=
    forall history,
    sgame al lm F
      (fun st' =>
         match c with
         | Finish a => Q a seen
         | Wrong => False
         | Call p k => forall i v, is_Some (w_procs (g_w st') !! i) -> g_objs st' !! o = Some v ->
             match run_by (g_w st') i (sa_lock ;; p)%prog with
             | WDone b W' => meanwhile (k b) o (seen ++ [v]) Q (GS W' (g_objs st') (g_base st') (g_tidy st'))
             | _ => False
             end
         end)
      (fun _ _ _ => True) history st.
End code.

(** No key is visited twice; what is visited was in the table at the time of one of the
    calls, with this value; a key that was in the table at the time of all calls is visited
    (with the value that it had all the time, therefore, if that did not change). *)
Definition visits_what_is_there (r : bool * list (bytes * bytes)) (seen : list value) : Prop :=
  let '(finished, l) := r in
  NoDup (map fst l) /\
  (forall k w, (k, w) ∈ l -> exists t, VHash t ∈ seen /\ h_map t !! k = Some w) /\
  (finished = true -> forall k,
     (forall v, v ∈ seen -> exists t, v = VHash t /\ is_Some (h_map t !! k)) -> k ∈ map fst l).
(** C60: in every state, for every hash table. *)
Definition iteration_under_changes {hash : HashFn} (al : allocator) (lm : alloc_limits) (F : nat) (st : gstate) : Prop :=
  forall o t G, g_objs st !! o = Some (VHash t) ->
    meanwhile al F lm (ih_iterate al F G o) o [] visits_what_is_there st.
