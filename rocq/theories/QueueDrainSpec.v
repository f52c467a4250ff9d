(** * Emptying a queue after a crash: what is claimed.

    A process dies inside push_front, push_back, pop_front or pop_back (Queue.cc:94-170);
    then the queue is emptied from one end, by any processes, the first of which takes the
    lock over. *)
From Verif Require Export CrashSpec.
Open Scope Z_scope.

(** The items after the operation, from front to back. *)
Definition queue_after (x : op) (l : list bytes) : list bytes :=
  match x with
  | QPush true d => d :: l
  | QPush false d => l ++ [d]
  | QPop true => tail l
  | QPop false => removelast l
  | _ => l
  end.
(** The ends from which the queue can be emptied: both after a crash in push_front or
    pop_back, the front after one in push_back, the back after one in pop_front. *)
Definition can_empty_from (x : op) (front : bool) : Prop :=
  match x with
  | QPush true _ | QPop false => True
  | QPush false _ => front = true
  | QPop true => front = false
  | _ => False
  end.
(** The items of [l], in the order in which they come out. *)
Definition from_end (front : bool) (l : list bytes) : list bytes := if front then l else rev l.

Section drain.
  Context {hash : HashFn}.
  Context (F : nat).
  Let al := simple_allocator F.
  (** pop(front), called again and again by any living processes, returns the items of [l]
      in this order and then raises OutOfRange; [died] says that the process that holds the
      lock is dead, and is over with the first call, which takes the lock over. *)
  Fixpoint drains (W : world) (died front : bool) (o : Z) (l : list bytes) : Prop :=
    forall j, is_Some (w_procs W !! j) ->
    match l with
    | [] => exists W', run_by W j (under_lock died (sa_repair F) (q_pop al o front)) = WExn OutOfRange W'
    | d :: l' => exists W', run_by W j (under_lock died (sa_repair F) (q_pop al o front)) = WDone d W' /\
        drains W' false front o l'
    end.
  (** For every queue, every operation, every process and every point of its death. *)
  Definition queues_drain (st : gstate) : Prop :=
    forall i o l x front W',
      g_objs st !! o = Some (VQueue l) -> sensible simple_limits (VQueue l) x ->
      can_empty_from x front -> dies_in (g_w st) i (sa_lock ;; op_prog al F o x)%prog W' ->
      drains W' true front o (from_end front l) \/
      drains W' true front o (from_end front (queue_after x l)).
End drain.
