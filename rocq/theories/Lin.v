(** * Linearizability.

    A history is the sequence of calls and returns of all processes, in the order
    in which they happen. It is linearizable with respect to a sequential object
    when each call can be given a point between its call and its return at which
    it takes effect on the object all at once and has the recorded result. A call
    whose process dies may or may not have taken effect. *)
From Verif Require Export Base.

Section lin.
  Context {C R V : Type}.
  (** The sequential object: [obj v c r v'] - in state [v], call [c] may return [r]
      and leave the state [v']. *)
  Context (obj : V -> C -> R -> V -> Prop).

  Inductive hevent :=
    | HCall (i : nat) (c : C)
    | HReturn (i : nat) (r : R)
    | HDie (i : nat).

  (** Calls in progress: not yet effective, or effective with a result. *)
  Inductive pending := PCalled (c : C) | PDone (r : R).

  Inductive linearizable : gmap nat pending -> V -> list hevent -> V -> Prop :=
    | lin_nil P v : linearizable P v [] v
    | lin_call P v i c h v' :
        P !! i = None -> linearizable (<[i := PCalled c]> P) v h v' ->
        linearizable P v (HCall i c :: h) v'
    | lin_effect P v i c r v1 h v' :
        P !! i = Some (PCalled c) -> obj v c r v1 ->
        linearizable (<[i := PDone r]> P) v1 h v' ->
        linearizable P v h v'
    | lin_return P v i r h v' :
        P !! i = Some (PDone r) -> linearizable (delete i P) v h v' ->
        linearizable P v (HReturn i r :: h) v'
    | lin_die P v i h v' :
        linearizable (delete i P) v h v' ->
        linearizable P v (HDie i :: h) v'.
End lin.
Arguments hevent : clear implicits.
