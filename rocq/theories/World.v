(** * Several processes sharing one pool.

    A [world] is the pool file plus, for every live process that has the pool
    open, the size of its mapping, its max_size and its remap counter.  Each
    operation of a process is a program run on the view of that process. *)
From Verif Require Export Prog PoolModel.
Open Scope Z_scope.

Record proc := Proc { p_mapped : Z; p_max : Z; p_epoch : Z }.

Record world := World {
  w_mem : gmap Z Z;
  w_fsize : Z;
  w_lim : Z;
  w_procs : gmap nat proc
}.

Definition view (W : world) (p : proc) : pst :=
  mk_pst (w_mem W) (w_fsize W) (p_mapped p) (p_epoch p) (p_max p) (w_lim W).

(** The world after process [i] has reached the state [s]. *)
Definition leave (W : world) (i : nat) (s : pst) : world :=
  World (mem s) (fsize s) (w_lim W)
        (<[i := Proc (mapped s) (maxsz s) (epoch s)]> (w_procs W)).

(** The world after process [i] has died in the state [s]. *)
Definition die (W : world) (i : nat) (s : pst) : world :=
  World (mem s) (fsize s) (w_lim W) (delete i (w_procs W)).

(** The result of an operation [p] performed by process [i]. *)
Inductive wres (A : Type) :=
  | WDone (a : A) (W : world)
  | WExn (e : exn) (W : world)
  | WBad            (* undefined behaviour, or the loop bound was exceeded *)
  | WNoProc.        (* there is no such process *)
Arguments WDone {A}. Arguments WExn {A}. Arguments WBad {A}. Arguments WNoProc {A}.

Definition run_by {A} (W : world) (i : nat) (p : prog A) : wres A :=
  match w_procs W !! i with
  | None => WNoProc
  | Some pr =>
      match run p (view W pr) with
      | Done a s => WDone a (leave W i s)
      | Exn e s => WExn e (leave W i s)
      | UB | OutOfFuel => WBad
      end
  end.

(** Process [i] starts [p] and dies at some point of it, leaving [W']. *)
Definition dies_in {A} (W : world) (i : nat) (p : prog A) (W' : world) : Prop :=
  exists pr s, w_procs W !! i = Some pr /\ crash_state p (view W pr) s /\ W' = die W i s.

(** A new process opens the existing pool (Pool::Pool, Pool.cc:44-61). *)
Definition open_by (W : world) (i : nat) (mx : Z) : wres unit :=
  match run pool_open (mk_pst (w_mem W) (w_fsize W) 0 0 mx (w_lim W)) with
  | Done a s => WDone a (leave W i s)
  | Exn e s => WExn e (leave W i s)
  | UB | OutOfFuel => WBad
  end.

(** Bytes of the file. *)
Definition w_read (W : world) (a : Z) (n : nat) : list Z :=
  read_bytes (mk_pst (w_mem W) (w_fsize W) 0 0 0 (w_lim W)) a n.
Definition w_word (W : world) (a : Z) : Z := le_val (w_read W a 8).
(** The pool's size, as [Pool::size] reports it. *)
Definition w_size (W : world) : Z := w_word W 0.
