(** * Programs over a shared memory pool and their semantics.

    C++ functions are modelled as values of type [prog A]: trees of the
    individual memory accesses and system calls they perform. *)
From Verif Require Export Base.

(** C++ exceptions thrown by the code. *)
Inductive exn := OutOfRange | RuntimeError | InvalidArgument | LogicError | BadAlloc.
Global Instance exn_eq_dec : EqDecision exn.
Proof. solve_decision. Defined.

(** One access to the pool or to the operating system. *)
Inductive eff :=
  | ELoad (n : nat) (a : Z)          (* n-byte little-endian load at pool offset a *)
  | EStore (n : nat) (a v : Z)       (* n-byte little-endian store *)
  | EFtruncate (n : Z)               (* ftruncate(fd, n): 0 on success, 1 on error *)
  | EMapped                          (* this->pool_size: size of the local mapping *)
  | ERemap (n : Z)                   (* munmap; mmap n bytes *)
  | EEpoch                           (* number of remaps so far (ghost) *)
  | EMaxSize                         (* this->max_size *)
  | EFsize.                          (* fstat(fd).st_size *)

Inductive prog (A : Type) :=
  | Ret (a : A)
  | Throw (e : exn)
  | Undef                            (* undefined behaviour *)
  | NoFuel                           (* a loop exhausted the model's fuel *)
  | Op (e : eff) (k : Z -> prog A).
Arguments Ret {A}. Arguments Throw {A}. Arguments Undef {A}.
Arguments NoFuel {A}. Arguments Op {A}.

Fixpoint bind {A B} (p : prog A) (k : A -> prog B) : prog B :=
  match p with
  | Ret a => k a
  | Throw e => Throw e
  | Undef => Undef
  | NoFuel => NoFuel
  | Op e c => Op e (fun v => bind (c v) k)
  end.
Declare Scope prog_scope.
Delimit Scope prog_scope with prog.
Notation "x <- p ;; q" := (bind p (fun x => q))
  (at level 100, p at next level, q at level 200, right associativity) : prog_scope.
Notation "p ;; q" := (bind p (fun _ => q))
  (at level 100, q at level 200, right associativity) : prog_scope.
Notation "' pat <- p ;; q" := (bind p (fun x => match x with pat => q end))
  (at level 100, pat pattern, p at next level, q at level 200, right associativity) : prog_scope.
Open Scope prog_scope.

(** [try { p } catch (e) { h(e) }] *)
Fixpoint catch {A} (p : prog A) (h : exn -> prog A) : prog A :=
  match p with
  | Ret a => Ret a
  | Throw e => h e
  | Undef => Undef
  | NoFuel => NoFuel
  | Op e c => Op e (fun v => catch (c v) h)
  end.

Definition load (n : nat) (a : Z) : prog Z := Op (ELoad n a) Ret.
Definition store (n : nat) (a v : Z) : prog unit := Op (EStore n a v) (fun _ => Ret tt).
Definition load64 := load 8.
Definition store64 := store 8.
Definition load8 := load 1.
Definition store8 := store 1.

(** ** State of a pool as seen by one process *)
Record pst := mk_pst {
  mem : gmap Z Z;      (* bytes of the file; absent = 0 *)
  fsize : Z;           (* size of the file *)
  mapped : Z;          (* size of this process's mapping: Pool::pool_size *)
  epoch : Z;           (* number of remaps *)
  maxsz : Z;           (* Pool::max_size, 0 = unlimited *)
  oslim : Z            (* largest file size the OS grants *)
}.

Definition bget (s : pst) (a : Z) : Z := default 0 (mem s !! a).

(** An access is defined iff it lies in the mapped part of the file. *)
Definition valid (s : pst) (a : Z) (n : nat) : bool :=
  bool_decide (0 <= a /\ a + Z.of_nat n <= mapped s /\ a + Z.of_nat n <= fsize s).

Fixpoint read_bytes (s : pst) (a : Z) (n : nat) : list Z :=
  match n with O => [] | S n' => bget s a :: read_bytes s (a + 1) n' end.

Fixpoint write_bytes (m : gmap Z Z) (a : Z) (bs : list Z) : gmap Z Z :=
  match bs with [] => m | b :: bs' => write_bytes (<[a := b]> m) (a + 1) bs' end.

Definition set_mem (s : pst) (m : gmap Z Z) : pst :=
  mk_pst m (fsize s) (mapped s) (epoch s) (maxsz s) (oslim s).

(** Truncation forgets the bytes beyond the new end (they read as zero when
    the file grows again). *)
Definition truncate_mem (m : gmap Z Z) (n : Z) : gmap Z Z :=
  filter (fun p => p.1 < n) m.

Definition exec (e : eff) (s : pst) : option (Z * pst) :=
  match e with
  | ELoad n a => if valid s a n then Some (le_val (read_bytes s a n), s) else None
  | EStore n a v =>
      if valid s a n then Some (0, set_mem s (write_bytes (mem s) a (le_bytes n v)))
      else None
  | EFtruncate n =>
      if bool_decide (n <= oslim s) then
        Some (0, mk_pst (if bool_decide (n < fsize s) then truncate_mem (mem s) n else mem s)
                   n (mapped s) (epoch s) (maxsz s) (oslim s))
      else Some (1, s)
  | EMapped => Some (mapped s, s)
  | ERemap n => Some (0, mk_pst (mem s) (fsize s) n (epoch s + 1) (maxsz s) (oslim s))
  | EEpoch => Some (epoch s, s)
  | EMaxSize => Some (maxsz s, s)
  | EFsize => Some (fsize s, s)
  end.

(** ** Sequential semantics *)
Inductive outcome (A : Type) :=
  | Done (a : A) (s : pst)
  | Exn (e : exn) (s : pst)
  | UB
  | OutOfFuel.
Arguments Done {A}. Arguments Exn {A}. Arguments UB {A}. Arguments OutOfFuel {A}.

Fixpoint run {A} (p : prog A) (s : pst) : outcome A :=
  match p with
  | Ret a => Done a s
  | Throw e => Exn e s
  | Undef => UB
  | NoFuel => OutOfFuel
  | Op e k => match exec e s with Some (v, s') => run (k v) s' | None => UB end
  end.

(** ** Crash semantics: [crash_state p s s'] says that a process that runs [p]
    from [s] and dies after some number of its effects leaves the state [s']. *)
Fixpoint crash_state {A} (p : prog A) (s s' : pst) : Prop :=
  s' = s \/
  match p with
  | Op e k => match exec e s with
              | Some (v, s1) => crash_state (k v) s1 s'
              | None => False
              end
  | _ => False
  end.

(** ** Basic laws *)
Lemma run_bind {A B} (p : prog A) (k : A -> prog B) s :
  run (bind p k) s =
  match run p s with
  | Done a s' => run (k a) s'
  | Exn e s' => Exn e s'
  | UB => UB
  | OutOfFuel => OutOfFuel
  end.
Proof.
  revert s; induction p as [| | | |e c IH]; intros s; simpl; try done.
  destruct (exec e s) as [[v s']|]; [apply IH|done].
Qed.

Lemma run_catch {A} (p : prog A) (h : exn -> prog A) s :
  run (catch p h) s =
  match run p s with
  | Exn e s' => run (h e) s'
  | o => o
  end.
Proof.
  revert s; induction p as [| | | |e c IH]; intros s; simpl; try done.
  destruct (exec e s) as [[v s']|]; [apply IH|done].
Qed.

Lemma crash_bind {A B} (p : prog A) (k : A -> prog B) s s' :
  crash_state (bind p k) s s' ->
  crash_state p s s' \/
  exists a s1, run p s = Done a s1 /\ crash_state (k a) s1 s'.
Proof.
  revert s; induction p as [| | | |e c IH]; intros s; simpl.
  - intros H. right. eauto.
  - intros [->|[]]. left. by left.
  - intros [->|[]]. left. by left.
  - intros [->|[]]. left. by left.
  - intros [->|H]; [left; by left|].
    destruct (exec e s) as [[v s1]|]; [|done].
    apply IH in H as [H|H]; [left; by right|right; done].
Qed.

(** memcpy from a byte list into the pool / out of the pool, one byte at a
    time (the crash granularity of memcpy is a single byte). *)
Fixpoint store_bytes (a : Z) (bs : list Z) : prog unit :=
  match bs with
  | [] => Ret tt
  | b :: bs' => store8 a b ;; store_bytes (a + 1) bs'
  end.

Fixpoint load_bytes (a : Z) (n : nat) : prog (list Z) :=
  match n with
  | O => Ret []
  | S n' => b <- load8 a ;; bs <- load_bytes (a + 1) n' ;; Ret (b :: bs)
  end.
