(** * The inter-process locks (src/ProcessLock.hh, src/ProcessLock.cc).

    The lock functions are trees of their atomic actions on the lock words
    ([lprog]); a system of processes and threads executes them in any
    interleaving ([lstep]), and a process may die between any two actions.

    Simplifications.  (1) The Linux variant is modelled: the token of a process
    is its pid (ProcessLock.cc:51-61).  (2) The atomics are sequentially
    consistent, as the C++ defaults used by the code are.  (3) [futex_wait] has
    no effect on the lock word and returns either answer at any time (it may
    time out, be interrupted or be woken); its error exit (ProcessLock.cc:109)
    is left out.  [futex_wake] has no effect on the words.  (4) Unbounded loops
    take a fuel argument: a thread whose fuel is exhausted never acts again.
    The theorems hold for every fuel, and every finite execution of the real
    loop is an execution of the model for a large enough fuel.  (5) The lock
    words are kept apart from the rest of the pool's memory. *)
From Verif Require Export Base.
Open Scope Z_scope.

(** NUM_READER_SLOTS (ProcessLock.hh:6) *)
Definition num_slots : nat := 65.
(** PID_BITS (ProcessLock.cc:47) and SPIN_LIMIT (ProcessLock.cc:49) *)
Definition PID_BITS : Z := 18.
Definition SPIN_LIMIT : nat := 10.

(** The words of a ProcessReadWriteLock (ProcessLock.hh:19-25): [write_lock] and
    [reader_tokens[i]]. A ProcessLock (ProcessLock.hh:10-17) has one word only. *)
Inductive lword := WriteWord | ReaderWord (i : nat).
Global Instance lword_eq_dec : EqDecision lword.
Proof. solve_decision. Defined.

Definition lmem := lword -> Z.
Definition upd (m : lmem) (w : lword) (v : Z) : lmem :=
  fun w' => if decide (w' = w) then v else m w'.

(** One atomic action. *)
Inductive lact :=
  | ALoad (w : lword)
  | ACas (w : lword) (e d : Z)         (* compare_exchange_strong; answers the old value *)
  | ACasWeak (w : lword) (e d : Z)     (* compare_exchange_weak; see [lexec] *)
  | ARunning (tok : Z)                 (* pid_exists && !pid_is_zombie; answers 0 or 1 *)
  | AFutexWait (w : lword) (e : Z)     (* answers 0 or 1 *)
  | AFutexWake (w : lword).

Inductive lprog (A : Type) :=
  | LRet (a : A)
  | LThrow                             (* logic_error *)
  | LStuck                             (* out of fuel: loops for ever *)
  | LAct (a : lact) (k : Z -> lprog A).
Arguments LRet {A}. Arguments LThrow {A}. Arguments LStuck {A}. Arguments LAct {A}.

Fixpoint lbind {A B} (p : lprog A) (k : A -> lprog B) : lprog B :=
  match p with
  | LRet a => k a
  | LThrow => LThrow
  | LStuck => LStuck
  | LAct a c => LAct a (fun v => lbind (c v) k)
  end.
Declare Scope lprog_scope.
Delimit Scope lprog_scope with lprog.
Notation "x <- p ;; q" := (lbind p (fun x => q))
  (at level 100, p at next level, q at level 200, right associativity) : lprog_scope.
Notation "p ;; q" := (lbind p (fun _ => q))
  (at level 100, q at level 200, right associativity) : lprog_scope.
Open Scope lprog_scope.

Definition act (a : lact) : lprog Z := LAct a LRet.

(** pid_for_token (ProcessLock.cc:73-75) *)
Definition pid_for_token (tok : Z) : Z := Z.land tok (Z.shiftl 1 PID_BITS - 1).

(** The spin loop of acquire_process_lock (ProcessLock.cc:125-132):
    [None] when the lock was taken, [Some v] with the last value seen otherwise. *)
Fixpoint spin (n : nat) (w : lword) (des last : Z) : lprog (option Z) :=
  match n with
  | O => LRet (Some last)
  | S n' =>
      r <- act (ACasWeak w 0 des) ;;
      (* the action answers -1 on success, the value seen on failure *)
      if bool_decide (r = -1) then LRet None else spin n' w des r
  end.

(** acquire_process_lock (ProcessLock.cc:122-162): the stolen token, or 0. *)
Fixpoint acquire_process_lock (F : nat) (w : lword) (des : Z) : lprog Z :=
  match F with
  | O => LStuck
  | S F' =>
      s <- spin SPIN_LIMIT w des 0 ;;
      match s with
      | None => LRet 0
      | Some expected =>
          woken <- act (AFutexWait w expected) ;;
          if bool_decide (woken <> 0) then acquire_process_lock F' w des
          else
            running <- act (ARunning (pid_for_token expected)) ;;
            if bool_decide (running = 0) then
              old <- act (ACas w expected des) ;;
              if bool_decide (old = expected) then LRet expected
              else acquire_process_lock F' w des
            else acquire_process_lock F' w des
      end
  end.

(** release_process_lock (ProcessLock.cc:164-174) *)
Definition release_process_lock (w : lword) (tok : Z) : lprog unit :=
  old <- act (ACas w tok 0) ;;
  if bool_decide (old = tok) then act (AFutexWake w) ;; LRet tt else LRet tt.

(** wait_for_reader_release (ProcessLock.cc:176-204) *)
Fixpoint wait_for_reader_release (F : nat) (w : lword) : lprog unit :=
  match F with
  | O => LStuck
  | S F' =>
      existing <- act (ALoad w) ;;
      if bool_decide (existing = 0) then LRet tt
      else
        woken <- act (AFutexWait w existing) ;;
        if bool_decide (woken <> 0) then wait_for_reader_release F' w
        else
          running <- act (ARunning (pid_for_token existing)) ;;
          if bool_decide (running = 0) then
            old <- act (ACas w existing 0) ;;
            if bool_decide (old = existing) then LRet tt
            else wait_for_reader_release F' w
          else wait_for_reader_release F' w
  end.

(** wait_for_reader_drain(data, true) (ProcessLock.cc:206-220), [n] slots from
    slot [x] on. *)
Fixpoint drain_from (F n x : nat) : lprog unit :=
  match n with
  | O => LRet tt
  | S n' =>
      existing <- act (ALoad (ReaderWord x)) ;;
      (if bool_decide (existing = 0) then LRet tt
       else wait_for_reader_release F (ReaderWord x)) ;;
      drain_from F n' (S x)
  end.
Definition drain_all (F : nat) : lprog unit := drain_from F num_slots 0.

(** The scan for an empty slot in wait_for_reader_drain(data, false)
    (ProcessLock.cc:225-230). *)
Fixpoint empty_slot (n x : nat) : lprog bool :=
  match n with
  | O => LRet false
  | S n' =>
      existing <- act (ALoad (ReaderWord x)) ;;
      if bool_decide (existing = 0) then LRet true else empty_slot n' (S x)
  end.

(** wait_for_reader_drain(data, false) (ProcessLock.cc:222-235) *)
Fixpoint drain_any (n F : nat) (pid : Z) : lprog unit :=
  match n with
  | O => LStuck
  | S n' =>
      e <- empty_slot num_slots 0 ;;
      if (e : bool) then LRet tt
      else
        wait_for_reader_release F (ReaderWord (Z.to_nat (pid mod Z.of_nat num_slots))) ;;
        drain_any n' F pid
  end.

(** The loops that take a free reader slot (ProcessLock.cc:317-323, 356-363). *)
Fixpoint take_slot (n x : nat) (tok : Z) : lprog (option nat) :=
  match n with
  | O => LRet None
  | S n' =>
      old <- act (ACas (ReaderWord x) 0 tok) ;;
      if bool_decide (old = 0) then LRet (Some x) else take_slot n' (S x) tok
  end.

(** ProcessReadWriteLockGuard::Behavior (ProcessLock.hh:52-59); [PLAIN] stands for
    the constructor of ProcessLockGuard. *)
Inductive behavior := READ | WRITE | READ_UNLESS_STOLEN | PLAIN.
Global Instance behavior_eq_dec : EqDecision behavior.
Proof. solve_decision. Defined.

(** The members reader_slot, lock_token and stolen_lock_token of the guards
    (ProcessLock.hh:44-48, 74-78). *)
Record lguard := Guard { g_slot : Z; g_token : Z; g_stolen : Z }.

(** The do-while loop of the constructor (ProcessLock.cc:307-331) *)
Fixpoint read_loop (n F : nat) (pid : Z) (b : behavior) : lprog lguard :=
  match n with
  | O => LStuck
  | S n' =>
      stolen <- acquire_process_lock F WriteWord pid ;;
      if bool_decide (stolen <> 0 /\ b = READ_UNLESS_STOLEN) then
        drain_all F ;; LRet (Guard (-1) pid stolen)
      else
        o <- take_slot num_slots 0 pid ;;
        release_process_lock WriteWord pid ;;
        match o with
        | Some x => LRet (Guard (Z.of_nat x) pid stolen)
        | None => drain_any F F pid ;; read_loop n' F pid b
        end
  end.

(** ProcessReadWriteLockGuard::ProcessReadWriteLockGuard (ProcessLock.cc:288-333)
    and ProcessLockGuard::ProcessLockGuard (ProcessLock.cc:246-253), executed by a
    thread of process [pid]. *)
Definition construct (F : nat) (pid : Z) (b : behavior) : lprog lguard :=
  match b with
  | WRITE =>
      stolen <- acquire_process_lock F WriteWord pid ;;
      drain_all F ;;
      LRet (Guard (-1) pid stolen)
  | PLAIN =>
      stolen <- acquire_process_lock F WriteWord pid ;;
      LRet (Guard (-1) pid stolen)
  | READ | READ_UNLESS_STOLEN => read_loop F F pid b
  end.

(** ~ProcessReadWriteLockGuard (ProcessLock.cc:335-346) and ~ProcessLockGuard
    (ProcessLock.cc:255-262) *)
Definition destroy (g : lguard) : lprog unit :=
  if bool_decide (g_slot g < 0) then release_process_lock WriteWord (g_token g)
  else release_process_lock (ReaderWord (Z.to_nat (g_slot g))) (g_token g).

(** ProcessReadWriteLockGuard::downgrade (ProcessLock.cc:348-368) *)
Definition downgrade (pid : Z) (g : lguard) : lprog lguard :=
  if bool_decide (g_slot g <> -1) then LThrow
  else
    o <- take_slot num_slots 0 pid ;;
    match o with
    | Some x =>
        release_process_lock WriteWord (g_token g) ;;
        LRet (Guard (Z.of_nat x) (g_token g) (g_stolen g))
    | None => LThrow
    end.

(** ** The system *)
(** What a thread is doing. *)
Inductive tstate :=
  | Idle                              (* it has no guard *)
  | Constructing (p : lprog lguard)    (* inside a guard's constructor *)
  | Holding (g : lguard)               (* it has a guard *)
  | Downgrading (p : lprog lguard)     (* inside downgrade() *)
  | Destroying (p : lprog unit)       (* inside the guard's destructor *)
  | Failed.                           (* an exception left a lock function *)

Record lstate := LState {
  l_mem : lmem;                        (* the lock words *)
  l_alive : gset Z;                    (* pids of the running processes *)
  l_used : gset Z;                     (* pids ever used *)
  l_threads : gmap nat (Z * tstate)    (* threads, with the pid of their process *)
}.

(** The answers [r] of an action and its effect. A weak compare-exchange may
    fail although the word has the expected value. *)
Definition lexec (alive : gset Z) (m : lmem) (a : lact) (r : Z) (m' : lmem) : Prop :=
  match a with
  | ALoad w => r = m w /\ m' = m
  | ACas w e d => r = m w /\ m' = if decide (m w = e) then upd m w d else m
  | ACasWeak w e d =>
      (m w = e /\ r = -1 /\ m' = upd m w d) \/ (r = m w /\ m' = m)
  | ARunning p =>
      (r = 0 \/ r = 1) /\ (p <> 0 -> r = if decide (p ∈ alive) then 1 else 0) /\ m' = m
  | AFutexWait w e => (r = 0 \/ r = 1) /\ m' = m
  | AFutexWake w => m' = m
  end.

Inductive label :=
  | NewProcess (pid : Z)
  | NewThread (t : nat) (pid : Z)
  | Dies (pid : Z)
  | Construct (t : nat) (b : behavior)
  | Acquired (t : nat) (g : lguard)     (* the constructor returns *)
  | Downgrade (t : nat)
  | Downgraded (t : nat)
  | Destroy (t : nat)
  | Destroyed (t : nat)
  | Step (t : nat)                     (* one atomic action *)
  | Fails (t : nat).                   (* an exception is thrown *)

Definition set_thread (s : lstate) (t : nat) (pid : Z) (x : tstate) : lstate :=
  LState (l_mem s) (l_alive s) (l_used s) (<[t := (pid, x)]> (l_threads s)).

(** The steps of the system. [pid_ok] restricts the pids the operating system
    gives out, [reuse] says whether it may give out the pid of a dead process
    again, [allowed] which guards the clients construct. *)
Section system.
  Context (F : nat) (pid_ok : Z -> Prop) (reuse : bool) (allowed : behavior -> Prop).

  Inductive lstep : lstate -> label -> lstate -> Prop :=
    | S_process s pid :
        pid_ok pid -> pid ∉ l_alive s -> (reuse = false -> pid ∉ l_used s) ->
        lstep s (NewProcess pid)
          (LState (l_mem s) ({[pid]} ∪ l_alive s) ({[pid]} ∪ l_used s)
             (* no thread of a previous process with this pid is left *)
             (filter (fun x => x.2.1 <> pid) (l_threads s)))
    | S_thread s t pid :
        pid ∈ l_alive s -> l_threads s !! t = None ->
        lstep s (NewThread t pid) (set_thread s t pid Idle)
    | S_dies s pid :
        pid ∈ l_alive s ->
        lstep s (Dies pid)
          (LState (l_mem s) (l_alive s ∖ {[pid]}) (l_used s) (l_threads s))
    | S_construct s t pid b :
        l_threads s !! t = Some (pid, Idle) -> pid ∈ l_alive s -> allowed b ->
        lstep s (Construct t b) (set_thread s t pid (Constructing (construct F pid b)))
    | S_acquired s t pid g :
        l_threads s !! t = Some (pid, Constructing (LRet g)) -> pid ∈ l_alive s ->
        lstep s (Acquired t g) (set_thread s t pid (Holding g))
    | S_downgrade s t pid g :
        l_threads s !! t = Some (pid, Holding g) -> pid ∈ l_alive s ->
        g_slot g = -1 -> (* ProcessLockGuard has no downgrade *)
        allowed WRITE \/ allowed READ_UNLESS_STOLEN ->
        lstep s (Downgrade t) (set_thread s t pid (Downgrading (downgrade pid g)))
    | S_downgraded s t pid g :
        l_threads s !! t = Some (pid, Downgrading (LRet g)) -> pid ∈ l_alive s ->
        lstep s (Downgraded t) (set_thread s t pid (Holding g))
    | S_destroy s t pid g :
        l_threads s !! t = Some (pid, Holding g) -> pid ∈ l_alive s ->
        lstep s (Destroy t) (set_thread s t pid (Destroying (destroy g)))
    | S_destroyed s t pid :
        l_threads s !! t = Some (pid, Destroying (LRet tt)) -> pid ∈ l_alive s ->
        lstep s (Destroyed t) (set_thread s t pid Idle)
    | S_step_c s t pid a k r m' :
        l_threads s !! t = Some (pid, Constructing (LAct a k)) -> pid ∈ l_alive s ->
        lexec (l_alive s) (l_mem s) a r m' ->
        lstep s (Step t)
          (LState m' (l_alive s) (l_used s) (<[t := (pid, Constructing (k r))]> (l_threads s)))
    | S_step_g s t pid a k r m' :
        l_threads s !! t = Some (pid, Downgrading (LAct a k)) -> pid ∈ l_alive s ->
        lexec (l_alive s) (l_mem s) a r m' ->
        lstep s (Step t)
          (LState m' (l_alive s) (l_used s) (<[t := (pid, Downgrading (k r))]> (l_threads s)))
    | S_step_d s t pid a k r m' :
        l_threads s !! t = Some (pid, Destroying (LAct a k)) -> pid ∈ l_alive s ->
        lexec (l_alive s) (l_mem s) a r m' ->
        lstep s (Step t)
          (LState m' (l_alive s) (l_used s) (<[t := (pid, Destroying (k r))]> (l_threads s)))
    | S_fails_c s t pid :
        l_threads s !! t = Some (pid, Constructing LThrow) -> pid ∈ l_alive s ->
        lstep s (Fails t) (set_thread s t pid Failed)
    | S_fails_g s t pid :
        l_threads s !! t = Some (pid, Downgrading LThrow) -> pid ∈ l_alive s ->
        lstep s (Fails t) (set_thread s t pid Failed)
    | S_fails_d s t pid :
        l_threads s !! t = Some (pid, Destroying LThrow) -> pid ∈ l_alive s ->
        lstep s (Fails t) (set_thread s t pid Failed).

  Inductive lsteps : lstate -> list label -> lstate -> Prop :=
    | steps_nil s : lsteps s [] s
    | steps_cons s l s1 ls s2 : lstep s l s1 -> lsteps s1 ls s2 -> lsteps s (l :: ls) s2.
End system.

(** A fresh lock: all words are 0, nobody is there yet. *)
Definition lstate0 : lstate := LState (fun _ => 0) ∅ ∅ ∅.
