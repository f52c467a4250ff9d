(** * What a user of SimpleAllocator relies on: histories and their checks.

    A history is played against the model by [game]: every event names the
    process that acts, the event is executed by running the modelled code on the
    shared pool, and the client keeps the map [B] of live blocks (offset to
    requested size) from the results of the calls.  [game cs ct] requires that no
    event has undefined behaviour, that every state satisfies [cs] and every
    transition satisfies [ct].  When a process dies inside a call nobody learns
    its result: the blocks are then either those before or those after the call. *)
From Verif Require Export World SimpleAllocModel.
Open Scope Z_scope.

Inductive event :=
  | EvAlloc (i : nat) (n : Z)              (* process i allocates n bytes *)
  | EvFree (i : nat) (o : Z)               (* process i frees block o *)
  | EvWrite (i : nat) (o k : Z) (bs : list Z) (* process i writes bs at o + k *)
  | EvBase (i : nat) (v : Z)               (* process i sets the base object offset *)
  | EvOpen (i : nat) (mx : Z)              (* a new process opens the pool *)
  | EvDie (i : nat)                        (* process i dies while not holding the lock *)
  | EvDieAlloc (i : nat) (n : Z)           (* process i dies inside allocate(n) *)
  | EvDieFree (i : nat) (o : Z).           (* process i dies inside free(o) *)

(** World, "the lock is held by a dead process", live blocks, base object. *)
Record state := St { st_w : world; st_dirty : bool; st_b : gmap Z Z; st_base : Z }.

(** What the caller sees of an event: the result of the call. *)
Inductive obs :=
  | OAllocated (pr : proc) (n o : Z)
  | OAllocFailed (pr : proc) (n : Z) (e : exn)
  | OFreed (o n : Z)
  | OWritten (o k : Z) (bs : list Z)
  | OBase (v : Z)
  | OOpened
  | ODied.

(** Construction of the allocator by a process that has opened the pool. *)
Definition open_alloc (W : world) (d : bool) (F : nat) (i : nat) (mx : Z) : wres unit :=
  match open_by W i mx with
  | WDone _ W' => run_by W' i (sa_construct d F)
  | r => r
  end.

Section game.
  Context (cs : state -> Prop) (ct : state -> obs -> state -> Prop) (F : nat).

  Fixpoint game (evs : list event) (st : state) : Prop :=
    cs st /\
    let '(St W d B bo) := st in
    match evs with
    | [] => True
    | ev :: evs' =>
      let next o st' := ct st o st' /\ game evs' st' in
      match ev with
      | EvAlloc i n =>
          0 <= n <= 2 ^ 62 ->
          match w_procs W !! i with
          | None => True
          | Some pr =>
              match run_by W i (under_lock d (sa_repair F) (sa_allocate F n)) with
              | WDone o W' => next (OAllocated pr n o) (St W' false (<[o := n]> B) bo)
              | WExn e W' => next (OAllocFailed pr n e) (St W' false B bo)
              | WBad | WNoProc => False
              end
          end
      | EvFree i o =>
          match B !! o, w_procs W !! i with
          | Some n, Some _ =>
              match run_by W i (under_lock d (sa_repair F) (sa_free o)) with
              | WDone _ W' =>
                  (* a block of at most 16 bytes at the very end of the pool is
                     not freed: see [free_complete] *)
                  next (OFreed o n)
                    (St W' false
                       (if bool_decide (o + 24 <= w_size W) then delete o B else B) bo)
              | WExn _ _ | WBad | WNoProc => False
              end
          | _, _ => True
          end
      | EvWrite i o k bs =>
          match B !! o, w_procs W !! i with
          | Some n, Some _ =>
              0 <= k -> k + Z.of_nat (length bs) <= n -> bytes_ok bs ->
              match run_by W i (under_lock d (sa_repair F) (store_bytes (o + k) bs)) with
              | WDone _ W' => next (OWritten o k bs) (St W' false B bo)
              | WExn _ _ | WBad | WNoProc => False
              end
          | _, _ => True
          end
      | EvBase i v =>
          is_u64 v ->
          match w_procs W !! i with
          | None => True
          | Some _ =>
              match run_by W i (under_lock d (sa_repair F) (sa_set_base v)) with
              | WDone _ W' => next (OBase v) (St W' false B v)
              | WExn _ _ | WBad | WNoProc => False
              end
          end
      | EvOpen i mx =>
          0 <= mx -> w_procs W !! i = None ->
          match open_alloc W d F i mx with
          | WDone _ W' => next OOpened (St W' d B bo)
          | WExn _ _ | WBad | WNoProc => False
          end
      | EvDie i =>
          next ODied (St (World (w_mem W) (w_fsize W) (w_lim W) (delete i (w_procs W))) d B bo)
      | EvDieAlloc i n =>
          0 <= n <= 2 ^ 62 ->
          forall W', dies_in W i (under_lock d (sa_repair F) (sa_allocate F n)) W' ->
          next ODied (St W' true B bo) \/
          exists o, B !! o = None /\ next ODied (St W' true (<[o := n]> B) bo)
      | EvDieFree i o =>
          forall n W', B !! o = Some n ->
          dies_in W i (under_lock d (sa_repair F) (sa_free o)) W' ->
          next ODied (St W' true B bo) \/
          next ODied (St W' true (delete o B) bo)
      end
    end.
End game.

(** ** The checks *)
(** Sizes are rounded up to a multiple of 8. *)
Definition pad (n : Z) : Z := (n + 7) / 8 * 8.

(** C01: the block of size [n] at [o] with its 24-byte header lies between the
    pool header (320 bytes) and the end of the pool; no two blocks overlap. *)
Definition inside_and_disjoint (st : state) : Prop :=
  (forall o n, st_b st !! o = Some n ->
     320 <= o - 24 /\ 0 <= n /\ o + n <= w_size (st_w st)) /\
  (forall o n o' n', st_b st !! o = Some n -> st_b st !! o' = Some n' -> o <> o' ->
     o + n <= o' - 24 \/ o' + n' <= o - 24).

(** The block returned by allocate is a new one. *)
Definition fresh_block (st : state) (ob : obs) (st' : state) : Prop :=
  match ob with
  | OAllocated _ n o => st_b st !! o = None
  | _ => True
  end.

(** C02: contents. *)
Definition contents_kept (st : state) (ob : obs) (st' : state) : Prop :=
  match ob with
  | OWritten o k bs =>
      w_read (st_w st') (o + k) (length bs) = bs /\
      (forall o' n, st_b st !! o' = Some n ->
         forall j, 0 <= j < n -> ~ (o' = o /\ k <= j < k + Z.of_nat (length bs)) ->
         w_read (st_w st') (o' + j) 1 = w_read (st_w st) (o' + j) 1)
  | _ =>
      forall o n, st_b st !! o = Some n -> st_b st' !! o = Some n ->
        w_read (st_w st') o (Z.to_nat n) = w_read (st_w st) o (Z.to_nat n)
  end.
(** Every process is told the requested size of every live block. *)
Definition block_sizes_right (st : state) : Prop :=
  st_dirty st = false ->
  forall i o n, is_Some (w_procs (st_w st) !! i) -> st_b st !! o = Some n ->
  match run_by (st_w st) i (sa_lock ;; sa_block_size o) with
  | WDone v _ => v = n
  | _ => False
  end.

(** C03: accounting, as read by any process. *)
Definition sum_sizes (B : gmap Z Z) : Z := map_fold (fun _ n s => n + s) 0 B.
Definition sum_footprints (B : gmap Z Z) : Z := map_fold (fun _ n s => pad n + 24 + s) 0 B.
Definition accounting_exact (st : state) : Prop :=
  st_dirty st = false ->
  forall i, is_Some (w_procs (st_w st) !! i) ->
  match run_by (st_w st) i sa_bytes_allocated with
  | WDone v _ => v = sum_sizes (st_b st)
  | _ => False
  end /\
  match run_by (st_w st) i sa_bytes_free with
  | WDone v _ => v = w_size (st_w st) - 320 - sum_footprints (st_b st) /\ 0 <= v
  | _ => False
  end.

(** C04: a hole is a maximal unoccupied part [a, b) of the pool. *)
Definition hole (B : gmap Z Z) (m a b : Z) : Prop :=
  320 <= a <= b /\ b <= m /\
  (a = 320 \/ exists o n, B !! o = Some n /\ o + pad n = a) /\
  (b = m \/ exists o n, B !! o = Some n /\ o - 24 = b) /\
  (forall o n, B !! o = Some n -> o + pad n <= a \/ b <= o - 24).
Definition last_end (B : gmap Z Z) (e : Z) : Prop :=
  (e = 320 \/ exists o n, B !! o = Some n /\ o + pad n = e) /\
  320 <= e /\ forall o n, B !! o = Some n -> o + pad n <= e.
(** The least multiple of the page size that is at least [x]. *)
Definition page_ceiling (x y : Z) : Prop := x <= y < x + 4096 /\ y mod 4096 = 0.
Definition may_grow (pr : proc) (W : world) (y : Z) : Prop :=
  (p_max pr = 0 \/ y <= p_max pr) /\ y <= w_lim W.

Definition best_fit_placement (st : state) (ob : obs) (st' : state) : Prop :=
  let W := st_w st in let W' := st_w st' in let B := st_b st in
  match ob with
  | OAllocated pr n o =>
      let need := pad n + 24 in
      (exists b, hole B (w_size W) (o - 24) b /\ need <= b - (o - 24) /\
         (forall a' b', hole B (w_size W) a' b' -> need <= b' - a' -> b - (o - 24) <= b' - a') /\
         w_size W' = w_size W)
      \/
      ((forall a' b', hole B (w_size W) a' b' -> b' - a' < need) /\
       last_end B (o - 24) /\
       page_ceiling (o + pad n) (w_size W') /\ w_size W < w_size W' /\
       may_grow pr W (w_size W'))
  | OAllocFailed pr n e =>
      let need := pad n + 24 in
      e = RuntimeError /\
      (forall a' b', hole B (w_size W) a' b' -> b' - a' < need) /\
      (forall a y, last_end B a -> page_ceiling (a + need) y -> ~ may_grow pr W y)
  | _ => w_size W' = w_size W \/ ob = ODied
  end.

(** C05: a failed allocation leaves the file untouched. *)
Definition failed_alloc_is_noop (st : state) (ob : obs) (st' : state) : Prop :=
  match ob with
  | OAllocFailed _ _ _ =>
      st_dirty st = false ->
      w_mem (st_w st') = w_mem (st_w st) /\ w_fsize (st_w st') = w_fsize (st_w st)
  | _ => True
  end.

(** C03: free gives the block back, except when it reaches the end of the pool
    and has at most 16 bytes. *)
Definition free_complete (st : state) (ob : obs) (st' : state) : Prop :=
  match ob with
  | OFreed o n =>
      st_b st' = delete o (st_b st) \/
      (n <= 16 /\ o + 24 > w_size (st_w st))
  | _ => True
  end.

(** C07: the base object offset, as read by any process. *)
Definition base_right (st : state) : Prop :=
  forall i, is_Some (w_procs (st_w st) !! i) ->
  match run_by (st_w st) i sa_get_base with
  | WDone v _ => v = st_base st
  | _ => False
  end.

(** The start: a process creates the pool; then any number of processes open it
    and construct the allocator, and may die doing so.  [started lim W d] says that
    [W] can be reached that way, and [d] that the lock was left by a dead process. *)
Definition empty_world (lim : Z) : world := World ∅ 0 lim ∅.
Definition initialized (W : world) : Prop := w_word W 8 <> 0.

Inductive started (lim : Z) : world -> bool -> Prop :=
  | st_created mx s :
      0 <= mx -> lim <= 2 ^ 62 -> run pool_create (no_pool mx lim) = Done tt s ->
      started lim (leave (empty_world lim) 0 s) false
  | st_opened W d i mx W' :
      started lim W d -> 0 <= mx -> w_procs W !! i = None ->
      open_by W i mx = WDone tt W' -> started lim W' d
  | st_constructed W d i F W' :
      started lim W d -> run_by W i (sa_construct d F) = WDone tt W' ->
      started lim W' (if decide (w_word W 8 = 0) then false else d)
  | st_died W d i :
      started lim W d ->
      started lim (World (w_mem W) (w_fsize W) (w_lim W) (delete i (w_procs W))) d
  | st_died_in_constructor W d i F W' :
      started lim W d -> dies_in W i (sa_construct d F) W' ->
      started lim W' true.
