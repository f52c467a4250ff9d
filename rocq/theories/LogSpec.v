(** * What a user of LogarithmicAllocator relies on: histories and their checks.

    As in SimpleSpec, a history is played against the model by [lgame], which runs
    the modelled code and keeps the map of live blocks from the results of the calls.
    Processes may die at any point, also while they hold the lock and in the middle of
    free and repair, but in [lgame] not in the middle of allocate (see C51).  When a
    process dies inside a call nobody learns its result: the history then goes on either
    as if the call had not happened or as if it had. *)
From Verif Require Export World LogAllocModel SimpleSpec.
Open Scope Z_scope.

Inductive levent :=
  | LAlloc (i : nat) (n : Z)                 (* process i allocates n bytes *)
  | LFree (i : nat) (o : Z)                  (* process i frees the live block o *)
  | LWrite (i : nat) (o k : Z) (bs : list Z) (* process i writes bs at o + k *)
  | LBase (i : nat) (v : Z)                  (* process i sets the base object offset *)
  | LOpen (i : nat) (mx : Z)                 (* a new process opens the pool *)
  | LDie (i : nat)                           (* process i dies without holding the lock *)
  | LDieLocked (i : nat)                     (* process i dies while it takes the lock, or repairs *)
  | LDieFree (i : nat) (o : Z)               (* process i dies inside free *)
  | LDieWrite (i : nat) (o k : Z) (bs : list Z) (* process i dies while it writes *)
  | LDieBase (i : nat) (v : Z).              (* process i dies inside set_base_object_offset *)

(** Repairing a pool of 4 GiB or more goes wrong when there is a free block of 2 GiB, see
    [size_for_order]; the last four events only happen in smaller pools. *)
(** World, "the lock is held by a dead process", "nobody has died inside free", live
    blocks, base object. *)
Record lstate := LSt { l_w : world; l_dirty : bool; l_tidy : bool; l_b : gmap Z Z; l_base : Z }.

Inductive lobs :=
  | LOAllocated (pr : proc) (n o : Z)
  | LOFailed (pr : proc) (n : Z) (e : exn)
  | LOFreed (o n : Z)
  | LOWritten (o k : Z) (bs : list Z)
  | LODiedWriting (o k : Z) (bs : list Z)
  | LOOther.

Definition log_open (W : world) (d : bool) (F : nat) (i : nat) (mx : Z) : wres unit :=
  match open_by W i mx with
  | WDone _ W' => run_by W' i (la_construct d F)
  | r => r
  end.

Section game.
  Context (F : nat) (cs : lstate -> Prop) (ct : lstate -> lobs -> lstate -> Prop).

  Fixpoint lgame (evs : list levent) (st : lstate) : Prop :=
    cs st /\
    let '(LSt W d t B bo) := st in
    let locked {A} (i : nat) (p : prog A) : wres A := run_by W i (under_lock d (la_repair F) p) in
    match evs with
    | [] => True
    | ev :: evs' =>
      let next o st' := ct st o st' /\ lgame evs' st' in
      match ev with
      | LAlloc i n =>
          1 <= n <= 4088 ->
          match w_procs W !! i with
          | None => True
          | Some pr =>
              match locked i (la_allocate n) with
              | WDone o W' => next (LOAllocated pr n o) (LSt W' false t (<[o := n]> B) bo)
              | WExn e W' => next (LOFailed pr n e) (LSt W' false t B bo)
              | WBad | WNoProc => False
              end
          end
      | LFree i o =>
          match B !! o, w_procs W !! i with
          | Some n, Some _ =>
              match locked i (la_free o) with
              | WDone _ W' => next (LOFreed o n) (LSt W' false t (delete o B) bo)
              | WExn _ _ | WBad | WNoProc => False
              end
          | _, _ => True
          end
      | LWrite i o k bs =>
          match B !! o, w_procs W !! i with
          | Some n, Some _ =>
              0 <= k -> k + Z.of_nat (length bs) <= n -> bytes_ok bs ->
              match locked i (store_bytes (o + k) bs) with
              | WDone _ W' => next (LOWritten o k bs) (LSt W' false t B bo)
              | WExn _ _ | WBad | WNoProc => False
              end
          | _, _ => True
          end
      | LBase i v =>
          is_u64 v ->
          match w_procs W !! i with
          | None => True
          | Some _ =>
              match locked i (la_set_base v) with
              | WDone _ W' => next LOOther (LSt W' false t B v)
              | WExn _ _ | WBad | WNoProc => False
              end
          end
      | LOpen i mx =>
          0 <= mx -> w_procs W !! i = None ->
          match log_open W d F i mx with
          | WDone _ W' => next LOOther (LSt W' d t B bo)
          | WExn _ _ | WBad | WNoProc => False
          end
      | LDie i =>
          next LOOther (LSt (World (w_mem W) (w_fsize W) (w_lim W) (delete i (w_procs W))) d t B bo)
      | LDieLocked i =>
          w_size W < 2 ^ 32 ->
          forall W', dies_in W i (under_lock d (la_repair F) (Ret tt)) W' ->
          next LOOther (LSt W' true t B bo)
      | LDieFree i o =>
          w_size W < 2 ^ 32 ->
          forall n W', B !! o = Some n ->
          dies_in W i (under_lock d (la_repair F) (la_free o)) W' ->
          next LOOther (LSt W' true t B bo) \/
          next LOOther (LSt W' true false (delete o B) bo)
      | LDieWrite i o k bs =>
          w_size W < 2 ^ 32 ->
          forall n W', B !! o = Some n ->
          0 <= k -> k + Z.of_nat (length bs) <= n -> bytes_ok bs ->
          dies_in W i (under_lock d (la_repair F) (store_bytes (o + k) bs)) W' ->
          next (LODiedWriting o k bs) (LSt W' true t B bo)
      | LDieBase i v =>
          w_size W < 2 ^ 32 -> is_u64 v ->
          forall W', dies_in W i (under_lock d (la_repair F) (la_set_base v)) W' ->
          next LOOther (LSt W' true t B bo) \/ next LOOther (LSt W' true t B v)
      end
    end.
End game.

(** ** The blocks as they can be read from the pool file *)
(** A block as (offset, length, requested size if it is allocated).  The header of an
    allocated block has bit 63 set and the size below; the block is as long as the
    smallest power of two that holds header and data.  The header of a free block of
    length 2^k has k in bits 57 to 62. *)
Definition pow2_ceiling (n : Z) : Z := 2 ^ Z.log2_up n.
Definition header_says (W : world) (o len : Z) (a : option Z) : Prop :=
  match a with
  | Some n => w_word W o = 2 ^ 63 + n /\ len = pow2_ceiling (n + 8)
  | None => w_word W o < 2 ^ 63 /\ len = 2 ^ (w_word W o / 2 ^ 57)
  end.
Fixpoint blocks_from (W : world) (a : Z) (T : list (Z * Z * option Z)) (e : Z) : Prop :=
  match T with
  | [] => a = e
  | (o, len, x) :: T' => o = a /\ 16 <= len /\ header_says W o len x /\ blocks_from W (a + len) T' e
  end.
(** [T]: the blocks from the end of the allocator's header to the end of the pool. *)
Definition pool_blocks (W : world) (T : list (Z * Z * option Z)) : Prop :=
  blocks_from W 1168 T (w_size W).
(** [l]: the free list of the blocks of length 2^k; it is doubly linked. *)
Definition free_list (W : world) (k : Z) (l : list Z) : Prop :=
  w_word W (304 + 8 * (k - 4)) = default 0 (head l) /\
  w_word W (736 + 8 * (k - 4)) = default 0 (last l) /\
  forall j o, l !! j = Some o ->
    w_word W o = k * 2 ^ 57 + match j with O => 0 | S j' => default 0 (l !! j') end /\
    w_word W (o + 8) = default 0 (l !! S j).

(** ** The checks *)
(** C08 *)
Definition log_inside (st : lstate) : Prop :=
  (forall o n, l_b st !! o = Some n ->
     1168 <= o - 8 /\ 1 <= n /\ o + n <= w_size (l_w st) /\ o mod 16 = 8) /\
  (forall o n o' n', l_b st !! o = Some n -> l_b st !! o' = Some n' -> o <> o' ->
     o + n <= o' - 8 \/ o' + n' <= o - 8).
Definition log_fresh (st : lstate) (ob : lobs) (st' : lstate) : Prop :=
  match ob with LOAllocated _ _ o => l_b st !! o = None | _ => True end.

(** C09 *)
Definition log_contents (st : lstate) (ob : lobs) (st' : lstate) : Prop :=
  match ob with
  | LOWritten o k bs =>
      w_read (l_w st') (o + k) (length bs) = bs /\
      (forall o' n, l_b st !! o' = Some n ->
         forall j, 0 <= j < n -> ~ (o' = o /\ k <= j < k + Z.of_nat (length bs)) ->
         w_read (l_w st') (o' + j) 1 = w_read (l_w st) (o' + j) 1)
  | LODiedWriting o k bs =>
      (* some first bytes have been written, and nothing else *)
      (exists j, w_read (l_w st') (o + k) (length bs) = take j bs ++ drop j (w_read (l_w st) (o + k) (length bs))) /\
      (forall o' n, l_b st !! o' = Some n ->
         forall j, 0 <= j < n -> ~ (o' = o /\ k <= j < k + Z.of_nat (length bs)) ->
         w_read (l_w st') (o' + j) 1 = w_read (l_w st) (o' + j) 1)
  | _ =>
      forall o n, l_b st !! o = Some n -> l_b st' !! o = Some n ->
        w_read (l_w st') o (Z.to_nat n) = w_read (l_w st) o (Z.to_nat n)
  end.
Definition log_sizes (st : lstate) : Prop :=
  l_dirty st = false ->
  forall i o n, is_Some (w_procs (l_w st) !! i) -> l_b st !! o = Some n ->
  match run_by (l_w st) i (sa_lock ;; la_block_size o) with
  | WDone v _ => v = n
  | _ => False
  end.
Definition log_base (st : lstate) : Prop :=
  forall i, is_Some (w_procs (l_w st) !! i) ->
  match run_by (l_w st) i la_get_base with
  | WDone v _ => v = l_base st
  | _ => False
  end.

(** C10 *)
Definition sum_lengths (B : gmap Z Z) : Z := map_fold (fun _ n s => pow2_ceiling (n + 8) + s) 0 B.
Definition log_accounting (st : lstate) : Prop :=
  l_dirty st = false ->
  forall i, is_Some (w_procs (l_w st) !! i) ->
  match run_by (l_w st) i la_bytes_allocated with
  | WDone v _ => v = sum_sizes (l_b st)
  | _ => False
  end /\
  match run_by (l_w st) i la_bytes_free with
  | WDone v _ => v = w_size (l_w st) - 1168 - sum_lengths (l_b st) /\ 0 <= v
  | _ => False
  end.

(** C11: the blocks tile the pool, also after a death, and the allocated ones are the
    live ones; unless a repair is due, every free block is in the free list for its
    length and nothing else is; and unless somebody has died inside free, there are no
    two free blocks of the same length 2^k, k < 31, that together make one block of
    length 2^(k+1). *)
Definition log_partition (st : lstate) : Prop :=
  exists T, pool_blocks (l_w st) T /\
    (forall o n, l_b st !! o = Some n <-> exists len, (o - 8, len, Some n) ∈ T) /\
    (forall o len, (o, len, None) ∈ T -> exists k, 4 <= k <= 57 /\ len = 2 ^ k) /\
    (l_dirty st = false -> forall k, 4 <= k <= 57 -> exists l, free_list (l_w st) k l /\ NoDup l /\
       forall o, o ∈ l <-> (o, 2 ^ k, None) ∈ T) /\
    (l_tidy st = true -> forall o len, len < 2 ^ 31 -> (o, len, None) ∈ T -> o mod (2 * len) = 0 ->
       (o + len, len, None) ∉ T).

(** C12: free does nothing for offsets out of range and for free blocks. *)
Definition log_free_ignored (st : lstate) : Prop :=
  l_dirty st = false ->
  forall i o, is_Some (w_procs (l_w st) !! i) ->
  is_u64 o ->
  o < 1176 \/ o > w_size (l_w st) \/
  (exists T len, pool_blocks (l_w st) T /\ (o - 8, len, None) ∈ T) ->
  match run_by (l_w st) i (sa_lock ;; la_free o) with
  | WDone _ W' => w_mem W' = w_mem (l_w st) /\ w_fsize W' = w_fsize (l_w st)
  | _ => False
  end.
(** C12: freeing twice in a row is the same as freeing once. *)
Definition log_double_free_ignored (st : lstate) (ob : lobs) (st' : lstate) : Prop :=
  match ob with
  | LOFreed o n =>
      forall i, is_Some (w_procs (l_w st') !! i) ->
      match run_by (l_w st') i (sa_lock ;; la_free o) with
      | WDone _ W' => w_mem W' = w_mem (l_w st') /\ w_fsize W' = w_fsize (l_w st')
      | _ => False
      end
  | _ => True
  end.

(** C52: the pool grows by one page, when it may and no free block is long enough, and
    only in allocate; allocate fails when that is not allowed. *)
Definition log_growth (st : lstate) (ob : lobs) (st' : lstate) : Prop :=
  let W := l_w st in let W' := l_w st' in
  match ob with
  | LOAllocated pr n o =>
      w_size W' = w_size W \/
      (w_size W' = w_size W + 4096 /\ may_grow pr W (w_size W') /\
       exists T, pool_blocks W T /\ forall o' len, (o', len, None) ∈ T -> len < n + 8)
  | LOFailed pr n e =>
      e = RuntimeError /\ ~ may_grow pr W (w_size W + 4096) /\
      exists T, pool_blocks W T /\ forall o' len, (o', len, None) ∈ T -> len < n + 8
  | _ => w_size W' = w_size W
  end.

(** C14 *)
Definition log_failed_is_noop (st : lstate) (ob : lobs) (st' : lstate) : Prop :=
  match ob with
  | LOFailed _ _ _ =>
      l_dirty st = false ->
      w_mem (l_w st') = w_mem (l_w st) /\ w_fsize (l_w st') = w_fsize (l_w st)
  | _ => True
  end.

(** C58: verify finds nothing wrong and, unless the pool has to be repaired first, changes
    nothing. *)
Definition log_verifies (F : nat) (st : lstate) : Prop :=
  w_size (l_w st) < 2 ^ 32 ->
  forall i, is_Some (w_procs (l_w st) !! i) ->
  match run_by (l_w st) i (under_lock (l_dirty st) (la_repair F) (la_verify F)) with
  | WDone _ W' => l_dirty st = false -> w_mem W' = w_mem (l_w st) /\ w_fsize W' = w_fsize (l_w st)
  | _ => False
  end.
(** Sums over the allocated blocks of a pool: their sizes and their lengths. *)
Definition sizes_of (T : list (Z * Z * option Z)) : Z :=
  foldr (fun '(_, _, x) s => match x with Some n => n + s | None => s end) 0 T.
Definition lengths_of (T : list (Z * Z * option Z)) : Z :=
  foldr (fun '(_, len, x) s => match x with Some _ => len + s | None => s end) 0 T.
(** The pool file consists of bytes. *)
Definition of_bytes (W : world) : Prop := forall a, bytes_ok (w_read W a 1).

(** The start: a process creates the pool; then any number of processes open it and
    construct the allocator. *)
Inductive log_started (lim : Z) : world -> Prop :=
  | ls_created mx s :
      0 <= mx -> lim <= 2 ^ 56 -> run pool_create (no_pool mx lim) = Done tt s ->
      log_started lim (leave (empty_world lim) 0 s)
  | ls_opened W i mx W' :
      log_started lim W -> 0 <= mx -> w_procs W !! i = None ->
      open_by W i mx = WDone tt W' -> log_started lim W'
  | ls_constructed W i F W' :
      log_started lim W -> run_by W i (la_construct false F) = WDone tt W' ->
      log_started lim W'
  | ls_died W i :
      log_started lim W ->
      log_started lim (World (w_mem W) (w_fsize W) (w_lim W) (delete i (w_procs W))).
