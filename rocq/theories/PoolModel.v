(** * Model of Pool (src/Pool.cc, src/Pool.hh).

    Pool offsets stand for the pointers that [Pool::at] (Pool.hh:72-84)
    computes; [Pool::data->size] is the 8-byte word at offset 0
    (Pool.hh:190-192), [Pool::pool_size] is the field [mapped] of the state. *)
From Verif Require Export Prog.

(** PAGE_SIZE (Pool.hh:16). *)
Definition PAGE : Z := 4096.

(** [(new_size + PAGE_SIZE - 1) & (~(PAGE_SIZE - 1))] in 64-bit arithmetic
    (Pool.cc:95). *)
Definition round_page (n : Z) : Z := u64 (n + 4095) / PAGE * PAGE.

(** System calls and fields used by Pool. *)
Definition get_mapped : prog Z := Op EMapped Ret.
Definition get_maxsize : prog Z := Op EMaxSize Ret.
Definition get_fsize : prog Z := Op EFsize Ret.
Definition get_epoch : prog Z := Op EEpoch Ret.
Definition ftruncate (n : Z) : prog Z := Op (EFtruncate n) Ret.
Definition remap (n : Z) : prog unit := Op (ERemap n) (fun _ => Ret tt).

(** Pool::check_size_and_remap (Pool.cc:113-129).  The case [pool_size == 0]
    uses fstat, as in the code.  [mmap] fails when the size is 0 (EINVAL); other
    failures of [mmap] are not modelled. *)
Definition check_size_and_remap : prog unit :=
  m <- get_mapped ;;
  n <- (if bool_decide (m = 0) then get_fsize else load64 0) ;;
  if bool_decide (n = m) then Ret tt
  else
    remap n ;;
    if bool_decide (n = 0) then Throw RuntimeError else Ret tt.

(** Pool::expand (Pool.cc:93-111). *)
Definition pool_expand (new_size : Z) : prog unit :=
  let new_size := round_page new_size in
  mx <- get_maxsize ;;
  if bool_decide (mx <> 0 /\ new_size > mx) then Throw RuntimeError
  else
    m <- get_mapped ;;
    if bool_decide (new_size <= m) then Ret tt
    else
      r <- ftruncate new_size ;;
      if bool_decide (r <> 0) then Throw RuntimeError
      else
        store64 0 new_size ;;
        check_size_and_remap.

(** Pool::size (Pool.cc:131-133). *)
Definition pool_size : prog Z := load64 0.

(** Pool::Pool, the branch that creates the pool (Pool.cc:63-80); opening the
    file descriptor is not modelled. *)
Definition pool_create : prog unit :=
  r <- ftruncate PAGE ;;
  if bool_decide (r <> 0) then Throw RuntimeError
  else
    remap PAGE ;; store64 0 PAGE.

(** Pool::Pool, the branch that opens an existing pool (Pool.cc:44-61). *)
Definition pool_open : prog unit :=
  n <- get_fsize ;;
  if bool_decide (n = 0) then Throw RuntimeError
  else remap n.

(** The state before anything exists: an empty file, nothing mapped. *)
Definition no_pool (max_size os_limit : Z) : pst :=
  mk_pst ∅ 0 0 0 max_size os_limit.

(** Another process (or the same one after reopening): same file, its own
    mapping and its own max_size. *)
Definition switch_process (s : pst) (m mx : Z) : pst :=
  mk_pst (mem s) (fsize s) m (epoch s) mx (oslim s).

(** Pool::map_and_read_atomic<T> with sizeof(T) = n (Pool.hh:100-116): the file is
    mapped from file offset 0, one page, or two if the value spans a page boundary.
    None: the access is outside the mapping or the file. *)
Definition map_and_read_atomic (n : nat) (offset : Z) (s : pst) : option Z :=
  let page_offset := offset / PAGE * PAGE in
  let offset_within_page := offset - page_offset in
  let page_count := 1 + (if bool_decide (offset_within_page + Z.of_nat n > PAGE) then 1 else 0) in
  if bool_decide (offset_within_page + Z.of_nat n <= page_count * PAGE /\ offset_within_page + Z.of_nat n <= fsize s)
  then Some (le_val (read_bytes s (0 + offset_within_page) n))
  else None.
(** Pool::map_and_write_atomic<T> (Pool.hh:118-133). *)
Definition map_and_write_atomic (n : nat) (offset v : Z) (s : pst) : option pst :=
  let page_offset := offset / PAGE * PAGE in
  let offset_within_page := offset - page_offset in
  let page_count := 1 + (if bool_decide (offset_within_page + Z.of_nat n > PAGE) then 1 else 0) in
  if bool_decide (offset_within_page + Z.of_nat n <= page_count * PAGE /\ offset_within_page + Z.of_nat n <= fsize s)
  then Some (set_mem s (write_bytes (mem s) (0 + offset_within_page) (le_bytes n v)))
  else None.
(** Pool::map_and_call (Pool.cc:135-149): the file offset at which the [size] bytes
    start that are passed to the callback.  None: not all of them are mapped, or they
    are not all in the file (the callback's accesses to them are undefined behaviour);
    [page_count] counts at most two pages. *)
Definition map_and_call (offset size : Z) (s : pst) : option Z :=
  let page_offset := offset / PAGE * PAGE in
  let offset_within_page := offset - page_offset in
  let page_count := 1 + (if bool_decide (offset_within_page + size > PAGE) then 1 else 0) in
  if bool_decide (offset_within_page + size <= page_count * PAGE /\ offset_within_page + size <= fsize s)
  then Some (0 + offset_within_page)
  else None.
