(** * Property theorems for Pool: C15, C16, C47, C48. *)
From Verif Require Import PoolLaws.
Open Scope Z_scope.

(** C15.  [in_step]: this process's mapping is the whole pool.  [t] is the least
    multiple of the page size that is at least [n]. *)
Theorem C15_pool_expand s n :
  in_step s -> 0 <= n <= 2 ^ 64 - 4096 ->
  match run (pool_expand n) s with
  | Done _ s' =>
      exists t, n <= t < n + 4096 /\ t mod 4096 = 0 /\
      (maxsz s = 0 \/ t <= maxsz s) /\
      in_step s' /\ size_word s' = Z.max (mapped s) t /\ maxsz s' = maxsz s /\ oslim s' = oslim s /\
      (forall a, 8 <= a < mapped s -> bget s' a = bget s a) /\
      (forall a, fsize s <= a < size_word s' -> mem s !! a = None -> bget s' a = 0) /\
      (t <= mapped s -> s' = s)
  | Exn x s' =>
      x = RuntimeError /\ s' = s /\
      exists t, n <= t < n + 4096 /\ t mod 4096 = 0 /\ ((maxsz s <> 0 /\ maxsz s < t) \/ oslim s < t)
  | _ => False
  end.
Proof. exact (expand_law s n). Qed.
Example C15_hypotheses_met :
  match run pool_create (no_pool 20000 (2 ^ 40)) with
  | Done _ s =>
      in_step s /\
      match run (pool_expand 5000) s with Done _ s' => size_word s' = 8192 | _ => False end /\
      match run (pool_expand 25000) s with Exn _ s' => True | _ => False end
  | _ => False
  end.
Proof. exact ex_expand. Qed.

(** C16: whatever the size of process [i]'s mapping, once it has taken the lock
    its mapping is the whole pool, and nothing in the file has changed; *)
Theorem C16_lock_remaps W pr :
  pool_good W -> proc_good W pr ->
  exists ep, run sa_lock (view W pr) = Done tt (view_locked W pr ep).
Proof. exact (lock_law W pr). Qed.
(** and so any allocator operation (in fact any program that does not keep raw
    pointers) gives the same result and the same file whichever of two processes
    performs it. *)
Theorem C16_any_process_same_result W i j pi pj d F (o n : Z) :
  pool_good W -> w_procs W !! i = Some pi -> w_procs W !! j = Some pj ->
  proc_good W pi -> proc_good W pj -> p_max pi = p_max pj ->
  match run_by W i (under_lock d (sa_repair F) (sa_allocate F n)),
        run_by W j (under_lock d (sa_repair F) (sa_allocate F n)) with
  | WDone a W1, WDone b W2 => a = b /\ w_mem W1 = w_mem W2 /\ w_fsize W1 = w_fsize W2
  | WExn a W1, WExn b W2 => a = b /\ w_mem W1 = w_mem W2 /\ w_fsize W1 = w_fsize W2
  | WBad, WBad => True
  | _, _ => False
  end /\
  match run_by W i (under_lock d (sa_repair F) (sa_free o)),
        run_by W j (under_lock d (sa_repair F) (sa_free o)) with
  | WDone a W1, WDone b W2 => a = b /\ w_mem W1 = w_mem W2 /\ w_fsize W1 = w_fsize W2
  | WExn a W1, WExn b W2 => a = b /\ w_mem W1 = w_mem W2 /\ w_fsize W1 = w_fsize W2
  | WBad, WBad => True
  | _, _ => False
  end.
Proof.
  intros. split.
  - exact (process_independent W i j pi pj d _ _ H H0 H1 H2 H3 H4 (ne_repair F) (ne_allocate F n)).
  - exact (process_independent W i j pi pj d _ _ H H0 H1 H2 H3 H4 (ne_repair F) (ne_free o)).
Qed.
Example C16_hypotheses_met :
  exists W pi pj, pool_good W /\ w_procs W !! 0%nat = Some pi /\ w_procs W !! 1%nat = Some pj /\
    proc_good W pi /\ proc_good W pj /\ p_mapped pi <> p_mapped pj.
Proof. exact ex_two_procs. Qed.

(** C47: true only in the first page. *)
Theorem C47_map_and_read_partial s n a :
  (0 < n)%nat -> 0 <= a -> a + Z.of_nat n <= 4096 -> 4096 <= fsize s ->
  map_and_read_atomic n a s = Some (le_val (read_bytes s a n)).
Proof. exact (map_read_first_page s n a). Qed.
Theorem C47_map_and_read_refuted :
  exists s a v, map_and_read_atomic 1 a s = Some v /\ 0 <= a /\ a + 1 <= fsize s /\
                v <> le_val (read_bytes s a 1).
Proof. exact map_read_refuted. Qed.

Theorem C47_map_and_write_partial s n a v :
  (0 < n)%nat -> 0 <= a -> a + Z.of_nat n <= 4096 -> 4096 <= fsize s -> 0 <= v < 256 ^ Z.of_nat n ->
  exists s', map_and_write_atomic n a v s = Some s' /\
    le_val (read_bytes s' a n) = v /\
    (forall x, x < a \/ a + Z.of_nat n <= x -> bget s' x = bget s x) /\
    fsize s' = fsize s /\ mapped s' = mapped s.
Proof. exact (map_write_first_page s n a v). Qed.
Theorem C47_map_and_write_refuted :
  exists s s' a v, map_and_write_atomic 1 a v s = Some s' /\ 0 <= a /\ a + 1 <= fsize s /\ 0 <= v < 256 /\
    le_val (read_bytes s' a 1) <> v /\ bget s' 0 <> bget s 0.
Proof. exact map_write_refuted. Qed.
(** map_and_call passes the right bytes if they start in the first page and end in the
    first two; elsewhere it passes others, or some that are not mapped. *)
Theorem C47_map_and_call_partial s size a :
  0 <= size -> 0 <= a < 4096 -> a + size <= 8192 -> a + size <= fsize s ->
  map_and_call a size s = Some a.
Proof. exact (map_call_first_page s size a). Qed.
Theorem C47_map_and_call_refuted : exists s,
  (exists a x, map_and_call a 1 s = Some x /\ 0 <= a /\ a + 1 <= fsize s /\ x <> a) /\
  (exists a size, map_and_call a size s = None /\ 0 <= a /\ 0 <= size /\ a + size <= fsize s).
Proof. exact map_call_refuted. Qed.
Example C47_hypotheses_met :
  map_and_write_atomic 8 16 (2 ^ 63) ex_big = Some (set_mem ex_big (write_bytes (mem ex_big) 16 (le_bytes 8 (2 ^ 63)))) /\
  map_and_read_atomic 8 16 (set_mem ex_big (write_bytes (mem ex_big) 16 (le_bytes 8 (2 ^ 63)))) = Some (2 ^ 63).
Proof. split; vm_compute; reflexivity. Qed.

(** C48: if the creator dies between ftruncate and storing the size, no other
    process can use the pool: the first attempt throws, and after it the process
    has no mapping. *)
Theorem C48_creation_crash_refuted :
  exists s W1 W2,
    crash_state pool_create (no_pool 0 (2 ^ 40)) s /\
    open_by (die (World ∅ 0 (2 ^ 40) ∅) 0 s) 1 0 = WDone tt W1 /\
    (forall d F, run_by W1 1 (sa_construct d F) = WExn RuntimeError W2) /\
    (forall d F, run_by W2 1 (sa_construct d F) = WBad).
Proof. exact creation_crash. Qed.

Print Assumptions C15_pool_expand.
Print Assumptions C16_lock_remaps.
Print Assumptions C16_any_process_same_result.
Print Assumptions C47_map_and_read_partial.
Print Assumptions C47_map_and_read_refuted.
Print Assumptions C48_creation_crash_refuted.
