(** * Laws of Pool::expand and of the remapping done when the lock is taken. *)
From Verif Require Export World SimpleAllocModel Adequacy WorldProof.
From iris.prelude Require Import prelude options.
Open Scope Z_scope.
Open Scope prog_scope.
Local Arguments bind {A B} !p k /.

(** The word at offset 0 of the file: Pool::size(). *)
Definition size_word (s : pst) : Z := le_val (read_bytes s 0 8).

(** This process's mapping is in step with the file: the pool has at least one
    page, the mapping is the whole pool and the file is at least as large. *)
Definition in_step (s : pst) : Prop :=
  4096 <= mapped s /\ mapped s mod 4096 = 0 /\ mapped s <= fsize s /\ size_word s = mapped s /\ mapped s < 2 ^ 64.

Lemma expand_law s n :
  in_step s -> 0 <= n <= 2 ^ 64 - 4096 ->
  match run (pool_expand n) s with
  | Done _ s' =>
      exists t, n <= t < n + 4096 /\ t mod 4096 = 0 /\
      (maxsz s = 0 \/ t <= maxsz s) /\
      in_step s' /\ size_word s' = Z.max (mapped s) t /\ maxsz s' = maxsz s /\ oslim s' = oslim s /\
      (forall a, 8 <= a < mapped s -> bget s' a = bget s a) /\
      (forall a, fsize s <= a < size_word s' -> mem s !! a = None -> bget s' a = 0) /\
      (t <= mapped s -> s' = s)
  | Exn x s' =>
      x = RuntimeError /\ s' = s /\
      exists t, n <= t < n + 4096 /\ t mod 4096 = 0 /\ ((maxsz s <> 0 /\ maxsz s < t) \/ oslim s < t)
  | _ => False
  end.
Proof.
  intros (Hm & Hmod & Hf & Hw & Hlt) Hn.
  assert (exists t, round_page n = t /\ n <= t < n + 4096 /\ t mod 4096 = 0) as (t & Et & Ht & Htm).
  { eexists; split; [done|]. unfold round_page, PAGE. destruct (decide (n = 2 ^ 64 - 4095)); [lia|].
    rewrite u64_small; [|lia]. split; [|apply Z.mod_mul; lia].
    pose proof (Z.div_mod (n + 4095) 4096 ltac:(lia)).
    pose proof (Z.mod_pos_bound (n + 4095) 4096 ltac:(lia)). lia. }
  assert (t < 2 ^ 64) as Ht64.
  { assert (n + 4096 <= 2 ^ 64) by lia. lia. }
  unfold pool_expand. rewrite Et. cbn [run bind get_maxsize exec].
  case_bool_decide as Hmx.
  { cbn [run]. split; [done|]. split; [done|]. exists t. split_and!; [lia|lia|done|]. left. lia. }
  cbn [run bind get_mapped exec].
  case_bool_decide as Hle.
  { cbn [run]. exists t. unfold in_step. split_and!; try lia; try done. }
  cbn [run bind ftruncate exec]. case_bool_decide as Hlim.
  2:{ cbn [run bind]. rewrite bool_decide_eq_true_2; [|done]. cbn [run].
      split; [done|]. split; [done|]. exists t. split_and!; [lia|lia|done|]. right. lia. }
  cbn [run bind]. rewrite bool_decide_eq_false_2; [|lia].
  set (m1 := if bool_decide (t < fsize s) then truncate_mem (mem s) t else mem s).
  assert (forall a, a < mapped s -> m1 !! a = mem s !! a) as Hm1.
  { intros a Ha. unfold m1. case_bool_decide; [|done]. unfold truncate_mem.
    destruct (mem s !! a) eqn:E.
    - apply map_filter_lookup_Some. split; [done|]. simpl. lia.
    - apply map_filter_lookup_None. by left. }
  assert (forall a, mem s !! a = None -> m1 !! a = None) as Hm2.
  { intros a Ha. unfold m1. case_bool_decide; [|done]. apply map_filter_lookup_None. by left. }
  clearbody m1.
  unfold store64, store. cbn [run bind exec].
  rewrite /valid. cbn [mapped fsize]. rewrite bool_decide_eq_true_2; [|lia].
  unfold set_mem. cbn [fsize mapped epoch maxsz oslim mem].
  unfold check_size_and_remap. cbn [run bind get_mapped exec mapped].
  rewrite bool_decide_eq_false_2; [|lia].
  unfold load64, load. cbn [run bind exec].
  rewrite /valid. cbn [mapped fsize]. rewrite bool_decide_eq_true_2; [|lia].
  assert (le_val (read_bytes (mk_pst (write_bytes m1 0 (le_bytes 8 t)) t (mapped s) (epoch s) (maxsz s) (oslim s)) 0 8) = t) as Er.
  { pose proof (read_write m1 t (mapped s) (epoch s) (maxsz s) (oslim s) 0 (le_bytes 8 t)) as H.
    rewrite le_bytes_length in H. rewrite H. apply le_val8. split; lia. }
  cbn [run bind]. rewrite Er. rewrite bool_decide_eq_false_2; [|lia].
  unfold remap. cbn [run bind exec]. rewrite bool_decide_eq_false_2; [|lia]. cbn [run].
  exists t. cbn [mapped maxsz oslim mem fsize].
  assert (size_word (mk_pst (write_bytes m1 0 (le_bytes 8 t)) t t (epoch s + 1) (maxsz s) (oslim s)) = t) as Es.
  { etransitivity; [|exact Er]. reflexivity. }
  cbn [mem fsize mapped epoch maxsz oslim].
  rewrite Es. unfold in_step. cbn [mapped fsize]. rewrite Es. split_and!; try lia; try done.
  - intros a Ha. unfold bget. cbn [mem]. rewrite write_bytes_get le_bytes_length.
    rewrite bool_decide_eq_false_2; [|lia]. rewrite Hm1; [done|lia].
  - intros a Ha Hnone. unfold bget. cbn [mem]. rewrite write_bytes_get le_bytes_length.
    rewrite bool_decide_eq_false_2; [|lia]. rewrite Hm2; done.
Qed.

(** ** Taking the lock brings the mapping in step with the pool *)
Definition pool_good (W : world) : Prop := 8 <= w_size W <= w_fsize W.
Definition proc_good (W : world) (pr : proc) : Prop := 8 <= p_mapped pr.

Definition view_locked (W : world) (pr : proc) (ep : Z) : pst :=
  mk_pst (w_mem W) (w_fsize W) (w_size W) ep (p_max pr) (w_lim W).

Lemma size_word_view m fs mp e mx l :
  le_val (read_bytes (mk_pst m fs mp e mx l) 0 8) =
  le_val (read_bytes (mk_pst m fs 0 0 0 l) 0 8).
Proof. reflexivity. Qed.

Lemma lock_law W pr :
  pool_good W -> proc_good W pr ->
  exists ep, run sa_lock (view W pr) = Done tt (view_locked W pr ep).
Proof.
  unfold pool_good, proc_good, w_size, w_word, w_read. intros HW Hp. unfold sa_lock. rewrite run_bind.
  set (z := le_val (read_bytes (mk_pst (w_mem W) (w_fsize W) 0 0 0 (w_lim W)) 0 8)) in *.
  assert (forall mp e, 8 <= mp -> exists e',
    run check_size_and_remap (mk_pst (w_mem W) (w_fsize W) mp e (p_max pr) (w_lim W)) =
    Done tt (mk_pst (w_mem W) (w_fsize W) z e' (p_max pr) (w_lim W))) as H.
  { intros mp e Hmp. unfold check_size_and_remap. cbn [run bind get_mapped exec mapped].
    rewrite bool_decide_eq_false_2; [|lia]. unfold load64, load. cbn [run bind exec].
    rewrite /valid. cbn [mapped fsize]. rewrite bool_decide_eq_true_2; [|lia].
    cbn [run bind]. rewrite size_word_view. fold z.
    case_bool_decide as Hz.
    - exists e. cbn [run]. by rewrite Hz.
    - eexists. unfold remap. cbn [run bind exec fsize]. rewrite bool_decide_eq_false_2; [done|lia]. }
  destruct (H (p_mapped pr) (p_epoch pr) Hp) as [e1 E1]. unfold view. rewrite E1.
  destruct (H z e1 ltac:(lia)) as [e2 E2]. rewrite E2. exists e2.
  unfold view_locked, w_size, w_word, w_read. fold z. done.
Qed.

(** Programs that do not look at the remap counter (a ghost of the model that
    only tells when raw pointers have become dangling). *)
Inductive no_epoch {A} : prog A -> Prop :=
  | ne_ret a : no_epoch (Ret a)
  | ne_throw e : no_epoch (Throw e)
  | ne_undef : no_epoch Undef
  | ne_nofuel : no_epoch NoFuel
  | ne_op e k : e <> EEpoch -> (forall v, no_epoch (k v)) -> no_epoch (Op e k).

Lemma no_epoch_bind {A B} (p : prog A) (k : A -> prog B) :
  no_epoch p -> (forall a, no_epoch (k a)) -> no_epoch (bind p k).
Proof. intros Hp Hk. induction Hp; simpl; try constructor; auto. Qed.

Definition same_but_epoch (s t : pst) : Prop :=
  mem s = mem t /\ fsize s = fsize t /\ mapped s = mapped t /\ maxsz s = maxsz t /\ oslim s = oslim t.

Lemma run_no_epoch {A} (p : prog A) :
  no_epoch p -> forall s t, same_but_epoch s t ->
  match run p s, run p t with
  | Done a s', Done b t' => a = b /\ same_but_epoch s' t'
  | Exn a s', Exn b t' => a = b /\ same_but_epoch s' t'
  | UB, UB | OutOfFuel, OutOfFuel => True
  | _, _ => False
  end.
Proof.
  induction 1 as [a|e| | |e k He Hk IH]; intros s t Hst; cbn [run]; try done.
  assert (match exec e s, exec e t with
          | Some (v, s'), Some (w, t') => v = w /\ same_but_epoch s' t'
          | None, None => True
          | _, _ => False end) as H.
  { destruct s as [m1 f1 p1 e1 x1 l1], t as [m2 f2 p2 e2 x2 l2].
    destruct Hst as (E1 & E2 & E3 & E4 & E5). simpl in E1, E2, E3, E4, E5. subst.
    destruct e as [n a|n a v|n| |n| | | ]; simpl.
    - rewrite /valid /=. destruct (bool_decide _); [|done]. split; [|done].
      f_equal. apply read_bytes_ext. done.
    - rewrite /valid /=. destruct (bool_decide _); [|done]. done.
    - destruct (bool_decide _); done.
    - done.
    - done.
    - done.
    - done.
    - done. }
  destruct (exec e s) as [[v s']|], (exec e t) as [[w t']|]; try done.
  destruct H as [-> H]. by apply IH.
Qed.

(** Two processes with the same max_size performing the same operation under the
    lock: same result, same effect on the file. *)
Lemma process_independent {A} W i j pi pj d (rep : prog unit) (op : prog A) :
  pool_good W -> w_procs W !! i = Some pi -> w_procs W !! j = Some pj ->
  proc_good W pi -> proc_good W pj -> p_max pi = p_max pj ->
  no_epoch rep -> no_epoch op ->
  match run_by W i (under_lock d rep op), run_by W j (under_lock d rep op) with
  | WDone a W1, WDone b W2 => a = b /\ w_mem W1 = w_mem W2 /\ w_fsize W1 = w_fsize W2
  | WExn a W1, WExn b W2 => a = b /\ w_mem W1 = w_mem W2 /\ w_fsize W1 = w_fsize W2
  | WBad, WBad => True
  | _, _ => False
  end.
Proof.
  intros HW Hi Hj Hgi Hgj Hmx Hr Ho. unfold run_by. rewrite Hi Hj. unfold under_lock.
  rewrite !(run_bind sa_lock).
  destruct (lock_law W pi HW Hgi) as [e1 ->]. destruct (lock_law W pj HW Hgj) as [e2 ->].
  assert (no_epoch ((if d then rep else Ret tt) ;; op)) as Hne.
  { apply no_epoch_bind; [destruct d; [done|constructor]|done]. }
  pose proof (run_no_epoch _ Hne (view_locked W pi e1) (view_locked W pj e2)) as H.
  specialize (H ltac:(done)).
  destruct (run _ _), (run _ _); try done.
  all: destruct H as [-> (? & ? & _)]; done.
Qed.

(** SimpleAllocator's operations do not look at it. *)
Ltac nep := repeat (first [done | match goal with |- no_epoch (match ?a with pair _ _ => _ end) => destruct a end | apply no_epoch_bind | constructor | intros ? |
  progress unfold load64, store64, load, store, get_mapped, get_maxsize, get_fsize, ftruncate, remap, pool_size, add64, sa_effective_size]).
Lemma no_epoch_if {A} (b : bool) (p q : prog A) : no_epoch p -> no_epoch q -> no_epoch (if b then p else q).
Proof. by destruct b. Qed.
Lemma ne_check : no_epoch check_size_and_remap.
Proof. unfold check_size_and_remap. repeat (apply no_epoch_if || nep). Qed.
Lemma ne_expand n : no_epoch (pool_expand n).
Proof. unfold pool_expand. pose proof ne_check. repeat (apply no_epoch_if || nep). Qed.
Lemma ne_scan F : forall n c co cs cl, no_epoch (sa_scan F n c co cs cl).
Proof.
  induction F as [|F IH]; intros; cbn [sa_scan]; apply no_epoch_if; repeat (apply no_epoch_if || apply IH || nep).
Qed.
Lemma ne_allocate F n : no_epoch (sa_allocate F n).
Proof.
  unfold sa_allocate, sa_link, sa_link_ptrs. pose proof ne_expand. pose proof (ne_scan F).
  repeat (apply no_epoch_if || match goal with |- forall x, _ => intros [[? ?] ?] || intros [? ?] end || auto || nep).
Qed.
Lemma ne_free o : no_epoch (sa_free o).
Proof. unfold sa_free. repeat (apply no_epoch_if || nep). Qed.
Lemma ne_repair F : no_epoch (sa_repair F).
Proof.
  unfold sa_repair. assert (forall p b x y, no_epoch (sa_repair_loop F p b x y)).
  { induction F as [|F IH]; intros; cbn [sa_repair_loop]; apply no_epoch_if; repeat (apply IH || nep). }
  repeat (match goal with |- forall x, _ => intros [[? ?] ?] end || auto || nep).
Qed.

(** ** Temporary accessors *)
Lemma map_read_first_page s n a :
  (0 < n)%nat -> 0 <= a -> a + Z.of_nat n <= 4096 -> 4096 <= fsize s ->
  map_and_read_atomic n a s = Some (le_val (read_bytes s a n)).
Proof.
  intros Hn0 Ha Hn Hf. unfold map_and_read_atomic, PAGE. rewrite Z.div_small; [|lia].
  rewrite Z.mul_0_l Z.sub_0_r Z.add_0_l.
  rewrite (bool_decide_eq_false_2 (a + Z.of_nat n > 4096)); [|lia].
  rewrite bool_decide_eq_true_2; [done|]. simpl Z.add. split; lia.
Qed.

Definition ex_big : pst :=
  mk_pst (<[4096 := 7]> ∅) 8192 8192 0 0 0.
Lemma map_read_refuted :
  exists s a v, map_and_read_atomic 1 a s = Some v /\ 0 <= a /\ a + 1 <= fsize s /\ v <> le_val (read_bytes s a 1).
Proof. exists ex_big, 4096, 0. repeat split; vm_compute; congruence. Qed.

Lemma map_write_first_page s n a v :
  (0 < n)%nat -> 0 <= a -> a + Z.of_nat n <= 4096 -> 4096 <= fsize s -> 0 <= v < 256 ^ Z.of_nat n ->
  exists s', map_and_write_atomic n a v s = Some s' /\
    le_val (read_bytes s' a n) = v /\
    (forall x, x < a \/ a + Z.of_nat n <= x -> bget s' x = bget s x) /\
    fsize s' = fsize s /\ mapped s' = mapped s.
Proof.
  intros Hn0 Ha Hn Hf Hv. unfold map_and_write_atomic, PAGE. rewrite Z.div_small; [|lia].
  rewrite Z.mul_0_l Z.sub_0_r Z.add_0_l.
  rewrite (bool_decide_eq_false_2 (a + Z.of_nat n > 4096)); [|lia].
  rewrite bool_decide_eq_true_2; [|simpl Z.add; split; lia].
  eexists. split; [done|]. split; [|split; [|done]].
  - unfold set_mem.
    pose proof (read_write (mem s) (fsize s) (mapped s) (epoch s) (maxsz s) (oslim s) a (le_bytes n v)) as H.
    rewrite le_bytes_length in H. rewrite H le_val_bytes. by apply Z.mod_small.
  - intros x Hx. unfold bget, set_mem. cbn [mem]. rewrite write_bytes_get bool_decide_eq_false_2; [done|].
    rewrite le_bytes_length. lia.
Qed.
Lemma map_write_refuted :
  exists s s' a v, map_and_write_atomic 1 a v s = Some s' /\ 0 <= a /\ a + 1 <= fsize s /\ 0 <= v < 256 /\
    le_val (read_bytes s' a 1) <> v /\ bget s' 0 <> bget s 0.
Proof. exists ex_big, (set_mem ex_big (<[0 := 9]> (mem ex_big))), 4096, 9. repeat split; vm_compute; congruence. Qed.
Lemma map_call_first_page s size a :
  0 <= size -> 0 <= a < 4096 -> a + size <= 8192 -> a + size <= fsize s ->
  map_and_call a size s = Some a.
Proof.
  intros Hn0 Ha Hn Hf. unfold map_and_call, PAGE. rewrite Z.div_small; [|lia].
  rewrite Z.mul_0_l Z.sub_0_r Z.add_0_l. rewrite bool_decide_eq_true_2; [done|].
  case_bool_decide; simpl Z.mul; lia.
Qed.
Lemma map_call_refuted : exists s,
  (exists a x, map_and_call a 1 s = Some x /\ 0 <= a /\ a + 1 <= fsize s /\ x <> a) /\
  (exists a size, map_and_call a size s = None /\ 0 <= a /\ 0 <= size /\ a + size <= fsize s).
Proof.
  exists (mk_pst ∅ 16384 16384 0 0 0). split; [exists 4096, 0|exists 0, 8193]; repeat split; vm_compute; congruence.
Qed.

(** ** Creation interrupted before the size is stored *)
Lemma creation_crash :
  exists s W1 W2,
    crash_state pool_create (no_pool 0 (2 ^ 40)) s /\
    open_by (die (World ∅ 0 (2 ^ 40) ∅) 0 s) 1 0 = WDone tt W1 /\
    (forall d F, run_by W1 1 (sa_construct d F) = WExn RuntimeError W2) /\
    (forall d F, run_by W2 1 (sa_construct d F) = WBad).
Proof.
  set (s0 := mk_pst ∅ 4096 0 0 0 (2 ^ 40)). set (W0 := die (World ∅ 0 (2 ^ 40) ∅) 0 s0).
  set (W1 := leave W0 1 (mk_pst ∅ 4096 4096 1 0 (2 ^ 40))).
  exists s0, W1, (leave W1 1 (mk_pst ∅ 4096 0 2 0 (2 ^ 40))).
  split; [|split; [|split]].
  - right. cbn. left. done.
  - reflexivity.
  - intros d F. unfold run_by. cbn [W1 w_procs leave]. rewrite lookup_insert. unfold sa_construct, under_lock.
    rewrite run_bind run_load64. cbn [mapped fsize view p_mapped epoch maxsz oslim mem].
    rewrite (_ : valid _ _ 8 = true); [|done].
    rewrite (_ : bool_decide _ = false); [|done].
    rewrite (run_bind sa_lock) (_ : run sa_lock _ = Exn RuntimeError (mk_pst ∅ 4096 0 2 0 (2 ^ 40))); [done|].
    unfold sa_lock. rewrite run_bind.
    rewrite (_ : run check_size_and_remap _ = Exn RuntimeError (mk_pst ∅ 4096 0 2 0 (2 ^ 40))); [done|]. vm_compute. reflexivity.
  - intros d F. unfold run_by. cbn [leave w_procs]. rewrite lookup_insert. unfold sa_construct.
    rewrite run_bind run_load64. cbn [mapped fsize view p_mapped epoch maxsz oslim mem].
    rewrite (_ : valid _ _ 8 = false); [|done]. reflexivity.
Qed.

(** ** Examples *)
Lemma ex_expand :
  match run pool_create (no_pool 20000 (2 ^ 40)) with
  | Done _ s =>
      in_step s /\
      match run (pool_expand 5000) s with Done _ s' => size_word s' = 8192 | _ => False end /\
      match run (pool_expand 25000) s with Exn _ s' => True | _ => False end
  | _ => False
  end.
Proof.
  unfold in_step. refine (conj (conj _ (conj _ (conj _ (conj _ _)))) (conj _ _));
    vm_compute; first [reflexivity|exact I|discriminate].
Qed.
Lemma ex_two_procs :
  exists W pi pj, pool_good W /\ w_procs W !! 0%nat = Some pi /\ w_procs W !! 1%nat = Some pj /\
    proc_good W pi /\ proc_good W pj /\ p_mapped pi <> p_mapped pj.
Proof.
  exists (World (write_bytes ∅ 0 (le_bytes 8 8192)) 8192 (2 ^ 40)
            {[0%nat := Proc 4096 0 0; 1%nat := Proc 8192 0 0]}), (Proc 4096 0 0), (Proc 8192 0 0).
  unfold pool_good, proc_good.
  refine (conj (conj _ _) (conj _ (conj _ (conj _ (conj _ _))))); vm_compute; first [reflexivity|discriminate].
Qed.
