(** * Model of AtomicVector<T> (src/AtomicVector.hh).

    [n] is sizeof(T); values of T are represented by their unsigned residues in
    [0, 256^n). Each method is a tree of atomic actions: the accesses of Pool
    plus atomic read-modify-write operations. *)
From Verif Require Export Prog PoolModel World Lin.
Open Scope Z_scope.

Inductive aeff :=
  | APool (e : eff)                          (* one access as in Prog.v *)
  | ARmw (n : nat) (a : Z) (f : Z -> Z).     (* atomic fetch-and-modify of n bytes *)

Inductive aprog (A : Type) :=
  | ARet (a : A)
  | AThrow (e : exn)
  | AUndef
  | ANoFuel
  | AOp (e : aeff) (k : Z -> aprog A).
Arguments ARet {A}. Arguments AThrow {A}. Arguments AUndef {A}.
Arguments ANoFuel {A}. Arguments AOp {A}.

Fixpoint abind {A B} (p : aprog A) (k : A -> aprog B) : aprog B :=
  match p with
  | ARet a => k a
  | AThrow e => AThrow e
  | AUndef => AUndef
  | ANoFuel => ANoFuel
  | AOp e c => AOp e (fun v => abind (c v) k)
  end.
(** A function of Pool, as part of a method of AtomicVector. *)
Fixpoint lift {A} (p : prog A) : aprog A :=
  match p with
  | Ret a => ARet a
  | Throw e => AThrow e
  | Undef => AUndef
  | NoFuel => ANoFuel
  | Op e k => AOp (APool e) (fun v => lift (k v))
  end.
Declare Scope aprog_scope.
Delimit Scope aprog_scope with aprog.
Notation "x <- p ;; q" := (abind p (fun x => q))
  (at level 100, p at next level, q at level 200, right associativity) : aprog_scope.
Notation "p ;; q" := (abind p (fun _ => q))
  (at level 100, q at level 200, right associativity) : aprog_scope.
Open Scope aprog_scope.

(** All accesses are atomic; the old value is the answer of a
    read-modify-write. *)
Definition aexec (e : aeff) (s : pst) : option (Z * pst) :=
  match e with
  | APool e => exec e s
  | ARmw n a f =>
      if valid s a n then
        let old := le_val (read_bytes s a n) in
        Some (old, set_mem s (write_bytes (mem s) a (le_bytes n (f old))))
      else None
  end.

Definition rmw (n : nat) (a : Z) (f : Z -> Z) : aprog Z := AOp (ARmw n a f) ARet.

(** Results of the methods as the caller sees them. *)
Inductive ares := RVoid | RVal (v : Z) | RFlag (b : bool) | RExn (e : exn).

Section vector.
  Context (n : nat) (F : nat).
  (** AtomicVector::bits (AtomicVector.hh:19) *)
  Definition bits : Z := 8 * Z.of_nat n.
  (** Offset of data[index]; sizeof(VectorBase) = 16 (AtomicVector.hh:119-123) *)
  Definition elem (index : Z) : Z := 16 + index * Z.of_nat n.

  (** AtomicVector::size (AtomicVector.hh:39-41) *)
  Definition av_size : aprog Z := lift (load64 8).

  (** AtomicVector::at (AtomicVector.hh:133-140) *)
  Definition av_at (index : Z) : aprog Z :=
    lift check_size_and_remap ;;
    count <- lift (load64 8) ;;
    if bool_decide (index >= count) then AThrow OutOfRange else ARet (elem index).

  (** AtomicVector::expand (AtomicVector.hh:44-55): the loop. *)
  Fixpoint av_expand_loop (f : nat) (required new_count orig : Z) : aprog unit :=
    match f with
    | O => ANoFuel
    | S f' =>
        if bool_decide (orig < new_count) then
          lift check_size_and_remap ;;
          lift (pool_expand required) ;;
          old <- rmw 8 8 (fun c => if decide (c = orig) then new_count else c) ;;
          if bool_decide (old = orig) then ARet tt
          else av_expand_loop f' required new_count old
        else ARet tt
    end.
  Definition av_expand (new_count : Z) : aprog unit :=
    orig <- lift (load64 8) ;;
    av_expand_loop F (u64 (16 + new_count * Z.of_nat n)) new_count orig.
  (** AtomicVector::expand_bits (AtomicVector.hh:56-59) *)
  Definition av_expand_bits (new_bits : Z) : aprog unit :=
    av_expand (u64 (new_bits + (bits - 1)) / bits).

  (** load, store, exchange, compare_exchange, fetch_* (AtomicVector.hh:62-90) *)
  Definition av_load (index : Z) : aprog Z :=
    a <- av_at index ;; lift (load n a).
  Definition av_store (index v : Z) : aprog unit :=
    a <- av_at index ;; lift (store n a v).
  Definition av_exchange (index v : Z) : aprog Z :=
    a <- av_at index ;; rmw n a (fun _ => v).
  Definition av_compare_exchange (index expected desired : Z) : aprog Z :=
    a <- av_at index ;; rmw n a (fun old => if decide (old = expected) then desired else old).
  Definition av_fetch_add (index d : Z) : aprog Z :=
    a <- av_at index ;; rmw n a (fun old => old + d).
  Definition av_fetch_sub (index d : Z) : aprog Z :=
    a <- av_at index ;; rmw n a (fun old => old - d).
  Definition av_fetch_and (index mask : Z) : aprog Z :=
    a <- av_at index ;; rmw n a (fun old => Z.land old mask).
  Definition av_fetch_or (index mask : Z) : aprog Z :=
    a <- av_at index ;; rmw n a (fun old => Z.lor old mask).
  Definition av_fetch_xor (index mask : Z) : aprog Z :=
    a <- av_at index ;; rmw n a (fun old => Z.lxor old mask).

  (** mask_for_bit_index (AtomicVector.hh:93-95) *)
  Definition mask_for_bit (b : Z) : Z := Z.shiftl 1 (bits - b mod bits - 1).
  (** load_bit (AtomicVector.hh:96-98) *)
  Definition av_load_bit (b : Z) : aprog bool :=
    v <- av_load (b / bits) ;; ARet (bool_decide (Z.land v (mask_for_bit b) <> 0)).
  (** store_bit (AtomicVector.hh:99-106) *)
  Definition av_store_bit (b : Z) (x : bool) : aprog bool :=
    let mask := mask_for_bit b in
    if x then v <- av_fetch_or (b / bits) mask ;; ARet (bool_decide (Z.land v mask <> 0))
    else v <- av_fetch_and (b / bits) (Z.lnot mask) ;; ARet (bool_decide (Z.land v mask <> 0)).
  (** xor_bit (AtomicVector.hh:107-110) *)
  Definition av_xor_bit (b : Z) : aprog bool :=
    let mask := mask_for_bit b in
    v <- av_fetch_xor (b / bits) mask ;; ARet (negb (bool_decide (Z.land v mask <> 0))).

  (** The calls of a client. *)
  Inductive acall :=
    | CSize
    | CLoad (i : Z) | CStore (i v : Z) | CExchange (i v : Z) | CCas (i e d : Z)
    | CAdd (i d : Z) | CSub (i d : Z) | CAnd (i m : Z) | COr (i m : Z) | CXor (i m : Z)
    | CLoadBit (b : Z) | CStoreBit (b : Z) (x : bool) | CXorBit (b : Z)
    | CExpand (c : Z).

  Definition call_prog (c : acall) : aprog ares :=
    match c with
    | CSize => v <- av_size ;; ARet (RVal v)
    | CLoad i => v <- av_load i ;; ARet (RVal v)
    | CStore i v => av_store i v ;; ARet RVoid
    | CExchange i v => o <- av_exchange i v ;; ARet (RVal o)
    | CCas i e d => o <- av_compare_exchange i e d ;; ARet (RVal o)
    | CAdd i d => o <- av_fetch_add i d ;; ARet (RVal o)
    | CSub i d => o <- av_fetch_sub i d ;; ARet (RVal o)
    | CAnd i m => o <- av_fetch_and i m ;; ARet (RVal o)
    | COr i m => o <- av_fetch_or i m ;; ARet (RVal o)
    | CXor i m => o <- av_fetch_xor i m ;; ARet (RVal o)
    | CLoadBit b => x <- av_load_bit b ;; ARet (RFlag x)
    | CStoreBit b x => o <- av_store_bit b x ;; ARet (RFlag o)
    | CXorBit b => o <- av_xor_bit b ;; ARet (RFlag o)
    | CExpand c => av_expand c ;; ARet RVoid
    end.

  (** ** The system: processes run their methods action by action, in any order. *)
  Record astate := AState { a_w : world; a_run : gmap nat (acall * aprog ares) }.

  (** [may st i c]: process [i] may call [c] in state [st]. *)
  Context (may : astate -> nat -> acall -> Prop).

  Inductive astep : astate -> list (hevent acall ares) -> astate -> Prop :=
    | A_call st i pr c :
        w_procs (a_w st) !! i = Some pr -> a_run st !! i = None -> may st i c ->
        astep st [HCall i c] (AState (a_w st) (<[i := (c, call_prog c)]> (a_run st)))
    | A_act st i pr c e k r s :
        w_procs (a_w st) !! i = Some pr -> a_run st !! i = Some (c, AOp e k) ->
        aexec e (view (a_w st) pr) = Some (r, s) ->
        astep st [] (AState (leave (a_w st) i s) (<[i := (c, k r)]> (a_run st)))
    | A_return st i c r :
        a_run st !! i = Some (c, ARet r) ->
        astep st [HReturn i r] (AState (a_w st) (delete i (a_run st)))
    | A_throw st i c e :
        a_run st !! i = Some (c, AThrow e) ->
        astep st [HReturn i (RExn e)] (AState (a_w st) (delete i (a_run st)))
    | A_die st i :
        astep st [HDie i]
          (AState (World (w_mem (a_w st)) (w_fsize (a_w st)) (w_lim (a_w st))
                     (delete i (w_procs (a_w st))))
                  (delete i (a_run st)))
    | A_open st i mx W :
        w_procs (a_w st) !! i = None -> open_by (a_w st) i mx = WDone tt W ->
        astep st [] (AState W (a_run st)).

  Inductive asteps : astate -> list (hevent acall ares) -> astate -> Prop :=
    | asteps_nil st : asteps st [] st
    | asteps_cons st h st1 h' st2 :
        astep st h st1 -> asteps st1 h' st2 -> asteps st (h ++ h') st2.

  (** Some process is about to do something undefined: an access outside its
      mapping or the file, or has exceeded the loop bound of the model. *)
  Definition goes_wrong (st : astate) : Prop :=
    exists i pr c, w_procs (a_w st) !! i = Some pr /\
      (a_run st !! i = Some (c, AUndef) \/ a_run st !! i = Some (c, ANoFuel) \/
       exists e k, a_run st !! i = Some (c, AOp e k) /\ aexec e (view (a_w st) pr) = None).
End vector.
