(** * What a user of AtomicVector relies on. *)
From Verif Require Export AtomicVectorModel.
Open Scope Z_scope.

(** Bit [b] of a vector of [n]-byte elements: bits are numbered from the most
    significant bit of element 0 on. *)
Definition vbit (n : nat) (v : list Z) (b : Z) : bool :=
  Z.testbit (default 0 (v !! Z.to_nat (b / bits n))) (bits n - 1 - b mod bits n).

Definition in_range (n : nat) (x : Z) : Prop := 0 <= x < 256 ^ Z.of_nat n.

(** The ideal vector: a list of numbers in [0, 256^n). *)
Definition vobj (n : nat) (v : list Z) (c : acall) (r : ares) (v' : list Z) : Prop :=
  let modify i (new : Z -> Z) (res : Z -> ares) :=
    (* element i is replaced, the result is computed from its old value *)
    if bool_decide (i < Z.of_nat (length v)) then
      exists x, v !! Z.to_nat i = Some x /\ r = res x /\
        v' = <[Z.to_nat i := new x mod 256 ^ Z.of_nat n]> v
    else r = RExn OutOfRange /\ v' = v in
  let modify_bit b (new : bool -> bool) (res : bool -> ares) :=
    if bool_decide (b / bits n < Z.of_nat (length v)) then
      r = res (vbit n v b) /\ length v' = length v /\ Forall (in_range n) v' /\
      forall b', 0 <= b' ->
        vbit n v' b' = if decide (b' = b) then new (vbit n v b) else vbit n v b'
    else r = RExn OutOfRange /\ v' = v in
  match c with
  | CSize => r = RVal (Z.of_nat (length v)) /\ v' = v
  | CLoad i => modify i (fun x => x) RVal
  | CStore i y => modify i (fun _ => y) (fun _ => RVoid)
  | CExchange i y => modify i (fun _ => y) RVal
  | CCas i e d => modify i (fun x => if decide (x = e) then d else x) RVal
  | CAdd i d => modify i (fun x => x + d) RVal
  | CSub i d => modify i (fun x => x - d) RVal
  | CAnd i m => modify i (fun x => Z.land x m) RVal
  | COr i m => modify i (fun x => Z.lor x m) RVal
  | CXor i m => modify i (fun x => Z.lxor x m) RVal
  | CLoadBit b => modify_bit b (fun x => x) RFlag
  | CStoreBit b y => modify_bit b (fun _ => y) RFlag
  | CXorBit b => modify_bit b negb (fun x => RFlag (negb x)) (* the new value *)
  | CExpand c =>
      if bool_decide (c <= Z.of_nat (length v)) then r = RVoid /\ v' = v
      else (r = RVoid /\ v' = v ++ replicate (Z.to_nat c - length v) 0) \/
           (r = RExn RuntimeError /\ v' = v)
  end.

(** The pool file [W] holds the vector [v]: the pool's size in word 0, the number
    of elements in word 8, then the elements; zeros behind them. *)
Definition holds_vector (n : nat) (W : world) (v : list Z) : Prop :=
  4096 <= w_word W 0 <= w_fsize W /\
  elem n (Z.of_nat (length v)) <= w_word W 0 /\
  w_word W 8 = Z.of_nat (length v) /\
  (forall j x, v !! j = Some x -> le_val (w_read W (elem n (Z.of_nat j)) n) = x) /\
  (forall a, elem n (Z.of_nat (length v)) <= a -> w_read W a 1 = [0]) /\
  (forall a b, w_mem W !! a = Some b -> is_byte b).

(** Every process has at least the first page mapped (its view may be older than
    the last expansion). *)
Definition processes_ok (W : world) : Prop :=
  forall i pr, w_procs W !! i = Some pr -> 4096 <= p_mapped pr.

(** Arguments are 64-bit (indices) and elements (values). *)
Definition args_ok (n : nat) (c : acall) : Prop :=
  match c with
  | CSize => True
  | CLoad i | CStore i _ | CExchange i _ | CAdd i _ | CSub i _ => 0 <= i < 2 ^ 64
  | CCas i e d => 0 <= i < 2 ^ 64
  | CAnd i m | COr i m | CXor i m => 0 <= i < 2 ^ 64
  | CLoadBit b | CStoreBit b _ | CXorBit b => 0 <= b < 2 ^ 64
  | CExpand c => 0 <= c /\ elem n c + 4095 < 2 ^ 64
  end.

Definition is_expand (c : acall) : Prop := match c with CExpand _ => True | _ => False end.
#[global] Instance is_expand_dec c : Decision (is_expand c).
Proof. destruct c; simpl; apply _. Defined.

(** The element a call works on. *)
Definition call_index (n : nat) (c : acall) : option Z :=
  match c with
  | CSize | CExpand _ => None
  | CLoad i | CStore i _ | CExchange i _ | CCas i _ _ | CAdd i _ | CSub i _ | CAnd i _
  | COr i _ | CXor i _ => Some i
  | CLoadBit b | CStoreBit b _ | CXorBit b => Some (b / bits n)
  end.

(** Clients that never call expand. *)
Definition no_expand (n : nat) (st : astate) (i : nat) (c : acall) : Prop :=
  args_ok n c /\ ~ is_expand c.
(** Clients that expand the vector one at a time, and use only elements that exist
    when they make the call. *)
Definition serial_expand (n : nat) (st : astate) (i : nat) (c : acall) : Prop :=
  args_ok n c /\
  (is_expand c -> forall j c' p, a_run st !! j = Some (c', p) -> ~ is_expand c') /\
  (forall j, call_index n c = Some j -> j < w_word (a_w st) 8).

(** The vector as an array of bits. *)
Definition bits_of (n : nat) (v : list Z) : list bool :=
  map (fun b => vbit n v (Z.of_nat b)) (seq 0 (8 * n * length v)).

(** The ideal bit array. *)
Definition bit_array (l : list bool) (c : acall) (r : ares) (l' : list bool) : Prop :=
  let at_bit b (new : bool -> bool) (res : bool -> bool) :=
    match l !! Z.to_nat b with
    | Some x => r = RFlag (res x) /\ l' = <[Z.to_nat b := new x]> l
    | None => r = RExn OutOfRange /\ l' = l
    end in
  match c with
  | CLoadBit b => at_bit b (fun x => x) (fun x => x)
  | CStoreBit b y => at_bit b (fun _ => y) (fun x => x)
  | CXorBit b => at_bit b negb negb
  | _ => False
  end.

Definition is_bit_call (c : acall) : Prop :=
  match c with CLoadBit _ | CStoreBit _ _ | CXorBit _ => True | _ => False end.
(** Every call of the history satisfies [K]. *)
Definition calls_are (K : acall -> Prop) (h : list (hevent acall ares)) : Prop :=
  Forall (fun e => match e with HCall _ c => K c | _ => True end) h.
