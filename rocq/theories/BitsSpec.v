(** * The number of slots of a hash table: what is claimed (C65). *)
From Verif Require Export StructSpec.
Open Scope Z_scope.

Section bits.
  Context {hash : HashFn} (al : allocator) (lm : alloc_limits) (F : nat).
  (** Every process that calls bits() on the table at [o] gets [b]. *)
  Definition bits_are (o b : Z) (st : gstate) : Prop :=
    forall j, is_Some (w_procs (g_w st) !! j) ->
    match run_by (g_w st) j (sa_lock ;; h_bits o)%prog with WDone b' _ => b' = b | _ => False end.
  (** bits() of a table never changes, whatever happens. *)
  Definition bits_never_change (st : gstate) : Prop :=
    forall o t, g_objs st !! o = Some (VHash t) -> exists b, 2 <= b <= 30 /\ Z.of_nat (length t) = 2 ^ b /\
    forall history, sgame al lm F (bits_are o b) (fun _ _ _ => True) history st.
  (** At first they are the argument of the constructor. *)
  Definition bits_as_asked (st : gstate) (ob : gobs) (st' : gstate) : Prop :=
    match ob with
    | GOCreated _ (KHash bits) o => bits_are o bits st'
    | _ => True
    end.
  (** The constructors refuse to create a table of fewer than 2 bits, and change nothing. *)
  Definition few_bits_refused (st : gstate) : Prop :=
    forall i bits, bits < 2 -> is_Some (w_procs (g_w st) !! i) ->
    match run_by (g_w st) i (sa_lock ;; h_create al bits)%prog with
    | WExn e W' => e = InvalidArgument /\ w_mem W' = w_mem (g_w st) /\ w_fsize W' = w_fsize (g_w st)
    | _ => False
    end.
End bits.
