(** * Property theorems for concurrent use: C38 and C64.

    [crun] (ConcSpec.v) runs any number of processes under any schedule of their
    individual memory accesses, each call under the allocator's lock; the resulting
    history of calls and returns is linearizable with respect to the sequential
    objects [cobj].  C64: ReadOnlySpec.v. *)
From Verif Require Import SimpleSpec StructSpec SimpleMain StructStart LogSpec LogMain PropertiesStructLog ConcSpec ConcProof LogAllocModel ReadOnlySpec ReadOnlyProof.
Open Scope Z_scope.

Section both.
  Context (hash : HashFn) (lim : Z) (W : world) (F : nat) (schedule : list sevent).
  Context (Hi : initialized W) (HF : 2 ^ 62 <= Z.of_nat F).

  (** C38, over SimpleAllocator *)
  Theorem C38_operations_are_linearizable_partial : started lim W false ->
    exists v, linearizable (cobj simple_limits) ∅ (Some (∅, 0))
                (snd (crun (simple_allocator F) F (MS W ∅) schedule)) v.
  Proof.
    intros Hs. refine (start_linearizable _ _ (simple_limits_ok F HF) F HF _ _ schedule W (started_GInv _ _ _ _ Hs Hi)).
    - intros o. cbn [simple_allocator al_block_size]. unfold sa_block_size. ro.
    - cbn [simple_allocator al_get_base]. unfold sa_get_base. ro.
  Qed.
  (** C38, over LogarithmicAllocator *)
  Theorem C38_operations_are_linearizable_log_partial : log_started lim W ->
    exists v, linearizable (cobj log_limits) ∅ (Some (∅, 0))
                (snd (crun (log_allocator F) F (MS W ∅) schedule)) v.
  Proof.
    intros Hs. refine (start_linearizable _ _ (log_limits_ok F) F HF _ _ schedule W (log_started_GInv _ _ _ Hs Hi)).
    - intros o. cbn [log_allocator al_block_size]. unfold la_block_size. ro.
    - cbn [log_allocator al_get_base]. unfold la_get_base. ro.
  Qed.
End both.

(** A schedule in which two processes open the base object at the same time, a third
    one opens the pool, and two of them read while the other waits to write. *)
#[local] Existing Instance fnv1a64.
Definition steps (i n : nat) : list sevent := repeat (SStep i) n.
Definition ex_schedule : list sevent :=
  [SCall 0 (COpenBase KQueue); SCall 1 (COpenBase KQueue); SStep 0; SStep 1; SStep 0; SStep 1]
  ++ steps 0 12 ++ steps 1 12 ++ steps 0 200 ++ steps 1 200 ++ steps 0 200
  ++ [SCall 0 (COp 344 (QPush true [1; 2])); SCall 1 (COp 344 QSize); SOpen 2 0 4096; SCall 2 (COp 344 QVerify)]
  ++ [SStep 1; SStep 2; SStep 0; SStep 0; SStep 2; SStep 1; SStep 2] ++ steps 1 20 ++ steps 0 5 ++ steps 2 50
  ++ [SCall 1 (COp 344 (QPop false))] ++ steps 0 20 ++ steps 1 20 ++ steps 0 200 ++ steps 1 200.
Example C38_history_not_trivial :
  snd (crun ex_al 10 (MS ex_world ∅) ex_schedule) =
  [HCall 0 (COpenBase KQueue); HCall 1 (COpenBase KQueue); HReturn 1 (CAt 344); HReturn 0 (CAt 344);
   HCall 0 (COp 344 (QPush true [1; 2])); HCall 1 (COp 344 QSize); HCall 2 (COp 344 QVerify);
   HReturn 1 (CReturned (RNum 0)); HReturn 2 (CReturned RUnit);
   HCall 1 (COp 344 (QPop false));
   HReturn 0 (CReturned RUnit); HReturn 1 (CReturned (RBytes [1; 2]))].
Proof. vm_compute. reflexivity. Qed.
(** A history that is not linearizable: the item is returned twice. *)
Example C38_not_everything_is_linearizable v :
  ~ linearizable (cobj simple_limits) ∅ (Some (<[344 := VQueue [[1]]]> ∅, 0))
      [HCall 0 (COp 344 (QPop false)); HCall 1 (COp 344 (QPop true));
       HReturn 0 (CReturned (RBytes [1])); HReturn 1 (CReturned (RBytes [1]))] v.
Proof.
  assert (forall l f r s, cobj simple_limits (Some (<[344 := VQueue l]> ∅, 0)) (COp 344 (QPop f)) r s ->
     s = Some (<[344 := VQueue (match q_pop_ideal f l with Some (_, l') => l' | None => [] end)]> ∅, 0) /\
     r = (match q_pop_ideal f l with Some (d, _) => CReturned (RBytes d) | None => CRaised OutOfRange end)) as Hpop.
  { intros l f r s H. inversion H as [|? ? ? ? Hu| ? ? ? w ? ? ? Hl Hid| ? ? ? w ? ? ? Hl Hleft Hid| | | | | | |]; subst.
    - exfalso. apply Hu. cbn [usable]. rewrite lookup_insert. split; [discriminate|]. split; [|done].
      split; [done|]. split; [by constructor|done].
    - rewrite lookup_insert in Hl. injection Hl as <-. cbn [ideal] in Hid. destruct (q_pop_ideal f l) as [[d l']|]; [|done].
      injection Hid as <- <-. by rewrite insert_insert.
    - rewrite lookup_insert in Hl. injection Hl as <-. cbn [ideal requests left_by] in *. subst.
      destruct Hid as [Hid|[? _]]; [|done]. destruct (q_pop_ideal f l) as [[d l']|] eqn:E; [done|].
      injection Hid as <-. rewrite insert_insert. split; [|done]. destruct f, l as [|b l]; try done.
      cbn [q_pop_ideal] in E. destruct (last (b :: l)) eqn:E2; [done|]. by apply last_None in E2. }
  (* once the queue is empty, nobody obtains an item who has not obtained one before *)
  assert (forall P h s, linearizable (cobj simple_limits) P s h v -> s = Some (<[344 := VQueue []]> ∅, 0) ->
     (forall j c, P !! j = Some (PCalled c) -> exists f, c = COp 344 (QPop f)) ->
     (forall j c, HCall j c ∈ h -> exists f, c = COp 344 (QPop f)) ->
     forall i, (forall r, P !! i <> Some (PDone (CReturned r))) -> forall r, HReturn i (CReturned r) ∉ h) as Hempty.
  { induction 1 as [P s|P s j c h s' HP Hl IH|P s j c r s1 h s' HP Ho Hl IH|P s j r h s' HP Hl IH|P s j h s' Hl IH];
      intros Hs HC HH i Hi r' Hin; subst.
    - by apply elem_of_nil in Hin.
    - apply elem_of_cons in Hin as [?|Hin]; [done|]. revert Hin. apply IH; [done| | |].
      + intros j' c'. rewrite lookup_insert_Some. intros [[_ [= <-]]|[_ Hj]]; [apply (HH j); by left|by eapply HC].
      + intros j' c' Hj'. apply (HH j' c'). by right.
      + intros r0. rewrite lookup_insert_Some. intros [[_ ?]|[_ Hj]]; [done|by eapply Hi].
    - destruct (HC _ _ HP) as [f ->]. destruct (Hpop _ _ _ _ Ho) as [-> ->]. revert Hin. apply IH.
      + by destruct f.
      + intros j' c'. rewrite lookup_insert_Some. intros [[_ ?]|[_ Hj]]; [done|by eapply HC].
      + done.
      + intros r0. rewrite lookup_insert_Some. intros [[_ Hx]|[_ Hj]]; [by destruct f|by eapply Hi].
    - apply elem_of_cons in Hin as [[= <- <-]|Hin]; [by eapply Hi|]. revert Hin. apply IH; [done| | |].
      + intros j' c'. rewrite lookup_delete_Some. intros [_ Hj]. by eapply HC.
      + intros j' c' Hj'. apply (HH j' c'). by right.
      + intros r0. rewrite lookup_delete_Some. intros [_ Hj]. by eapply Hi.
    - apply elem_of_cons in Hin as [?|Hin]; [done|]. revert Hin. apply IH; [done| | |].
      + intros j' c'. rewrite lookup_delete_Some. intros [_ Hj]. by eapply HC.
      + intros j' c' Hj'. apply (HH j' c'). by right.
      + intros r0. rewrite lookup_delete_Some. intros [_ Hj]. by eapply Hi. }
  intros H.
  inversion H as [| ? ? ? ? ? ? _ H1 | ? ? ? ? ? ? ? ? Hc | |]; subst; [|by rewrite lookup_empty in Hc]. clear H.
  inversion H1 as [| ? ? ? ? ? ? _ H2 | ? ? i c r ? ? ? Hc Ho H2 | |]; subst; clear H1.
  - inversion H2 as [| | ? ? i c r ? ? ? Hc Ho H3 | ? ? ? ? ? ? Hd |]; subst; clear H2; [|by simplify_map_eq].
    assert (i = 0%nat /\ c = COp 344 (QPop false) \/ i = 1%nat /\ c = COp 344 (QPop true)) as [[-> ->]|[-> ->]].
    { rewrite !lookup_insert_Some in Hc. destruct Hc as [[<- [= <-]]|[_ [[<- [= <-]]|[_ Hc]]]]; [by right|by left|]. by rewrite lookup_empty in Hc. }
    + destruct (Hpop _ _ _ _ Ho) as [-> ->].
      apply (Hempty _ _ _ H3 eq_refl) with (i := 1%nat) (r := RBytes [1]).
      * intros j c. rewrite !lookup_insert_Some. intros [[_ ?]|[_ [[_ [= <-]]|[_ [[_ [= <-]]|[_ Hx]]]]]]; [done|by eexists..|]. by rewrite lookup_empty in Hx.
      * intros j c Hx. repeat (apply elem_of_cons in Hx as [?|Hx]; [done|]). by apply elem_of_nil in Hx.
      * intros r. by simplify_map_eq.
      * right. by left.
    + destruct (Hpop _ _ _ _ Ho) as [-> ->].
      apply (Hempty _ _ _ H3 eq_refl) with (i := 0%nat) (r := RBytes [1]).
      * intros j c. rewrite !lookup_insert_Some. intros [[_ ?]|[_ [[_ [= <-]]|[_ [[_ [= <-]]|[_ Hx]]]]]]; [done|by eexists..|]. by rewrite lookup_empty in Hx.
      * intros j c Hx. repeat (apply elem_of_cons in Hx as [?|Hx]; [done|]). by apply elem_of_nil in Hx.
      * intros r. by simplify_map_eq.
      * by left.
  - rewrite lookup_insert_Some in Hc. destruct Hc as [[<- [= <-]]|[_ Hc]]; [|by rewrite lookup_empty in Hc].
    destruct (Hpop _ _ _ _ Ho) as [-> ->].
    apply (Hempty _ _ _ H2 eq_refl) with (i := 1%nat) (r := RBytes [1]).
    + intros j c. rewrite !lookup_insert_Some. intros [[_ ?]|[_ [[_ [= <-]]|[_ Hx]]]]; [done|by eexists|]. by rewrite lookup_empty in Hx.
    + intros j c Hx. apply elem_of_cons in Hx as [[= -> ->]|Hx]; [by eexists|]. repeat (apply elem_of_cons in Hx as [?|Hx]; [done|]). by apply elem_of_nil in Hx.
    + intros r. by simplify_map_eq.
    + right. right. by left.
Qed.

(** C64: what takes the lock only for reading writes nothing, whatever the file contains,
    and even if the process dies.  The words of the lock itself, and the repair by whoever
    takes it over from a dead process, are not part of this. *)
Theorem C64_readers_write_nothing (hash : HashFn) (F : nat) : readers_write_nothing (simple_allocator F) F.
Proof.
  apply readers; cbn [simple_allocator al_block_size al_get_base al_bytes_allocated].
  - intros o. unfold sa_block_size. ro.
  - unfold sa_get_base. ro.
  - unfold sa_bytes_allocated. ro.
Qed.
Theorem C64_readers_write_nothing_log (hash : HashFn) (F : nat) : readers_write_nothing (log_allocator F) F.
Proof.
  apply readers; cbn [log_allocator al_block_size al_get_base al_bytes_allocated].
  - intros o. unfold la_block_size. ro.
  - unfold la_get_base. ro.
  - unfold la_bytes_allocated. ro.
Qed.
Theorem C64_verify_writes_nothing (F : nat) :
  writes_nothing sa_bytes_free /\ writes_nothing la_bytes_free /\ writes_nothing (la_verify F).
Proof.
  split; [|split]; apply ro_writes_nothing; [unfold sa_bytes_free; ro|unfold la_bytes_free; ro|apply ro_la_verify].
Qed.
(** The hypothesis is met: a call that is covered and one that is not. *)
Example C64_case : op_writes QSize = false /\ op_writes (QPush false [1]) = true /\
  exists W', ex_do ex_S1 1 (op_prog ex_al 10 344 QSize) = WDone (RNum 0) W'.
Proof.
  split; [reflexivity|]. split; [reflexivity|].
  exists (the_world (ex_do ex_S1 1 (op_prog ex_al 10 344 QSize))). wd.
Qed.

Print Assumptions C64_readers_write_nothing.
Print Assumptions C64_readers_write_nothing_log.
Print Assumptions C64_verify_writes_nothing.
Print Assumptions C38_operations_are_linearizable_partial.
Print Assumptions C38_operations_are_linearizable_log_partial.
