(** * C38: the proof.

    The linearization point of every call is its return.  The world as it would be if
    the processes inside had not started yet satisfies the invariant of sequential
    histories, and what they have left to do leads to the same outcome from the current
    state as all of their code from that world. *)
From Verif Require Export ConcSpec StructGame.
From iris.proofmode Require Import tactics.
From iris.prelude Require Import options.
Open Scope Z_scope.

(** ** Programs that do not write *)
Definition reads (e : eff) : Prop := match e with EStore _ _ _ | EFtruncate _ => False | _ => True end.
Inductive read_only {A} : prog A → Prop :=
  | ro_ret a : read_only (Ret a)
  | ro_throw e : read_only (Throw e)
  | ro_undef : read_only Undef
  | ro_fuel : read_only NoFuel
  | ro_op e k : reads e → (∀ v, read_only (k v)) → read_only (Op e k).

Lemma exec_reads e s v s' : reads e → exec e s = Some (v, s') → mem s' = mem s ∧ fsize s' = fsize s.
Proof. destruct e; intros Hr; try done; simpl; try (case_match); intros; simplify_eq; done. Qed.
Lemma ro_bind {A B} (p : prog A) (k : A → prog B) :
  read_only p → (∀ a, read_only (k a)) → read_only (bind p k).
Proof.
  intros Hp Hk. induction Hp; cbn [bind]; [apply Hk|by constructor..|].
  constructor; auto.
Qed.
Lemma ro_catch {A} (p : prog A) (h : exn → prog A) : read_only p → (∀ e, read_only (h e)) → read_only (catch p h).
Proof. intros Hp Hh. induction Hp; cbn [catch]; try by constructor. apply Hh. Qed.
Lemma ro_load n a : read_only (load n a).
Proof. constructor; [done|]. intros. constructor. Qed.
Lemma ro_load_bytes a n : read_only (load_bytes a n).
Proof.
  revert a. induction n as [|n IH]; intros a; [constructor|]. cbn [load_bytes]. apply ro_bind; [apply ro_load|].
  intros b. apply ro_bind; [apply IH|]. intros. constructor.
Qed.
Lemma ro_if {A} (b : bool) (p q : prog A) : read_only p → read_only q → read_only (if b then p else q).
Proof. by destruct b. Qed.
Lemma ro_check_size : read_only check_size_and_remap.
Proof.
  unfold check_size_and_remap. apply ro_bind; [constructor; [done|]; intros; constructor|]. intros m.
  apply ro_bind. { apply ro_if; [constructor; [done|]; intros; constructor|apply ro_load]. } intros n.
  apply ro_if; [constructor|]. apply ro_bind; [constructor; [done|]; intros; constructor|]. intros _.
  apply ro_if; constructor.
Qed.

Ltac ro_step :=
  match goal with
  | H : read_only ?p |- read_only ?p => exact H
  | H : _ |- read_only _ => solve [apply H]
  | |- read_only (bind _ _) => apply ro_bind; [|intros ?]
  | |- read_only (load _ _) => apply ro_load
  | |- read_only (load64 _) => apply ro_load
  | |- read_only (load8 _) => apply ro_load
  | |- read_only (load_bytes _ _) => apply ro_load_bytes
  | |- read_only (Ret _) => constructor
  | |- read_only (Throw _) => constructor
  | |- read_only Undef => constructor
  | |- read_only NoFuel => constructor
  | |- read_only (Op _ _) => constructor; [done|intros ?]
  | |- read_only (if ?b then _ else _) => destruct b
  | |- read_only (match ?x with _ => _ end) => destruct x
  | |- read_only (let '(_, _) := ?x in _) => destruct x
  end.
Ltac ro := repeat ro_step.

Section reads.
  Context {hash : HashFn}.
  Context (al : allocator) (Hal : ∀ o, read_only (al_block_size al o)) (F : nat).
  Set Default Proof Using "All".

  Lemma ro_q_verify base : read_only (q_verify al F base).
  Proof.
    unfold q_verify. apply ro_bind; [|intros [[? ?] ?]; ro].
    generalize (q_front base) at 1. generalize 0 at 1. generalize (u64 (-2)). generalize 0.
    induction F as [|G IH]; intros c b p cur; cbn [q_verify_loop]; ro.
  Qed.

  Lemma ro_h_walk G prev cur k : read_only (h_walk G prev cur k).
  Proof. revert prev cur. induction G as [|G IH]; intros prev cur; cbn [h_walk]; unfold h_match; ro. Qed.
  Lemma ro_h_find base k : read_only (h_find al F hash base k).
  Proof. unfold h_find, h_slot, h_match. ro. apply ro_h_walk. Qed.
  Lemma ro_t_walk parent node nodes k : read_only (t_walk parent node nodes k).
  Proof. revert parent node nodes. induction k as [|c k IH]; intros parent node nodes; cbn [t_walk]; ro. Qed.
  Lemma ro_t_find base k : read_only (t_find base k).
  Proof. unfold t_find, t_traverse. apply ro_bind; [apply ro_t_walk|]. intros []; ro. Qed.
  Lemma ro_t_lookup c : read_only (t_lookup al c).
  Proof. unfold t_lookup. ro. Qed.
  Lemma ro_t_descend node nodes k : read_only (t_descend node nodes k).
  Proof. revert node nodes. induction k as [|c k IH]; intros node nodes; cbn [t_descend]; ro. Qed.
  Lemma ro_t_scan G slot_id nodes : read_only (t_scan G slot_id nodes).
  Proof. revert slot_id nodes. induction G as [|G IH]; intros slot_id nodes; cbn [t_scan]; ro. Qed.
  Lemma ro_t_key_of nodes : read_only (t_key_of nodes).
  Proof. induction nodes as [|n nodes IH]; cbn [t_key_of]; ro. Qed.
  Lemma ro_t_next base cur : read_only (t_next_key_value al F base cur).
  Proof.
    unfold t_next_key_value. apply ro_bind; [ro|]. intros v. apply ro_if; [apply ro_bind; [apply ro_t_lookup|intros; ro]|].
    apply ro_bind; [destruct cur; [apply ro_t_descend|ro]|]. intros [slot_id nodes].
    apply ro_bind; [apply ro_t_scan|]. intros [[c s] ns]. apply ro_if; [ro|].
    apply ro_bind; [apply ro_t_key_of|]. intros. apply ro_bind; [apply ro_t_lookup|intros; ro].
  Qed.

  Lemma ro_t_at base k : read_only (t_at al base k).
  Proof. unfold t_at. apply ro_bind; [apply ro_t_find|intros]. ro; apply ro_t_lookup. Qed.
  Lemma ro_t_or_end {A} (p : prog A) : read_only p → read_only (t_or_end p).
  Proof.
    intros H. apply ro_catch; [apply ro_bind; [exact H|intros; constructor]|]. intros e. apply ro_if; constructor.
  Qed.
  Lemma ro_t_find_item base k : read_only (t_find_item al base k).
  Proof. apply ro_t_or_end, ro_bind; [apply ro_t_at|intros; constructor]. Qed.
  Lemma ro_t_upper base k : read_only (t_upper_bound al F base k).
  Proof. apply ro_t_or_end, ro_t_next. Qed.
  Lemma ro_t_walk_slot parent node last k : read_only (t_walk_slot parent node last k).
  Proof. revert parent node last. induction k as [|c k IH]; intros parent node last; cbn [t_walk_slot]; ro. Qed.
  Lemma ro_t_sum_slots f n a ret : (∀ x, read_only (f x)) → read_only (t_sum_slots f n a ret).
  Proof. intros H. revert a ret. induction n as [|n IH]; intros a ret; cbn [t_sum_slots]; ro. Qed.
  Lemma ro_t_nodes_below G c : read_only (t_nodes_below G c).
  Proof. revert c. induction G as [|G IH]; intros c; cbn [t_nodes_below]; ro; by apply ro_t_sum_slots. Qed.
  Lemma ro_t_bytes_below G c : read_only (t_bytes_below al G c).
  Proof. revert c. induction G as [|G IH]; intros c; cbn [t_bytes_below]; ro; by apply ro_t_sum_slots. Qed.

  Lemma ro_op_prog o x : op_writes x = false → x ≠ HItems → x ≠ OTree TItems → read_only (op_prog al F o x).
  Proof.
    intros Hw Hn1 Hn2. destruct x as [| | | | | | | | | | | | | | | | | | | | |y]; try discriminate Hw; cbn [op_prog]; try (by destruct Hn1).
    1,2,4,5,6,9: unfold q_size, q_bytes, pq_size, h_size; ro.
    - apply ro_bind; [apply ro_q_verify|intros; ro].
    - apply ro_bind; [|intros; ro]. unfold h_exists. apply ro_bind; [apply ro_h_find|intros []; ro].
    - apply ro_bind; [|intros; ro]. unfold h_at. apply ro_bind; [apply ro_h_find|intros []; ro].
    - apply ro_bind; [|intros; ro]. destruct y; try discriminate Hw; cbn [tree_prog]; try (by destruct Hn2).
      + unfold t_has. apply ro_bind; [|intros; ro]. apply ro_bind; [apply ro_t_find|intros; ro].
      + unfold t_type_at. apply ro_bind; [|intros; ro]. apply ro_bind; [apply ro_t_find|intros; ro].
      + unfold t_at. apply ro_bind; [|intros; ro]. apply ro_bind; [apply ro_t_find|intros]. ro; apply ro_t_lookup.
      + apply ro_bind; [apply ro_t_next|intros []; ro].
      + unfold t_size. ro.
      + unfold t_node_count. ro.
      + apply ro_bind; [apply ro_t_find_item|intros; ro].
      + apply ro_bind; [|intros; ro]. unfold t_lower_bound. apply ro_bind; [apply ro_t_find_item|]. intros []; [ro|apply ro_t_upper].
      + apply ro_bind; [apply ro_t_upper|intros; ro].
      + apply ro_bind; [|intros; ro]. unfold t_nodes_for_prefix. apply ro_if; [apply ro_t_nodes_below|].
        apply ro_bind; [apply ro_t_walk_slot|]. intros. apply ro_if; [ro|]. apply ro_bind; [apply ro_load|]. intros. apply ro_t_nodes_below.
      + apply ro_bind; [|intros; ro]. unfold t_bytes_for_prefix. apply ro_if; [apply ro_bind; [apply ro_t_bytes_below|intros; ro]|].
        apply ro_bind; [apply ro_t_walk_slot|]. intros. apply ro_if; [ro|]. apply ro_bind; [apply ro_load|]. intros. apply ro_t_bytes_below.
  Qed.
End reads.

(** ** Whether a call is covered can be decided *)
Section decide.
  Context {hash : HashFn}.
  Global Instance is_byte_dec x : Decision (is_byte x).
  Proof. unfold is_byte. solve_decision. Defined.
  Global Instance is_u64_dec x : Decision (is_u64 x).
  Proof. unfold is_u64. solve_decision. Defined.
  Global Instance is_s64_dec x : Decision (is_s64 x).
  Proof. unfold is_s64. solve_decision. Defined.
  Global Instance bytes_ok_dec d : Decision (bytes_ok d).
  Proof. unfold bytes_ok. solve_decision. Defined.
  Global Instance pval_ok_dec v : Decision (pval_ok v).
  Proof. destruct v; simpl; apply _. Defined.
  Global Instance request_ok_dec lm n : Decision (request_ok lm n).
  Proof. unfold request_ok. solve_decision. Defined.
  Global Instance args_ok_dec x : Decision (args_ok x).
  Proof. destruct x; simpl; try apply _. destruct x; simpl; apply _. Defined.
  Global Instance none_dec {A} (o : option A) : Decision (o = None).
  Proof. destruct o; [by right|by left]. Defined.
  Global Instance erase_ok_dec b t k : Decision (erase_ok hash b t k).
  Proof. unfold erase_ok. destruct (h_slot_of hash t k) as [i l]. destruct (is_first k l); apply _. Defined.
  Global Instance counted_dec t k v : Decision (counted t k v).
  Proof. unfold counted. destruct v as [[|? ?]|z|b|b|]; apply _. Defined.
  Global Instance handled_dec lm v x : Decision (handled lm v x).
  Proof.
    destruct v, x; cbn [handled]; try apply _. unfold t_handled. destruct x; try apply _. destruct cur; apply _.
  Defined.
  Global Instance sensible_dec lm v x : Decision (sensible lm v x).
  Proof. unfold sensible. apply _. Defined.
  Global Instance sensible_kind_dec lm k : Decision (sensible_kind lm k).
  Proof. unfold sensible_kind. destruct k; apply _. Defined.
  Global Instance usable_dec lm objs c : Decision (usable lm objs c).
  Proof.
    destruct c as [k|k|o x|o|v]; cbn [usable]; try apply _.
    - destruct k; apply _.
    - destruct (objs !! o); apply _.
    - destruct (objs !! o) as [[]|]; apply _.
  Defined.
End decide.

(** ** The critical sections, one after the other *)
Lemma run_check_same s : 8 <= mapped s → 8 <= fsize s → le_val (read_bytes s 0 8) = mapped s →
  run check_size_and_remap s = Done tt s.
Proof.
  intros Hm Hf Hw. unfold check_size_and_remap. rewrite run_bind. cbn [run get_mapped exec].
  rewrite (bool_decide_eq_false_2 (mapped s = 0)); [|lia].
  rewrite run_bind run_load64. unfold valid. rewrite bool_decide_eq_true_2; [|lia]. rewrite Hw.
  rewrite (bool_decide_eq_true_2 (mapped s = mapped s)); done.
Qed.
Lemma run_once R W i pr {A} (p : prog A) : file_holds R W → w_procs W !! i = Some pr → proc_ok pr →
  run_by W i (check_size_and_remap ;; p)%prog = run_by W i (sa_lock ;; p)%prog.
Proof.
  intros H Hi [Hp1 Hp2]. apply file_holds_facts in H as ([Hs _] & Hle & _).
  destruct (run_check_size (view W pr) (w_size W)) as [e1 He1]; [simpl; lia|simpl; lia|done|lia|].
  assert (run sa_lock (view W pr) = run check_size_and_remap (view W pr)) as He.
  { unfold sa_lock. rewrite (run_bind check_size_and_remap). rewrite He1 run_check_same; [done|simpl; lia|simpl; lia|done]. }
  unfold run_by. rewrite Hi. rewrite (run_bind check_size_and_remap (λ _, p)) (run_bind sa_lock (λ _, p)). by rewrite He.
Qed.
Definition wmap {A B} (f : A → B) (r : wres A) : wres B :=
  match r with WDone a W => WDone (f a) W | WExn e W => WExn e W | WBad => WBad | WNoProc => WNoProc end.
Lemma run_by_map {A B} W i (p : prog A) (f : A → B) :
  run_by W i (sa_lock ;; a <- p ;; Ret (f a))%prog = wmap f (run_by W i (sa_lock ;; p)%prog).
Proof.
  unfold run_by. destruct (w_procs W !! i) as [pr|]; [|done].
  rewrite (run_bind sa_lock (λ _, p)) (run_bind sa_lock (λ _, bind p _)).
  destruct (run sa_lock (view W pr)) as [[] s|e s| |]; [|done..]. rewrite (run_bind p). by destruct (run p s).
Qed.

Section conc.
  Context {hash : HashFn}.
  Context {al : allocator} (S : alloc_spec al) `{!BaseFree S, !Visible S} (lm : alloc_limits) (HL : limits_ok S lm).
  Context (F : nat) (HF : 2 ^ 62 <= Z.of_nat F).
  Context (Hbs : ∀ o, read_only (al_block_size al o)) (Hgb : read_only (al_get_base al)).
  Set Default Proof Using "All".

  Lemma GInv_proc st i pr : GInv S st → w_procs (g_w st) !! i = Some pr → proc_ok pr.
  Proof. intros ([Hok _] & _) Hi. by apply (Hok i). Qed.
  Lemma GInv_once st i pr {A} (p : prog A) : GInv S st → w_procs (g_w st) !! i = Some pr →
    run_by (g_w st) i (check_size_and_remap ;; p)%prog = run_by (g_w st) i (sa_lock ;; p)%prog.
  Proof.
    intros HG Hi. pose proof (GInv_proc _ _ _ HG Hi) as Hp. destruct HG as (_ & _ & xs & J & K & _ & _ & HR).
    by apply (run_once _ _ _ _ _ HR Hi).
  Qed.

  Definition phase_ok (c : ccall) (n : nat) : Prop :=
    match c with COpenBase _ => (n <= 1)%nat | _ => n = 0%nat end.

  (** The first section of a constructor that opens the base object. *)
  Lemma section_get_base W objs bo tidy i pr k : GInv S (GS W objs bo tidy) → w_procs W !! i = Some pr →
    match run_by W i (check_size_and_remap ;; snd (section al F (COpenBase k) 0))%prog with
    | WDone r W' => r = (if bool_decide (bo = 0) then None else Some (CAt bo)) ∧ GInv S (GS W' objs bo tidy)
    | _ => False
    end.
  Proof.
    intros HG Hi. rewrite (GInv_once _ _ _ _ HG Hi). cbn [section snd g_w]. rewrite run_by_map.
    pose proof HG as (Hok & Hbo & xs & J & K & Ho & Ht & HR). cbn [g_w g_objs g_base g_tidy] in *.
    pose proof (run_pool S lm HL F HF _ _ _ _ _ _ _ (al_get_base al)
      (λ r xs' J' s', r = bo ∧ xs' = xs ∧ J' = J ∧ s_K s' = K ∧ s_bo s' = bo) (λ e xs' J' s', False) HR Hok Hi) as H.
    feed specialize H.
    { intros e. iIntros "(H & R & RJ)". iApply bind_ret_r. iApply (wp_get_base with "H"). iIntros "H".
      iApply wp_ret. simpl. iExists xs, J, _. iFrame. done. }
    destruct (run_by _ _ _) as [r W'|e W'| |]; try done; cbn [wmap].
    - destruct H as [(Hl & Hok' & _) (xs' & J' & s' & (-> & -> & -> & HK & Hb) & Hm & HR')]. split; [done|].
      split; [by apply (wok_env S lm HL F HF _ _ Hok Hl Hok')|]. split; [done|]. exists xs, J, K. rewrite HK Hb in HR'. done.
    - destruct H as [_ (?&?&?&[]&_)].
  Qed.

  Lemma new_object_value k W o : sensible_kind lm k → new_object k (new_value k W o).
  Proof.
    intros [Hk _]. destruct k; simpl; try done. eexists. split; [done|]. unfold dlen, w_read. rewrite read_bytes_length.
    apply Forall_inv in Hk. destruct Hk as [Hk _]. destruct HL. lia.
  Qed.

  Definition sequential (W : world) (objs : gmap Z value) (bo : Z) (c : ccall) (r : cres) (W' : world) : Prop :=
    ∃ objs' bo' tidy', cobj lm (Some (objs, bo)) c r (Some (objs', bo')) ∧ GInv S (GS W' objs' bo' tidy').

  Lemma section_step W objs bo tidy i pr c n : GInv S (GS W objs bo tidy) → w_procs W !! i = Some pr →
    usable lm objs c → phase_ok c n →
    match run_by W i (check_size_and_remap ;; snd (section al F c n))%prog with
    | WDone (Some r) W' => sequential W objs bo c r W'
    | WDone None W' => True
    | WExn e W' => sequential W objs bo c (CRaised e) W'
    | WBad | WNoProc => False
    end.
  Proof.
    intros HG Hi Hu Hph. destruct c as [k|k|o x|o|v]; cbn [phase_ok] in Hph; subst.
    - rewrite (GInv_once _ _ _ _ HG Hi). cbn [section snd g_w]. rewrite run_by_map.
      pose proof (sgame_inv S lm HL F HF [GCreate i k] _ HG) as [_ Hg]. cbn [sgame g_w] in Hg. rewrite Hi in Hg.
      specialize (Hg Hu). destruct (run_by _ _ _) as [o W'|e W'| |]; try done; cbn [wmap].
      + destruct Hg as (Ho & _ & HG' & _). eexists _, _, _. split; [|exact HG']. constructor; [done|by apply new_object_value].
      + destruct Hg as (((-> & _) & _) & HG' & _). eexists _, _, _. split; [|exact HG']. constructor.
    - destruct n as [|[|n]]; [| |lia].
      { pose proof (section_get_base W objs bo tidy i pr k HG Hi) as H. destruct (run_by _ _ _) as [r W'|e W'| |]; try done.
        destruct H as [-> HG']. case_bool_decide; [done|]. eexists _, _, _. split; [|exact HG']. by constructor. }
      destruct Hu as [Hk Hnb]. rewrite (GInv_once _ _ _ _ HG Hi). cbn [section snd g_w].
      destruct (open_base_prog al k) as [p|] eqn:Hp; [|by destruct k]. rewrite run_by_map.
      pose proof HG as (Hok & Hbo & xs & J & K & Ho & Ht & HR). cbn [g_w g_objs g_base g_tidy] in *.
      pose proof (step_open_base S lm HL F HF _ _ _ _ _ _ _ _ _ HR Hok Hi Hk Hbo Hp) as Hg.
      destruct (run_by _ _ _) as [o W'|e W'| |]; try done; cbn [wmap].
      + destruct Hg as ((Hl & Hok' & _) & Hg). case_bool_decide as Hb.
        * subst bo. destruct Hg as (B & s' & Hno & Hu & Hg & Hm & HR'). eexists _, _, false. split.
          { constructor; [by rewrite Ho|by apply (new_object_value k W' o)]. }
          split; [by apply (wok_env S lm HL F HF _ _ Hok Hl Hok')|]. split; [done|].
          exists ((o, new_value k W' o, B) :: xs), J, (s_K s'). rewrite (objs_map_cons S lm HL F HF). cbn [g_objs g_tidy]. by rewrite Ho.
        * destruct Hg as (-> & Hm & HR'). eexists _, _, tidy. split; [by constructor|].
          split; [by apply (wok_env S lm HL F HF _ _ Hok Hl Hok')|]. split; [done|]. by exists xs, J, K.
      + destruct Hg as ((Hl & Hok' & _) & -> & J0 & s' & (-> & _) & HJ0 & Hg & Hm & HR').
        eexists _, _, false. split; [by constructor|].
        split; [by apply (wok_env S lm HL F HF _ _ Hok Hl Hok')|]. split; [done|]. by exists xs, (J0 ++ J), (s_K s').
    - rewrite (GInv_once _ _ _ _ HG Hi). cbn [section snd g_w]. rewrite run_by_map.
      pose proof (sgame_inv S lm HL F HF [GOp i o x] _ HG) as [_ Hg]. cbn [sgame g_w] in Hg. cbn [usable] in Hu.
      destruct (objs !! o) as [v|] eqn:Ho; [|done]. rewrite Hi in Hg. destruct Hu as (Hu1 & Hu2 & Hu3).
      specialize (Hg Hu1 Hu2). feed specialize Hg; [by rewrite Hu3|].
      destruct (run_by _ _ _) as [r W'|e W'| |]; try done; cbn [wmap].
      + destruct Hg as (((v' & Hv') & _) & HG' & _). eexists _, _, _. split; [|exact HG'].
        unfold after_op. rewrite Hv'. by econstructor.
      + destruct Hg as (v' & Hleft & ((Hr & _) & HG' & _)). eexists _, _, _. split; [|exact HG'].
        econstructor; [done|done|]. destruct Hr as [Hr|(-> & Hr & _)]; [by left|right; by split].
    - rewrite (GInv_once _ _ _ _ HG Hi). cbn [section snd g_w].
      rewrite (run_by_map _ _ _ (λ _, Some (CReturned RUnit))).
      pose proof (sgame_inv S lm HL F HF [GFree i o] _ HG) as [_ Hg]. cbn [sgame g_w] in Hg. cbn [usable] in Hu.
      destruct (objs !! o) as [v|] eqn:Ho; [|done]. destruct v; try done. rewrite Hi in Hg.
      destruct (run_by _ _ _) as [r W'|e W'| |]; try done; cbn [wmap].
      destruct Hg as (_ & HG' & _). eexists _, _, _. split; [|exact HG']. by econstructor.
    - rewrite (GInv_once _ _ _ _ HG Hi). cbn [section snd g_w].
      rewrite (run_by_map _ _ _ (λ _, Some (CReturned RUnit))).
      pose proof (sgame_inv S lm HL F HF [GSetBase i v] _ HG) as [_ Hg]. cbn [sgame g_w] in Hg. cbn [usable] in Hu.
      rewrite Hi in Hg. specialize (Hg Hu).
      destruct (run_by _ _ _) as [r W'|e W'| |]; try done; cbn [wmap].
      destruct Hg as (_ & HG' & _). eexists _, _, _. split; [|exact HG']. by econstructor.
  Qed.

  (** ** The invariant *)
  Definition t_call (t : thread) : ccall := match t with TWaiting c _ | TInside c _ _ => c end.
  Definition t_n (t : thread) : nat := match t with TWaiting _ n | TInside _ n _ => n end.
  Definition waits (t : option thread) : Prop := match t with Some (TInside _ _ _) => False | _ => True end.
  Definition excl (c : ccall) (n : nat) : bool := fst (section al F c n).
  Definition body (c : ccall) (n : nat) : prog (option cres) := (check_size_and_remap ;; snd (section al F c n))%prog.
  Definition pend (T : gmap nat thread) : gmap nat (@pending ccall cres) := (λ t, PCalled (t_call t)) <$> T.

  Definition threads_ok (T : gmap nat thread) : Prop :=
    ∀ i t, T !! i = Some t → phase_ok (t_call t) (t_n t) ∧ is_call (t_call t) = true.
  (** [W0]: the world before the sections in progress. *)
  Record inv_at (W W0 : world) (T : gmap nat thread) : Prop := InvAt {
    ia_lim : w_lim W0 = w_lim W;
    ia_out : ∀ i, waits (T !! i) → w_procs W !! i = w_procs W0 !! i;
    ia_in : ∀ i c n p, T !! i = Some (TInside c n p) → ∃ pr pr0,
      w_procs W !! i = Some pr ∧ w_procs W0 !! i = Some pr0 ∧
      run p (view W pr) = run (body c n) (view W0 pr0);
    ia_ro : ∀ i c n p, T !! i = Some (TInside c n p) → excl c n = false → read_only p;
    ia_one : ∀ i c n p, T !! i = Some (TInside c n p) → excl c n = true → ∀ j, j ≠ i → waits (T !! j);
    ia_same : (∀ i c n p, T !! i = Some (TInside c n p) → excl c n = false) →
      w_mem W = w_mem W0 ∧ w_fsize W = w_fsize W0 }.
  Definition CInv (M : mstate) (v : cstate) : Prop :=
    match v with
    | None => True
    | Some (objs, bo) => threads_ok (m_t M) ∧ ∃ W0 tidy, GInv S (GS W0 objs bo tidy) ∧ inv_at (m_w M) W0 (m_t M)
    end.

  Lemma ro_body c n : is_call c = true → excl c n = false → read_only (body c n).
  Proof.
    intros Hc He. unfold body. apply ro_bind; [apply ro_check_size|intros _]. unfold excl in He.
    destruct c as [k|k|o x|o|v]; destruct n as [|[|n]]; cbn [section fst snd] in *; try discriminate He.
    - apply ro_bind; [exact Hgb|intros; ro].
    - apply ro_bind; [apply ro_op_prog; [done..| |]|intros; ro]; by intros ->.
  Qed.

  (** A call takes effect and returns. *)
  Lemma lin_effect_return T i t v v' r h vend : T !! i = Some t → cobj lm v (t_call t) r v' →
    linearizable (cobj lm) (pend (delete i T)) v' h vend →
    linearizable (cobj lm) (pend T) v (HReturn i r :: h) vend.
  Proof.
    intros Ht Ho Hl. eapply (lin_effect _ _ _ i); [unfold pend; rewrite lookup_fmap Ht; done|exact Ho|].
    apply lin_return; [apply lookup_insert|]. rewrite delete_insert_delete. unfold pend in *. by rewrite -fmap_delete.
  Qed.

  Lemma threads_delete T i : threads_ok T → threads_ok (delete i T).
  Proof. intros H j t. rewrite lookup_delete_Some. intros [_ Hj]. by apply (H j). Qed.
  Lemma threads_insert T i t : threads_ok T → phase_ok (t_call t) (t_n t) → is_call (t_call t) = true →
    threads_ok (<[i := t]> T).
  Proof.
    intros H H1 H2 j t'. destruct (decide (j = i)) as [->|Hne].
    - rewrite lookup_insert. by intros [= <-].
    - rewrite lookup_insert_ne //. apply H.
  Qed.

  (** Leaving a section: the world before the remaining sections is the one after
      this one. *)
  Lemma inv_leave W W0 T i c n p pr pr0 T' :
    inv_at W W0 T → T !! i = Some (TInside c n p) → w_procs W !! i = Some pr → w_procs W0 !! i = Some pr0 →
    waits (T' !! i) → (∀ j, j ≠ i → T' !! j = T !! j) →
    inv_at W (leave W0 i (view W pr)) T'.
  Proof.
    intros [Hlim Hout Hin Hro Hone Hsame] Hi Hpr Hpr0 Hw Hrest.
    assert (∀ j c' n' p', T' !! j = Some (TInside c' n' p') → j ≠ i ∧ T !! j = Some (TInside c' n' p')) as Hk.
    { intros j c' n' p' Hj. destruct (decide (j = i)) as [->|Hne]; [by rewrite Hj in Hw|]. by rewrite -Hrest. }
    split.
    - done.
    - intros j Hj. cbn [leave w_procs view]. destruct (decide (j = i)) as [->|Hne].
      + rewrite lookup_insert Hpr. by destruct pr.
      + rewrite lookup_insert_ne //. apply Hout. by rewrite -Hrest.
    - intros j c' n' p' Hj. apply Hk in Hj as [Hne Hj]. destruct (Hin _ _ _ _ Hj) as (q & q0 & Hq & Hq0 & Hr).
      exists q, q0. split; [done|]. split; [cbn [leave w_procs]; by rewrite lookup_insert_ne|]. rewrite Hr.
      assert (w_mem W = w_mem W0 ∧ w_fsize W = w_fsize W0) as [Hm Hf].
      { apply Hsame. intros l c2 n2 p2 Hl. destruct (excl c2 n2) eqn:E; [|done].
        destruct (decide (l = i)) as [->|Hl1].
        - pose proof (Hone _ _ _ _ Hl E j Hne) as Hx. by rewrite Hj in Hx.
        - pose proof (Hone _ _ _ _ Hl E i (not_eq_sym Hl1)) as Hx. by rewrite Hi in Hx. }
      unfold view, leave. cbn [w_mem w_fsize w_lim mem fsize]. by rewrite Hm Hf.
    - intros j c' n' p' Hj He. apply Hk in Hj as [_ Hj]. by eapply Hro.
    - intros j c' n' p' Hj He l Hl. apply Hk in Hj as [Hne Hj]. destruct (decide (l = i)) as [->|Hli]; [done|].
      rewrite Hrest //. by eapply Hone.
    - intros _. done.
  Qed.

  Lemma set_proc_inv W objs bo tidy i pr : GInv S (GS W objs bo tidy) → proc_ok pr →
    GInv S (GS (set_proc W i pr) objs bo tidy).
  Proof.
    intros (Hok & Hbo & xs & J & K & Ho & Ht & HR) Hpr. cbn [g_w g_objs g_base g_tidy] in *. split; [|split; [done|]].
    - destruct Hok as [Hok Hcfg]. split; [|exact Hcfg]. intros j q. simpl. destruct (decide (j = i)) as [->|Hne].
      + rewrite lookup_insert. by intros [= <-].
      + rewrite lookup_insert_ne //. apply Hok.
    - exists xs, J, K. split; [done|]. split; [done|]. by apply (file_holds_same _ W).
  Qed.
  Lemma del_proc_inv W objs bo tidy i : GInv S (GS W objs bo tidy) → GInv S (GS (del_proc W i) objs bo tidy).
  Proof.
    intros (Hok & Hbo & xs & J & K & Ho & Ht & HR). cbn [g_w g_objs g_base g_tidy] in *. split; [|split; [done|]].
    - destruct Hok as [Hok Hcfg]. split; [|exact Hcfg]. intros j q. simpl. rewrite lookup_delete_Some. intros [_ Hj]. by eapply Hok.
    - exists xs, J, K. split; [done|]. split; [done|]. by apply (file_holds_same _ W).
  Qed.
  Lemma set_proc_at W W0 T i pr : inv_at W W0 T → waits (T !! i) → inv_at (set_proc W i pr) (set_proc W0 i pr) T.
  Proof.
    intros [Hlim Hout Hin Hro Hone Hsame] Hi. split; try done.
    - intros j Hj. cbn [set_proc w_procs]. destruct (decide (j = i)) as [->|Hne]; [by rewrite !lookup_insert|].
      rewrite !lookup_insert_ne //. by apply Hout.
    - intros j c n p Hj. destruct (Hin _ _ _ _ Hj) as (q & q0 & H1 & H2 & H3). exists q, q0. cbn [set_proc w_procs].
      assert (j ≠ i) by (intros ->; by rewrite Hj in Hi). rewrite !lookup_insert_ne //.
  Qed.
  Lemma del_proc_at W W0 T i : inv_at W W0 T → waits (T !! i) → inv_at (del_proc W i) (del_proc W0 i) (delete i T).
  Proof.
    intros [Hlim Hout Hin Hro Hone Hsame] Hi. split; try done.
    - intros j Hj. cbn [del_proc w_procs]. destruct (decide (j = i)) as [->|Hne]; [by rewrite !lookup_delete|].
      rewrite lookup_delete_ne // in Hj. rewrite !lookup_delete_ne //. by apply Hout.
    - intros j c n p. rewrite lookup_delete_Some. intros [Hne Hj]. destruct (Hin _ _ _ _ Hj) as (q & q0 & H1 & H2 & H3). exists q, q0.
      cbn [del_proc w_procs]. rewrite !lookup_delete_ne //.
    - intros j c n p. rewrite lookup_delete_Some. intros [Hne Hj]. by eapply Hro.
    - intros j c n p. rewrite lookup_delete_Some. intros [Hne Hj] He l Hl. destruct (decide (l = i)) as [->|Hli]; [by rewrite lookup_delete|].
      rewrite lookup_delete_ne //. by eapply Hone.
    - intros Hall. apply Hsame. intros j c n p Hj. apply (Hall j c n p). rewrite lookup_delete_ne //. intros ->. by rewrite Hj in Hi.
  Qed.

  Lemma exec_oslim e s x s' : exec e s = Some (x, s') → oslim s' = oslim s.
  Proof. destruct e; simpl; try case_match; intros; simplify_eq; done. Qed.
  Lemma body_none c n s s' : run (body c n) s = Done None s' → ∃ k, c = COpenBase k ∧ n = 0%nat.
  Proof.
    assert (∀ {A} (p : prog A) (f : A → cres) s s', run (check_size_and_remap ;; a <- p ;; Ret (Some (f a)))%prog s ≠ Done None s') as Hb.
    { intros A p f s0 s0'. rewrite (run_bind check_size_and_remap). destruct (run check_size_and_remap s0); try done.
      rewrite run_bind. by destruct (run p s1). }
    assert (∀ s s', run (check_size_and_remap ;; @Undef (option cres))%prog s ≠ Done None s') as Hu.
    { intros s0 s0'. rewrite (run_bind check_size_and_remap). by destruct (run check_size_and_remap s0). }
    unfold body. intros H. destruct c as [k|k|o x|o|v]; destruct n as [|[|n]]; cbn [section snd] in H; try (by eauto);
      exfalso; revert H; try apply Hu; try apply Hb.
    - destruct (open_base_prog al k); [apply Hb|apply Hu].
  Qed.

  Lemma step_inv M v ev : CInv M v → let '(M', h) := cstep al F M ev in
    ∃ v', CInv M' v' ∧ ∀ hrest vend, linearizable (cobj lm) (pend (m_t M')) v' hrest vend →
      linearizable (cobj lm) (pend (m_t M)) v (h ++ hrest) vend.
  Proof.
    destruct M as [W T]. intros HI.
    assert (∃ v', CInv (MS W T) v' ∧ ∀ hrest vend, linearizable (cobj lm) (pend T) v' hrest vend →
      linearizable (cobj lm) (pend T) v ([] ++ hrest) vend) as Hstay by (exists v; done).
    destruct ev as [i c|i n|i|i|i mx n]; cbn [cstep].
    - destruct (w_procs W !! i) as [pr|] eqn:Hi; [|done]. destruct (T !! i) as [t|] eqn:Ht; [done|].
      destruct (is_call c) eqn:Hc; [|done]. exists v. split.
      + destruct v as [[objs bo]|]; [|done]. destruct HI as (HT & W0 & tidy & HG & HI).
        split. { apply threads_insert; [done| |done]. by destruct c; simpl; try lia. }
        exists W0, tidy. split; [done|].
        cbn [m_w m_t]. destruct HI as [Hlim Hout Hin Hro Hone Hsame]. split.
        * done.
        * intros j Hj. apply Hout. destruct (decide (j = i)) as [->|Hne]; [by rewrite Ht|]. by rewrite lookup_insert_ne in Hj.
        * intros j c' n p. rewrite lookup_insert_Some. intros [[_ ?]|[_ Hj]]; [done|by apply Hin].
        * intros j c' n p. rewrite lookup_insert_Some. intros [[_ ?]|[_ Hj]]; [done|by eapply Hro].
        * intros j c' n p. rewrite lookup_insert_Some. intros [[_ ?]|[_ Hj]]; [done|]. intros He l Hl.
          destruct (decide (l = i)) as [->|Hne]; [by rewrite lookup_insert|]. rewrite lookup_insert_ne //. by eapply Hone.
        * intros Hall. apply Hsame. intros j c' n p Hj. apply (Hall j c' n p). rewrite lookup_insert_ne //. by intros ->; rewrite Hj in Ht.
      + intros hrest vend Hl. apply lin_call; [unfold pend; by rewrite lookup_fmap Ht|]. unfold pend in *. by rewrite fmap_insert in Hl.
    - destruct (w_procs W !! i) as [pr|] eqn:Hi; [|done]. destruct (T !! i) as [[c m|]|] eqn:Ht; [|done..].
      case_bool_decide as Hn; [|done]. exists v. split; [|done].
      destruct v as [[objs bo]|]; [|done]. destruct HI as (HT & W0 & tidy & HG & HI). split; [done|].
      exists (set_proc W0 i (Proc n (p_max pr) (p_epoch pr + 1))), tidy. cbn [m_w m_t].
      assert (w_procs W0 !! i = Some pr) as Hi0. { rewrite -(ia_out _ _ _ HI) //. by rewrite Ht. }
      split; [apply (set_proc_inv _ _ _ _ _ _ HG); destruct (GInv_proc _ _ _ HG Hi0); by split|].
      apply set_proc_at; [done|by rewrite Ht].
    - destruct (w_procs W !! i) as [pr|] eqn:Hi; [|done]. destruct (T !! i) as [[c n|c n p]|] eqn:Ht; [| |done].
      + destruct (may_enter al F T (section al F c n).1) eqn:He; [|done]. exists v.
        assert (pend (<[i := TInside c n (body c n)]> T) = pend T) as Hpend.
        { unfold pend. rewrite fmap_insert insert_id //. by rewrite lookup_fmap Ht. }
        split; [|cbn [m_t]; rewrite Hpend; done].
        destruct v as [[objs bo]|]; [|done]. destruct HI as (HT & W0 & tidy & HG & HI).
        destruct (HT _ _ Ht) as [Hph Hcall]. cbn [t_call t_n] in Hph, Hcall. split; [by apply threads_insert|].
        exists W0, tidy. split; [done|].
        cbn [m_w m_t]. apply bool_decide_eq_true in He. destruct HI as [Hlim Hout Hin Hro Hone Hsame].
        assert (∀ j c' n' p', T !! j = Some (TInside c' n' p') → excl c n = false ∧ excl c' n' = false) as Hcompat.
        { intros j c' n' p' Hj. apply (He j) in Hj. cbn [compatible] in Hj. apply andb_true_iff in Hj as [H1%negb_true_iff H2%negb_true_iff]. done. }
        assert (w_mem W = w_mem W0 ∧ w_fsize W = w_fsize W0) as [Hm Hf]. { apply Hsame. intros. by eapply Hcompat. }
        split.
        * done.
        * intros j Hj. apply Hout. destruct (decide (j = i)) as [->|Hne]; [by rewrite Ht|]. by rewrite lookup_insert_ne in Hj.
        * intros j c' n' p'. rewrite lookup_insert_Some. intros [[<- [= <- <- <-]]|[_ Hj]]; [|by apply Hin].
          exists pr, pr. split; [done|]. split; [rewrite -Hout //; by rewrite Ht|]. unfold view. by rewrite Hm Hf Hlim.
        * intros j c' n' p'. rewrite lookup_insert_Some. intros [[<- [= <- <- <-]]|[_ Hj]]; [|by eapply Hro]. by apply ro_body.
        * intros j c' n' p'. rewrite lookup_insert_Some. intros [[<- [= <- <- <-]]|[_ Hj]].
          -- intros Hx l Hl. rewrite lookup_insert_ne //. destruct (T !! l) as [[|c2 n2 p2]|] eqn:Hl2; [done| |done].
             destruct (Hcompat _ _ _ _ Hl2). congruence.
          -- intros Hx. destruct (Hcompat _ _ _ _ Hj). congruence.
        * intros _. done.
      + (* a return *)
        assert (∀ r, (∀ objs bo W0 tidy pr0, GInv S (GS W0 objs bo tidy) → w_procs W0 !! i = Some pr0 → phase_ok c n →
            run p (view W pr) = run (body c n) (view W0 pr0) → usable lm objs c →
            sequential W0 objs bo c r (leave W0 i (view W pr))) →
          ∃ v', CInv (MS W (delete i T)) v' ∧ ∀ hrest vend, linearizable (cobj lm) (pend (delete i T)) v' hrest vend →
            linearizable (cobj lm) (pend T) v ([HReturn i r] ++ hrest) vend) as Hret.
        { intros r Hr. destruct v as [[objs bo]|].
          - destruct HI as (HT & W0 & tidy & HG & HI). destruct (ia_in _ _ _ HI _ _ _ _ Ht) as (pr' & pr0 & Hi' & Hi0 & Hrun).
            destruct (HT _ _ Ht) as [Hph Hcall]. cbn [t_call t_n] in Hph, Hcall.
            cbn [m_w m_t] in *. rewrite Hi in Hi'. injection Hi' as <-. destruct (decide (usable lm objs c)) as [Hu|Hu].
            + destruct (Hr _ _ _ _ _ HG Hi0 Hph Hrun Hu) as (objs' & bo' & tidy' & Ho & HG').
              exists (Some (objs', bo')). split.
              * split; [by apply threads_delete|]. eexists _, _. split; [exact HG'|].
                eapply inv_leave; [exact HI|exact Ht|done|done|by rewrite lookup_delete|].
                intros j Hj. by rewrite lookup_delete_ne.
              * intros hrest vend Hl. by eapply lin_effect_return.
            + exists None. split; [done|].
              intros hrest vend Hl. eapply lin_effect_return; [exact Ht|by constructor|done].
          - exists None. split; [done|].
            intros hrest vend Hl. eapply lin_effect_return; [exact Ht|by constructor|done]. }
        destruct p as [[r|]|e| | |e k]; cbn [m_t].
        * apply Hret. intros objs bo W0 tidy pr0 HG Hi0 Hph Hrun Hu.
          pose proof (section_step W0 objs bo tidy i pr0 c n HG Hi0 Hu Hph) as H. fold (body c n) in H.
          unfold run_by in H. rewrite Hi0 -Hrun in H. done.
        * exists v. assert (pend (<[i := TWaiting c (Datatypes.S n)]> T) = pend T) as Hpend.
          { unfold pend. rewrite fmap_insert insert_id //. by rewrite lookup_fmap Ht. }
          split; [|cbn [m_t]; rewrite Hpend; done].
          destruct v as [[objs bo]|]; [|done]. destruct HI as (HT & W0 & tidy & HG & HI).
          destruct (HT _ _ Ht) as [Hph Hcall]. cbn [t_call t_n] in Hph, Hcall.
          destruct (ia_in _ _ _ HI _ _ _ _ Ht) as (pr' & pr0 & Hi' & Hi0 & Hrun).
          cbn [m_w m_t] in *. rewrite Hi in Hi'. injection Hi' as <-. symmetry in Hrun.
          destruct (body_none _ _ _ _ Hrun) as (kd & -> & ->). split; [apply threads_insert; [done|simpl; lia|done]|].
          exists (leave W0 i (view W pr)), tidy. split.
          -- pose proof (section_get_base W0 objs bo tidy i pr0 kd HG Hi0) as H. fold (body (COpenBase kd) 0) in H.
             unfold run_by in H. rewrite Hi0 Hrun in H. apply H.
          -- eapply inv_leave; [exact HI|exact Ht|done|done|by rewrite lookup_insert|].
             intros j Hj. by rewrite lookup_insert_ne.
        * apply Hret. intros objs bo W0 tidy pr0 HG Hi0 Hph Hrun Hu.
          pose proof (section_step W0 objs bo tidy i pr0 c n HG Hi0 Hu Hph) as H. fold (body c n) in H.
          unfold run_by in H. rewrite Hi0 -Hrun in H. done.
        * apply Hret. intros objs bo W0 tidy pr0 HG Hi0 Hph Hrun Hu.
          pose proof (section_step W0 objs bo tidy i pr0 c n HG Hi0 Hu Hph) as H. fold (body c n) in H.
          unfold run_by in H. rewrite Hi0 -Hrun in H. done.
        * apply Hret. intros objs bo W0 tidy pr0 HG Hi0 Hph Hrun Hu.
          pose proof (section_step W0 objs bo tidy i pr0 c n HG Hi0 Hu Hph) as H. fold (body c n) in H.
          unfold run_by in H. rewrite Hi0 -Hrun in H. done.
        * destruct (exec e (view W pr)) as [[x s]|] eqn:Hx.
          2:{ apply Hret. intros objs bo W0 tidy pr0 HG Hi0 Hph Hrun Hu.
              pose proof (section_step W0 objs bo tidy i pr0 c n HG Hi0 Hu Hph) as H. fold (body c n) in H.
              unfold run_by in H. rewrite Hi0 -Hrun in H. cbn [run] in H. by rewrite Hx in H. }
          exists v. assert (pend (<[i := TInside c n (k x)]> T) = pend T) as Hpend.
          { unfold pend. rewrite fmap_insert insert_id //. by rewrite lookup_fmap Ht. }
          split; [|cbn [m_t]; rewrite Hpend; done].
          destruct v as [[objs bo]|]; [|done]. destruct HI as (HT & W0 & tidy & HG & HI).
          destruct (HT _ _ Ht) as [Hph Hcall]. cbn [t_call t_n] in Hph, Hcall. split; [by apply threads_insert|].
          exists W0, tidy. split; [done|]. cbn [m_w m_t] in *.
          pose proof (exec_oslim _ _ _ _ Hx) as Hos. cbn [view oslim] in Hos.
          assert (excl c n = false → mem s = w_mem W ∧ fsize s = w_fsize W) as Hro'.
          { intros Hf. pose proof (ia_ro _ _ _ HI _ _ _ _ Ht Hf) as Hr. inversion Hr; subst. by apply (exec_reads _ _ _ _ H1 Hx). }
          destruct HI as [Hlim Hout Hin Hro Hone Hsame]. split.
          -- done.
          -- intros j Hj. destruct (decide (j = i)) as [->|Hne]; [by rewrite lookup_insert in Hj|].
             rewrite lookup_insert_ne // in Hj. cbn [leave w_procs]. rewrite lookup_insert_ne //. by apply Hout.
          -- intros j c' n' p'. rewrite lookup_insert_Some. intros [[<- [= <- <- <-]]|[Hne Hj]].
             ++ destruct (Hin _ _ _ _ Ht) as (q & q0 & Hq & Hq0 & Hr). rewrite Hi in Hq. injection Hq as <-.
                eexists _, q0. cbn [leave w_procs]. split; [apply lookup_insert|]. split; [done|].
                cbn [run] in Hr. rewrite Hx in Hr. rewrite -Hr. f_equal. unfold view, leave. cbn. rewrite -Hos. by destruct s.
             ++ destruct (Hin _ _ _ _ Hj) as (q & q0 & Hq & Hq0 & Hr). exists q, q0. cbn [leave w_procs].
                rewrite lookup_insert_ne //. split; [done|]. split; [done|]. rewrite -Hr.
                destruct (excl c n) eqn:E.
                { pose proof (Hone _ _ _ _ Ht E j (not_eq_sym Hne)) as Hw. by rewrite Hj in Hw. }
                destruct (Hro' eq_refl) as [H1 H2]. unfold view, leave. cbn. by rewrite H1 H2.
          -- intros j c' n' p'. rewrite lookup_insert_Some. intros [[<- [= <- <- <-]]|[Hne Hj]]; [|by eapply Hro].
             intros Hf. pose proof (Hro _ _ _ _ Ht Hf) as Hr. by inversion Hr.
          -- intros j c' n' p'. rewrite lookup_insert_Some. intros [[<- [= <- <- <-]]|[Hne Hj]].
             ++ intros Hx' l Hl. rewrite lookup_insert_ne //. by eapply Hone.
             ++ intros Hx'. pose proof (Hone _ _ _ _ Hj Hx' i Hne) as Hw. by rewrite Ht in Hw.
          -- intros Hall. destruct (Hro' (Hall i _ _ _ (lookup_insert _ _ _))) as [H1 H2]. cbn [leave w_mem w_fsize].
             rewrite H1 H2. apply Hsame. intros j c' n' p' Hj. destruct (decide (j = i)) as [->|Hne].
             ++ rewrite Ht in Hj. injection Hj as <- <- <-. apply (Hall i c n (k x)). by rewrite lookup_insert.
             ++ apply (Hall j c' n' p'). by rewrite lookup_insert_ne.
    - assert (waits (T !! i) → ∃ v', CInv (MS (del_proc W i) (delete i T)) v' ∧
        ∀ hrest vend, linearizable (cobj lm) (pend (m_t (MS (del_proc W i) (delete i T)))) v' hrest vend →
        linearizable (cobj lm) (pend (m_t (MS W T))) v ([HDie i] ++ hrest) vend) as Hd.
      { intros Hw. exists v. split.
        - destruct v as [[objs bo]|]; [|done]. destruct HI as (HT & W0 & tidy & HG & HI). split; [by apply threads_delete|].
          exists (del_proc W0 i), tidy. split; [by apply del_proc_inv|]. by apply del_proc_at.
        - intros hrest vend Hl. cbn [m_t] in *. apply lin_die. unfold pend in *. by rewrite fmap_delete in Hl. }
      destruct (T !! i) as [[c n|c n p]|] eqn:Ht; [by apply Hd|done|by apply Hd].
    - destruct (w_procs W !! i) as [pr|] eqn:Hi; [done|]. case_bool_decide as Hn; [|done]. exists v. split; [|done].
      destruct v as [[objs bo]|]; [|done]. destruct HI as (HT & W0 & tidy & HG & HI). split; [done|].
      exists (set_proc W0 i (Proc n mx 0)), tidy. split; [apply set_proc_inv; [done|destruct Hn as [Hn1 Hn2]; split; simpl; [exact Hn2|exact Hn1]]|].
      cbn [m_w m_t] in *. apply set_proc_at; [done|]. destruct (T !! i) as [[|c m p]|] eqn:Ht; [done| |done].
      destruct (ia_in _ _ _ HI _ _ _ _ Ht) as (q & _ & Hq & _). cbn [m_w] in Hq. congruence.
  Qed.

  Theorem crun_linearizable evs M v : CInv M v →
    ∃ v', linearizable (cobj lm) (pend (m_t M)) v (snd (crun al F M evs)) v'.
  Proof.
    revert M v. induction evs as [|ev evs IH]; intros M v HI; [exists v; constructor|].
    cbn [crun]. pose proof (step_inv M v ev HI) as Hs. destruct (cstep al F M ev) as [M1 h1].
    destruct Hs as (v1 & HI1 & Hl). destruct (IH _ _ HI1) as [v2 H2]. exists v2.
    destruct (crun al F M1 evs) as [M2 h2]. by apply Hl.
  Qed.
  Corollary start_linearizable evs W : GInv S (GS W ∅ 0 true) →
    ∃ v, linearizable (cobj lm) ∅ (Some (∅, 0)) (snd (crun al F (MS W ∅) evs)) v.
  Proof.
    intros HG. destruct (crun_linearizable evs (MS W ∅) (Some (∅, 0))) as [v Hv].
    - split; [intros i t Ht; by rewrite lookup_empty in Ht|]. exists W, true. split; [done|]. cbn [m_t m_w].
      split; try done; intros i c n p Ht; by rewrite lookup_empty in Ht.
    - exists v. unfold pend in Hv. cbn [m_t] in Hv. by rewrite fmap_empty in Hv.
  Qed.
End conc.
