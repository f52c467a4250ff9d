(** * Properties of AtomicVector (C40, C41, C42). *)
From Verif Require Import AtomicVectorProof PoolLaws.
From iris.prelude Require Import prelude options.
From Coq Require Import ZArith Lia.
Open Scope Z_scope.

(** ** C40: concurrent operations on elements are atomic.

    Any number of processes, any interleaving of their memory accesses, processes
    dying and opening the pool at any time: no access outside the mapping or the
    file happens, and the results are those of the same operations executed one at
    a time, each at some point between its call and its return, on a list of
    numbers. *)
Theorem C40_elements_linearizable n F W v h st :
  (0 < n)%nat -> (0 < F)%nat -> holds_vector n W v -> processes_ok W ->
  asteps n F (no_expand n) (AState W ∅) h st ->
  ~ goes_wrong st /\
  exists v', linearizable (vobj n) ∅ v h v' /\ holds_vector n (a_w st) v'.
Proof.
  intros Hn HF Hv Hp Hst.
  destruct (AInv_steps n Hn F HF Static _ _ _ _ _ (AInv_init n Hn F HF Static W v Hv Hp) Hst)
    as (v' & P' & HI & Hl).
  split; [exact (AInv_fine n Hn F HF Static _ _ _ HI)|]. exists v'. split; [done|].
  exact (AInv_holds n Hn F HF Static _ _ _ HI).
Qed.

(** ** C42: expanding while others work.

    The same with expand, provided the clients do not expand at the same time and
    use elements only after the expansion that creates them. What is missing is
    everything else: concurrent calls of expand, and using an element while it is
    being created (see the refutations below). *)
Theorem C42_expand_partial n F W v h st :
  (0 < n)%nat -> (0 < F)%nat -> holds_vector n W v -> processes_ok W ->
  asteps n F (serial_expand n) (AState W ∅) h st ->
  ~ goes_wrong st /\
  exists v', linearizable (vobj n) ∅ v h v' /\ holds_vector n (a_w st) v'.
Proof.
  intros Hn HF Hv Hp Hst.
  destruct (AInv_steps n Hn F HF Dyn _ _ _ _ _ (AInv_init n Hn F HF Dyn W v Hv Hp) Hst)
    as (v' & P' & HI & Hl).
  split; [exact (AInv_fine n Hn F HF Dyn _ _ _ HI)|]. exists v'. split; [done|].
  exact (AInv_holds n Hn F HF Dyn _ _ _ HI).
Qed.

(** expand_bits(b) is expand(c) for the least c whose elements have b bits. *)
Theorem C42_expand_bits n F b :
  (0 < n)%nat -> 0 <= b -> b + bits n < 2 ^ 64 ->
  exists c, av_expand_bits n F b = av_expand n F c /\ b <= c * bits n < b + bits n.
Proof.
  intros Hn Hb Hb64. eexists. split; [reflexivity|].
  assert (0 < bits n) by (unfold bits; lia).
  rewrite (u64_small (b + (bits n - 1))); [|lia].
  pose proof (Z.div_mod (b + (bits n - 1)) (bits n)).
  pose proof (Z.mod_pos_bound (b + (bits n - 1)) (bits n)). lia.
Qed.
Lemma C42_expand_bits_case : exists c, av_expand_bits 8 5 100 = av_expand 8 5 c /\
  100 <= c * bits 8 < 100 + bits 8.
Proof. apply C42_expand_bits; [lia|lia|]. unfold bits. lia. Qed.

(** A new pool is an empty vector. *)
Theorem C40_new_pool_is_empty_vector n mx lim s W :
  run pool_create (no_pool mx lim) = Done tt s ->
  W = World (mem s) (fsize s) lim {[ 0%nat := Proc (mapped s) (maxsz s) (epoch s) ]} ->
  holds_vector n W [] /\ processes_ok W.
Proof.
  intros Hr ->. unfold pool_create in Hr. rewrite run_bind in Hr.
  unfold ftruncate, no_pool in Hr. cbn [run exec oslim] in Hr.
  destruct (bool_decide (PAGE <= lim)) eqn:E.
  2:{ rewrite (bool_decide_eq_true_2 (1 <> 0)) in Hr; done. }
  rewrite (bool_decide_eq_false_2 (0 <> 0)) in Hr; [|lia].
  rewrite run_bind in Hr. unfold remap, store64, store in Hr.
  cbn [run exec mapped fsize mem epoch maxsz oslim] in Hr.
  rewrite (bool_decide_eq_false_2 (PAGE < 0)) in Hr; [|unfold PAGE; lia].
  change (valid (mk_pst ∅ PAGE PAGE (0 + 1) mx lim) 0 8) with true in Hr. cbn iota beta in Hr.
  cbn [run set_mem mem fsize mapped epoch maxsz oslim] in Hr. injection Hr as <-.
  cbn [mem fsize mapped epoch maxsz]. set (m := write_bytes ∅ 0 (le_bytes 8 PAGE)).
  assert (Hz : forall a, 8 <= a -> m !! a = None).
  { intros a Ha. unfold m. rewrite write_bytes_get. rewrite bool_decide_eq_false_2; [done|].
    rewrite le_bytes_length. lia. }
  split.
  - split; [|split; [|split; [|split; [|split]]]].
    + vm_compute. split; discriminate.
    + unfold elem. vm_compute. discriminate.
    + rewrite w_word_rdm. apply rdm_zero. intros x Hx. simpl. rewrite Hz; [done|lia].
    + done.
    + intros a Ha. unfold w_read. cbn. unfold bget. simpl. rewrite Hz; [done|]. unfold elem in Ha. simpl in Ha. lia.
    + intros a b Hb. change (m !! a = Some b) in Hb. unfold m in Hb. rewrite write_bytes_get in Hb.
      case_bool_decide; [|done]. eapply Forall_lookup_1; [|done]. apply le_bytes_ok.
  - intros i pr. cbn [w_procs]. intros Hi. apply lookup_singleton_Some in Hi as [_ <-]. vm_compute. discriminate.
Qed.

(** ** C41: bits *)
Lemma calls_may n F (may : astate -> nat -> acall -> Prop) (K : acall -> Prop) st h st' :
  (forall st i c, may st i c -> K c) -> asteps n F may st h st' -> calls_are K h.
Proof.
  intros HK. induction 1 as [|st h st1 h' st2 H1 H2 IH]; [constructor|].
  apply Forall_app. split; [|done]. destruct H1; repeat constructor. eauto.
Qed.

Lemma linearizable_map {V V'} (obj : V -> acall -> ares -> V -> Prop)
    (obj' : V' -> acall -> ares -> V' -> Prop) (I : V -> Prop) (f : V -> V') (K : acall -> Prop)
    P v h v' :
  (forall v c r v1, I v -> K c -> obj v c r v1 -> I v1 /\ obj' (f v) c r (f v1)) ->
  linearizable obj P v h v' -> I v -> calls_are K h ->
  (forall i c, P !! i = Some (PCalled c) -> K c) ->
  linearizable obj' P (f v) h (f v').
Proof.
  intros Hobj. induction 1 as [P v|P v i c h v' Hi H IH|P v i c r v1 h v' Hi Ho H IH|
    P v i r h v' Hi H IH|P v i h v' H IH]; intros HI Hc HP.
  - constructor.
  - apply lin_call; [done|]. inversion Hc; subst. apply IH; [done|done|].
    intros j c' Hj. destruct (decide (j = i)) as [->|Hne].
    + rewrite lookup_insert in Hj. by injection Hj as <-.
    + rewrite lookup_insert_ne in Hj; [|done]. eauto.
  - destruct (Hobj v c r v1 HI) as [HI1 Ho']; [eauto|done|].
    eapply lin_effect; [done|done|]. apply IH; [done|done|].
    intros j c' Hj. destruct (decide (j = i)) as [->|Hne].
    + by rewrite lookup_insert in Hj.
    + rewrite lookup_insert_ne in Hj; [|done]. eauto.
  - apply lin_return; [done|]. inversion Hc; subst. apply IH; [done|done|].
    intros j c' Hj. apply lookup_delete_Some in Hj as [_ Hj]. eauto.
  - apply lin_die. inversion Hc; subst. apply IH; [done|done|].
    intros j c' Hj. apply lookup_delete_Some in Hj as [_ Hj]. eauto.
Qed.

Lemma bits_of_lookup n v b :
  bits_of n v !! b = if bool_decide (b < 8 * n * length v)%nat then Some (vbit n v (Z.of_nat b)) else None.
Proof.
  unfold bits_of. rewrite list_lookup_fmap. case_bool_decide as H.
  - by rewrite lookup_seq_lt.
  - rewrite lookup_seq_ge; [done|lia].
Qed.

Lemma bits_of_upd n v v' b x :
  0 <= b -> length v' = length v -> 
  (forall b', 0 <= b' -> vbit n v' b' = if decide (b' = b) then x else vbit n v b') ->
  bits_of n v' = <[Z.to_nat b := x]> (bits_of n v).
Proof.
  intros Hb Hl H. apply list_eq. intros j. destruct (decide (j = Z.to_nat b)) as [->|Hne].
  - destruct (decide (Z.to_nat b < 8 * n * length v)%nat) as [Hlt|Hge].
    + rewrite list_lookup_insert; [|unfold bits_of; by rewrite map_length seq_length].
      rewrite bits_of_lookup Hl bool_decide_eq_true_2; [|done].
      rewrite H; [|lia]. by rewrite decide_True; [|lia].
    + rewrite !lookup_ge_None_2; [done| |]; rewrite ?insert_length; unfold bits_of;
        rewrite map_length seq_length; lia.
  - rewrite list_lookup_insert_ne; [|done]. rewrite !bits_of_lookup Hl.
    case_bool_decide; [|done]. rewrite H; [|lia]. by rewrite decide_False; [|lia].
Qed.

Lemma bit_object n v c r v' : (0 < n)%nat ->
  is_bit_call c /\ args_ok n c -> vobj n v c r v' ->
  bit_array (bits_of n v) c r (bits_of n v').
Proof.
  intros Hn [Hc Ha] Ho.
  assert (Hrange : forall b, 0 <= b ->
    (b / bits n < Z.of_nat (length v) <-> (Z.to_nat b < 8 * n * length v)%nat)).
  { intros b Hb. unfold bits.
    assert (Hp : 0 < 8 * Z.of_nat n) by lia.
    pose proof (Z.div_mod b (8 * Z.of_nat n)). pose proof (Z.mod_pos_bound b (8 * Z.of_nat n)).
    split; intros Hx.
    - assert (b < 8 * Z.of_nat n * Z.of_nat (length v)) by nia. nia.
    - apply Z.div_lt_upper_bound; [lia|]. nia. }
  destruct c as [|i|i y|i y|i e d|i d|i d|i k|i k|i k|b|b x|b|cnt]; try done; simpl in Ha;
    unfold vobj in Ho; unfold bit_array; rewrite bits_of_lookup;
    destruct (bool_decide_reflect (b / bits n < Z.of_nat (length v))) as [Hlt|Hge];
    pose proof (Hrange b (proj1 Ha)) as Hr.
  all: first [rewrite bool_decide_eq_true_2; [|tauto]; destruct Ho as (-> & Hl & _ & Hv)
             | rewrite bool_decide_eq_false_2; [|tauto]; destruct Ho as (-> & ->); done].
  all: rewrite Z2Nat.id; [|lia]; split; [done|]; apply bits_of_upd; [lia|done|];
    intros b' Hb'; rewrite (Hv b' Hb'); destruct (decide (b' = b)) as [->|]; done.
Qed.

(** Histories of bit operations are linearizable with respect to an array of bits:
    each operation reads or changes exactly the bit it names. *)
Theorem C41_bits_linearizable n F W v h st :
  (0 < n)%nat -> (0 < F)%nat -> holds_vector n W v -> processes_ok W ->
  asteps n F (no_expand n) (AState W ∅) h st -> calls_are is_bit_call h ->
  ~ goes_wrong st /\
  exists v', linearizable bit_array ∅ (bits_of n v) h (bits_of n v') /\
    holds_vector n (a_w st) v'.
Proof.
  intros Hn HF Hv Hp Hst Hc.
  destruct (C40_elements_linearizable n F W v h st Hn HF Hv Hp Hst) as (Hw & v' & Hl & Hv').
  split; [done|]. exists v'. split; [|done].
  apply (linearizable_map (vobj n) bit_array (fun _ => True) (bits_of n)
    (fun c => is_bit_call c /\ args_ok n c)) with (P := ∅) (1 := fun v c r v1 _ Hk Ho => conj I (bit_object n v c r v1 Hn Hk Ho)); [done|done| |].
  - assert (calls_are (args_ok n) h) as Ha.
    { eapply calls_may; [|exact Hst]. by intros ? ? ? []. }
    unfold calls_are in *. rewrite Forall_forall. rewrite !Forall_forall in Hc Ha.
    intros e He. specialize (Hc e He). specialize (Ha e He). by destruct e.
  - intros i c. by rewrite lookup_empty.
Qed.

(** ** Concrete executions *)
Inductive sstep := SCall (i : nat) (c : acall) | SAct (i k : nat) | SEnd (i : nat) | SDie (i : nat)
  | SOpen (i : nat).

(** [k] actions of process [i]. *)
Fixpoint acts (i k : nat) (st : astate) : option astate :=
  match k with
  | O => Some st
  | S k' =>
      match w_procs (a_w st) !! i, a_run st !! i with
      | Some pr, Some (c, AOp e q) =>
          match aexec e (view (a_w st) pr) with
          | Some (r, s) => acts i k' (AState (leave (a_w st) i s) (<[i := (c, q r)]> (a_run st)))
          | None => None
          end
      | _, _ => None
      end
  end.

Definition sexec (n F : nat) (chk : astate -> nat -> acall -> bool) (x : sstep) (st : astate) :
    option (list (hevent acall ares) * astate) :=
  match x with
  | SCall i c =>
      match w_procs (a_w st) !! i, a_run st !! i with
      | Some _, None =>
          if chk st i c then
            Some ([HCall i c], AState (a_w st) (<[i := (c, call_prog n F c)]> (a_run st)))
          else None
      | _, _ => None
      end
  | SAct i k => match acts i k st with Some st' => Some ([], st') | None => None end
  | SEnd i =>
      match a_run st !! i with
      | Some (_, ARet r) => Some ([HReturn i r], AState (a_w st) (delete i (a_run st)))
      | Some (_, AThrow e) => Some ([HReturn i (RExn e)], AState (a_w st) (delete i (a_run st)))
      | _ => None
      end
  | SDie i => Some ([HDie i], AState (World (w_mem (a_w st)) (w_fsize (a_w st)) (w_lim (a_w st))
                     (delete i (w_procs (a_w st)))) (delete i (a_run st)))
  | SOpen i =>
      match w_procs (a_w st) !! i, open_by (a_w st) i 0 with
      | None, WDone tt W => Some ([], AState W (a_run st))
      | _, _ => None
      end
  end.
Fixpoint sexecs (n F : nat) chk (xs : list sstep) (st : astate) :
    option (list (hevent acall ares) * astate) :=
  match xs with
  | [] => Some ([], st)
  | x :: xs' =>
      match sexec n F chk x st with
      | Some (h, st1) =>
          match sexecs n F chk xs' st1 with
          | Some (h', st2) => Some (h ++ h', st2)
          | None => None
          end
      | None => None
      end
  end.

Lemma acts_ok n F may i k st st' : acts i k st = Some st' -> asteps n F may st [] st'.
Proof.
  revert st. induction k as [|k IH]; intros st; simpl.
  - intros [= <-]. constructor.
  - destruct (w_procs (a_w st) !! i) as [pr|] eqn:E1; [|done].
    destruct (a_run st !! i) as [[c [| | | |e q]]|] eqn:E2; try done.
    destruct (aexec e (view (a_w st) pr)) as [[r s]|] eqn:E3; [|done].
    intros H. change (@nil (hevent acall ares)) with (@nil (hevent acall ares) ++ []).
    eapply asteps_cons; [by eapply A_act|]. by apply IH.
Qed.
Lemma asteps_app n F may st h st1 h' st2 :
  asteps n F may st h st1 -> asteps n F may st1 h' st2 -> asteps n F may st (h ++ h') st2.
Proof.
  induction 1 as [|st h st1 h1 st3 H1 H2 IH]; intros H; [done|].
  rewrite <- app_assoc. econstructor; eauto.
Qed.
Lemma asteps_one n F may st h st1 : astep n F may st h st1 -> asteps n F may st h st1.
Proof. intros H. rewrite <- (app_nil_r h). econstructor; [done|constructor]. Qed.
Lemma sexecs_ok n F (may : astate -> nat -> acall -> Prop) chk xs st h st' :
  (forall st i c, chk st i c = true -> may st i c) ->
  sexecs n F chk xs st = Some (h, st') -> asteps n F may st h st'.
Proof.
  intros Hchk. revert st h. induction xs as [|x xs IH]; intros st h; simpl.
  - intros [= <- <-]. constructor.
  - destruct (sexec n F chk x st) as [[h1 st1]|] eqn:E; [|done].
    destruct (sexecs n F chk xs st1) as [[h2 st2]|] eqn:E2; [|done].
    intros [= <- <-]. apply asteps_app with st1; [|by apply IH].
    destruct x as [i c|i k|i|i|i]; simpl in E.
    + destruct (w_procs (a_w st) !! i) eqn:E1; [|done].
      destruct (a_run st !! i) eqn:E3; [done|]. destruct (chk st i c) eqn:E4; [|done].
      injection E as <- <-. apply asteps_one. eapply A_call; eauto.
    + destruct (acts i k st) eqn:E1; [|done]. injection E as <- <-. by eapply acts_ok.
    + destruct (a_run st !! i) as [[c [r|e| | |]]|] eqn:E1; try done; injection E as <- <-;
        apply asteps_one; by econstructor.
    + injection E as <- <-. apply asteps_one. constructor.
    + destruct (w_procs (a_w st) !! i) eqn:E1; [done|].
      destruct (open_by (a_w st) i 0) as [[] W| | |] eqn:E3; try done. injection E as <- <-.
      apply asteps_one. by eapply A_open.
Qed.

#[global] Instance args_ok_dec n c : Decision (args_ok n c).
Proof. destruct c; simpl; apply _. Defined.
Definition chk_args (n : nat) (st : astate) (i : nat) (c : acall) : bool := bool_decide (args_ok n c).
Definition chk_no_expand (n : nat) (st : astate) (i : nat) (c : acall) : bool :=
  bool_decide (args_ok n c /\ ~ is_expand c).
Definition chk_serial (n : nat) (st : astate) (i : nat) (c : acall) : bool :=
  bool_decide (args_ok n c) &&
  (negb (bool_decide (is_expand c)) ||
   forallb (fun x => negb (bool_decide (is_expand x.2.1))) (map_to_list (a_run st))) &&
  match call_index n c with Some j => bool_decide (j < w_word (a_w st) 8) | None => true end.
Lemma chk_no_expand_ok n st i c : chk_no_expand n st i c = true -> no_expand n st i c.
Proof. intros H. by apply bool_decide_eq_true in H. Qed.
Lemma chk_serial_ok n st i c : chk_serial n st i c = true -> serial_expand n st i c.
Proof.
  unfold chk_serial. intros H. apply andb_true_iff in H as [H H3].
  apply andb_true_iff in H as [H1 H2]. apply bool_decide_eq_true in H1.
  split; [done|]. split.
  - intros Hx j c' p Hj Hx'. apply orb_true_iff in H2 as [H2|H2].
    + rewrite bool_decide_eq_true_2 in H2; done.
    + rewrite forallb_forall in H2. specialize (H2 (j, (c', p))). simpl in H2.
      rewrite bool_decide_eq_true_2 in H2; [|done].
      assert (In (j, (c', p)) (map_to_list (a_run st))) as Hin.
      { apply elem_of_list_In, elem_of_map_to_list. done. }
      specialize (H2 Hin). done.
  - intros j Hj. rewrite Hj in H3. by apply bool_decide_eq_true in H3.
Qed.

Definition vec_lim : Z := 2 ^ 40.
Definition vec_s : pst :=
  match run pool_create (no_pool 0 vec_lim) with Done _ s => s | _ => no_pool 0 0 end.
Definition vec_W : world :=
  World (mem vec_s) (fsize vec_s) vec_lim {[ 0%nat := Proc (mapped vec_s) (maxsz vec_s) (epoch vec_s) ]}.
Lemma vec_W_ok n : holds_vector n vec_W [] /\ processes_ok vec_W.
Proof.
  eapply (C40_new_pool_is_empty_vector n 0 vec_lim vec_s); [|reflexivity].
  vm_compute. reflexivity.
Qed.
Definition outcome_of n F chk xs st := 
  match sexecs n F chk xs st with Some x => x | None => ([], st) end.
Lemma outcome_of_ok n F (may : astate -> nat -> acall -> Prop) chk xs st :
  (forall st i c, chk st i c = true -> may st i c) ->
  asteps n F may st (fst (outcome_of n F chk xs st)) (snd (outcome_of n F chk xs st)).
Proof.
  intros H. unfold outcome_of. destruct (sexecs n F chk xs st) as [[h st']|] eqn:E.
  - by eapply sexecs_ok.
  - constructor.
Qed.

(** Process 0 expands the new vector to 3 elements, process 1 opens the pool;
    process 0 expands again (to a second page) while process 1 adds to element 2. *)
Definition case_script : list sstep :=
  [SCall 0 (CExpand 3); SAct 0 6; SEnd 0; SOpen 1;
   SCall 0 (CExpand 600); SAct 0 4; SCall 1 (CAdd 2 5); SAct 1 3; SAct 0 4; SAct 1 1; SAct 0 3;
   SEnd 1; SEnd 0; SCall 1 (CLoad 599); SAct 1 5; SEnd 1; SCall 0 (CLoad 2); SAct 0 4; SEnd 0].
Lemma C42_case :
  holds_vector 8 vec_W [] /\ processes_ok vec_W /\
  exists h st, asteps 8 5 (serial_expand 8) (AState vec_W ∅) h st /\
    h = [HCall 0 (CExpand 3); HReturn 0 RVoid; HCall 0 (CExpand 600); HCall 1 (CAdd 2 5);
         HReturn 1 (RVal 0); HReturn 0 RVoid; HCall 1 (CLoad 599); HReturn 1 (RVal 0);
         HCall 0 (CLoad 2); HReturn 0 (RVal 5)].
Proof.
  split; [apply vec_W_ok|]. split; [apply (vec_W_ok 8)|].
  eexists _, _. split.
  - apply (outcome_of_ok 8 5 (serial_expand 8) (chk_serial 8) case_script). apply chk_serial_ok.
  - vm_compute. reflexivity.
Qed.

(** The same without expansions: the vector left by the steps above up to the first
    expansion; processes 0 and 1 work on the same element, process 1 also reads
    beyond the end. *)
Definition three : astate :=
  snd (outcome_of 8 5 (chk_serial 8) [SCall 0 (CExpand 3); SAct 0 6; SEnd 0; SOpen 1] (AState vec_W ∅)).
Lemma three_ok : exists v, length v = 3%nat /\ holds_vector 8 (a_w three) v /\ processes_ok (a_w three).
Proof.
  pose proof (outcome_of_ok 8 5 (serial_expand 8) (chk_serial 8)
    [SCall 0 (CExpand 3); SAct 0 6; SEnd 0; SOpen 1] (AState vec_W ∅) (chk_serial_ok 8)) as H.
  destruct (vec_W_ok 8) as [H1 H2].
  assert (Hn : (0 < 8)%nat) by lia. assert (HF : (0 < 5)%nat) by lia.
  destruct (AInv_steps 8 Hn 5 HF Dyn _ _ _ _ _ (AInv_init 8 Hn 5 HF Dyn vec_W [] H1 H2) H)
    as (v' & P' & HI & Hl).
  exists v'. destruct HI as [HS Hp _ _ _]. fold three in HS, Hp.
  split; [|split; [by apply holds_SI|exact Hp]].
  pose proof (si_count _ _ _ _ _ HS) as E.
  assert (rdm (w_mem (a_w three)) 8 8 = 3) as E3 by (vm_compute; reflexivity).
  rewrite E3 in E. lia.
Qed.
Definition case_script2 : list sstep :=
  [SCall 0 (CAdd 2 7); SAct 0 2; SCall 1 (CXor 2 12); SAct 1 4; SEnd 1; SAct 0 2; SEnd 0;
   SCall 1 (CStoreBit 190 true); SAct 1 2; SDie 0; SAct 1 2; SEnd 1;
   SCall 1 (CLoad 3); SAct 1 3; SEnd 1; SCall 1 (CLoad 2); SAct 1 4; SEnd 1].
Lemma three_run : a_run three = ∅.
Proof. apply map_to_list_empty_iff. vm_compute. reflexivity. Qed.
Lemma three_empty : three = AState (a_w three) ∅.
Proof. generalize three three_run. intros [W R]. simpl. by intros ->. Qed.
Lemma C40_case :
  exists v h st, length v = 3%nat /\ holds_vector 8 (a_w three) v /\ processes_ok (a_w three) /\
    asteps 8 5 (no_expand 8) (AState (a_w three) ∅) h st /\
    h = [HCall 0 (CAdd 2 7); HCall 1 (CXor 2 12); HReturn 1 (RVal 0); HReturn 0 (RVal 12);
         HCall 1 (CStoreBit 190 true); HDie 0; HReturn 1 (RFlag true);
         HCall 1 (CLoad 3); HReturn 1 (RExn OutOfRange); HCall 1 (CLoad 2); HReturn 1 (RVal 19)].
Proof.
  destruct three_ok as (v & H1 & H2 & H3). exists v. eexists _, _.
  split; [exact H1|]. split; [exact H2|]. split; [exact H3|]. clear H1 H2 H3. split; [rewrite <- three_empty|].
  - apply (outcome_of_ok 8 5 (no_expand 8) (chk_no_expand 8) case_script2). apply chk_no_expand_ok.
  - vm_compute. reflexivity.
Qed.
Definition case_script3 : list sstep :=
  [SCall 0 (CStoreBit 190 true); SAct 0 2; SCall 1 (CXorBit 190); SAct 1 4; SEnd 1; SAct 0 2; SEnd 0;
   SCall 1 (CXorBit 191); SAct 1 4; SEnd 1; SCall 0 (CLoadBit 190); SAct 0 4; SEnd 0].
Lemma C41_case :
  exists h st, asteps 8 5 (no_expand 8) (AState (a_w three) ∅) h st /\ calls_are is_bit_call h /\
    h = [HCall 0 (CStoreBit 190 true); HCall 1 (CXorBit 190); HReturn 1 (RFlag true);
         HReturn 0 (RFlag true); HCall 1 (CXorBit 191); HReturn 1 (RFlag true);
         HCall 0 (CLoadBit 190); HReturn 0 (RFlag true)].
Proof.
  rewrite <- three_empty.
  assert (fst (outcome_of 8 5 (chk_no_expand 8) case_script3 three) =
    [HCall 0 (CStoreBit 190 true); HCall 1 (CXorBit 190); HReturn 1 (RFlag true);
         HReturn 0 (RFlag true); HCall 1 (CXorBit 191); HReturn 1 (RFlag true);
         HCall 0 (CLoadBit 190); HReturn 0 (RFlag true)]) as E by (vm_compute; reflexivity).
  exists (fst (outcome_of 8 5 (chk_no_expand 8) case_script3 three)),
    (snd (outcome_of 8 5 (chk_no_expand 8) case_script3 three)).
  split; [|split].
  - apply (outcome_of_ok 8 5 (no_expand 8) (chk_no_expand 8) case_script3). apply chk_no_expand_ok.
  - rewrite E. repeat constructor.
  - exact E.
Qed.

(** README.md (206, 227): xor_bit flips a bit "and return[s] the old value". It
    returns the new one. *)
Theorem C41_xor_bit_returns_old_refuted :
  exists W v h st, holds_vector 8 W v /\ processes_ok W /\
    asteps 8 5 (no_expand 8) (AState W ∅) h st /\
    h = [HCall 0 (CLoadBit 7); HReturn 0 (RFlag false); HCall 0 (CXorBit 7); HReturn 0 (RFlag true)].
Proof.
  destruct three_ok as (v & _ & H2 & H3). exists (a_w three), v. eexists _, _.
  split; [exact H2|]. split; [exact H3|]. clear H2 H3. split; [rewrite <- three_empty|].
  - apply (outcome_of_ok 8 5 (no_expand 8) (chk_no_expand 8)
      [SCall 0 (CLoadBit 7); SAct 0 4; SEnd 0; SCall 0 (CXorBit 7); SAct 0 4; SEnd 0]).
    apply chk_no_expand_ok.
  - vm_compute. reflexivity.
Qed.

(** *** C42 is false in general. *)
Definition wrongb (st : astate) (i : nat) : bool :=
  match w_procs (a_w st) !! i, a_run st !! i with
  | Some pr, Some (c, AOp e k) =>
      match aexec e (view (a_w st) pr) with None => true | _ => false end
  | _, _ => false
  end.
Lemma wrongb_ok st i : wrongb st i = true -> goes_wrong st.
Proof.
  unfold wrongb. destruct (w_procs (a_w st) !! i) as [pr|] eqn:E1; [|done].
  destruct (a_run st !! i) as [[c [| | | |e k]]|] eqn:E2; try done.
  destruct (aexec e (view (a_w st) pr)) eqn:E3; [done|]. intros _.
  exists i, pr, c. split; [done|]. right. right. by exists e, k.
Qed.
Definition any_call (n : nat) (st : astate) (i : nat) (c : acall) : Prop := args_ok n c.
Lemma chk_args_ok n st i c : chk_args n st i c = true -> any_call n st i c.
Proof. intros H. by apply bool_decide_eq_true in H. Qed.

(** Two processes call expand at the same time. Both calls return, size() is 2000,
    but the file has been cut to two pages: reading element 1500, which process 1 has
    stored before, is an access outside the file. *)
Definition race_script : list sstep :=
  [SOpen 1; SCall 0 (CExpand 600); SAct 0 5; SCall 1 (CExpand 2000); SAct 1 11; SEnd 1;
   SCall 1 (CStore 1500 77); SAct 1 4; SEnd 1;
   SAct 0 6; SEnd 0; SCall 1 (CLoad 1500); SAct 1 4].
Theorem C42_concurrent_expand_refuted :
  exists W h st, holds_vector 8 W [] /\ processes_ok W /\
    asteps 8 5 (any_call 8) (AState W ∅) h st /\
    h = [HCall 0 (CExpand 600); HCall 1 (CExpand 2000); HReturn 1 RVoid;
         HCall 1 (CStore 1500 77); HReturn 1 RVoid; HReturn 0 RVoid; HCall 1 (CLoad 1500)] /\
    w_word (a_w st) 8 = 2000 /\ w_fsize (a_w st) = 8192 /\ goes_wrong st.
Proof.
  destruct (vec_W_ok 8) as [H1 H2].
  exists vec_W. eexists _, _. split; [exact H1|]. split; [exact H2|]. clear H1 H2. split.
  { apply (outcome_of_ok 8 5 (any_call 8) (chk_args 8) race_script). apply chk_args_ok. }
  split; [vm_compute; reflexivity|]. split; [vm_compute; reflexivity|].
  split; [vm_compute; reflexivity|]. apply (wrongb_ok _ 1). vm_compute. reflexivity.
Qed.

(** One process expands while another one uses the element being created: the
    second one accesses the pool beyond its mapping. *)
Definition stale_script : list sstep :=
  [SOpen 1; SCall 1 (CLoad 599); SAct 1 2; SCall 0 (CExpand 600); SAct 0 11; SEnd 0; SAct 1 1].
Theorem C42_expand_during_load_refuted :
  exists W h st, holds_vector 8 W [] /\ processes_ok W /\
    asteps 8 5 (any_call 8) (AState W ∅) h st /\
    h = [HCall 1 (CLoad 599); HCall 0 (CExpand 600); HReturn 0 RVoid] /\
    w_word (a_w st) 8 = 600 /\ goes_wrong st.
Proof.
  destruct (vec_W_ok 8) as [H1 H2].
  exists vec_W. eexists _, _. split; [exact H1|]. split; [exact H2|]. clear H1 H2. split.
  { apply (outcome_of_ok 8 5 (any_call 8) (chk_args 8) stale_script). apply chk_args_ok. }
  split; [vm_compute; reflexivity|]. split; [vm_compute; reflexivity|].
  apply (wrongb_ok _ 1). vm_compute. reflexivity.
Qed.
