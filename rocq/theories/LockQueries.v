(** * is_locked() and reader_count() (C59). *)
From Verif Require Export ProcessLockModel ProcessLockProof.
From iris.prelude Require Import prelude options.
From Coq Require Import ZArith Lia.
Open Scope Z_scope.
Open Scope lprog_scope.

(** ProcessReadWriteLock::is_locked (ProcessLock.cc:26-37), the loop over the reader slots;
    ProcessLock::is_locked (ProcessLock.cc:22-24) is [is_locked true]. *)
Fixpoint any_reader (n x : nat) : lprog bool :=
  match n with
  | O => LRet false
  | S n' =>
      v <- act (ALoad (ReaderWord x)) ;;
      if bool_decide (v <> 0) then LRet true else any_reader n' (S x)
  end.
Definition is_locked (writing : bool) : lprog bool :=
  if writing then v <- act (ALoad WriteWord) ;; LRet (bool_decide (v <> 0))
  else any_reader num_slots 0.
(** ProcessReadWriteLock::reader_count (ProcessLock.cc:39-45) *)
Fixpoint count_readers (n x : nat) (count : Z) : lprog Z :=
  match n with
  | O => LRet count
  | S n' =>
      v <- act (ALoad (ReaderWord x)) ;;
      count_readers n' (S x) (count + if bool_decide (v <> 0) then 1 else 0)
  end.
Definition reader_count : lprog Z := count_readers num_slots 0 0.

(** An observer runs a program while the system takes any steps in between; [during] holds
    in every state from the beginning to the end. *)
Section observe.
  Context (F : nat) (pids : Z -> Prop) (guards : behavior -> Prop) (during : lstate -> Prop).
  Inductive observes {A} : lstate -> lprog A -> A -> lstate -> Prop :=
    | obs_end s a : during s -> observes s (LRet a) a s
    | obs_step s l s1 p a s2 :
        during s -> lstep F pids false guards s l s1 -> observes s1 p a s2 -> observes s p a s2
    | obs_act s x k r m' a s2 :
        during s -> lexec (l_alive s) (l_mem s) x r m' ->
        observes (LState m' (l_alive s) (l_used s) (l_threads s)) (k r) a s2 ->
        observes s (LAct x k) a s2.
End observe.

Lemma list_filter_iff' {A} (P Q : A -> Prop) `{HP : !forall x, Decision (P x), HQ : !forall x, Decision (Q x)} (l : list A) :
  (forall x, x ∈ l -> (P x <-> Q x)) -> filter P l = filter Q l.
Proof.
  induction l as [|x l IH]; intros Hx; [done|]. rewrite !filter_cons.
  rewrite IH; [|intros y ?; apply Hx; by right]. assert (P x <-> Q x) by (apply Hx; by left).
  repeat case_decide; naive_solver.
Qed.
Lemma list_filter_nil' {A} (P : A -> Prop) `{HP : !forall x, Decision (P x)} (l : list A) :
  (forall x, x ∈ l -> ~ P x) -> filter P l = [].
Proof.
  induction l as [|x l IH]; intros Hx; [done|]. rewrite filter_cons decide_False; [|apply Hx; by left].
  apply IH. intros y ?. apply Hx. by right.
Qed.
Lemma list_filter_all' {A} (P : A -> Prop) `{HP : !forall x, Decision (P x)} (l : list A) :
  (forall x, x ∈ l -> P x) -> filter P l = l.
Proof.
  induction l as [|x l IH]; intros Hx; [done|]. rewrite filter_cons decide_True; [|apply Hx; by left].
  f_equal. apply IH. intros y ?. apply Hx. by right.
Qed.

Set Default Proof Using "All".
Section proof.
  Context (F : nat) (guards : behavior -> Prop) (pids : Z -> Prop)
    (Hpid : forall p, pids p -> good_pid p) (Hmix : guards PLAIN -> only_plain guards).
  Definition inv_holds (s : lstate) : Prop := exists γ, LInv guards s γ false.
  Definition writes (s : lstate) (t : nat) (g : lguard) : Prop :=
    (exists pid, l_threads s !! t = Some (pid, Holding g) /\ pid ∈ l_alive s) /\ g_slot g = -1.
  Definition reads (s : lstate) (t : nat) (g : lguard) : Prop :=
    (exists pid, l_threads s !! t = Some (pid, Holding g) /\ pid ∈ l_alive s) /\ g_slot g <> -1.

  Lemma writes_word s t g : inv_holds s -> writes s t g -> l_mem s WriteWord <> 0.
  Proof.
    intros [γ (HI & HT & _)] [(pid & Ht & Ha) Hg].
    assert (HL : live s t pid) by (split; eauto).
    destruct (HT _ _ _ Ht Ha) as [(_ & _ & _ & [(_ & Hw & _)|(i & Hi & _)]) _]; [|lia].
    rewrite (ic_w _ _ _ _ _ _ _ HI _ _ HL Hw).
    pose proof (ic_pid _ _ _ _ _ _ _ HI pid (ic_used _ _ _ _ _ _ _ HI _ Ha)) as [? _]. lia.
  Qed.
  Lemma reads_word s t g : inv_holds s -> reads s t g ->
    exists i, g_slot g = Z.of_nat i /\ (i < num_slots)%nat /\ l_mem s (ReaderWord i) <> 0.
  Proof.
    intros [γ (HI & HT & _)] [(pid & Ht & Ha) Hg].
    assert (HL : live s t pid) by (split; eauto).
    destruct (HT _ _ _ Ht Ha) as [(_ & _ & _ & [(? & _)|(i & Hi & Hr & _)]) _]; [lia|].
    destruct (ic_r _ _ _ _ _ _ _ HI _ _ _ HL Hr) as [Hm Hn].
    exists i. split; [done|]. split; [done|]. rewrite Hm.
    pose proof (ic_pid _ _ _ _ _ _ _ HI pid (ic_used _ _ _ _ _ _ _ HI _ Ha)) as [? _]. lia.
  Qed.
  Lemma reads_distinct s t g t' g' : inv_holds s -> reads s t g -> reads s t' g' ->
    g_slot g = g_slot g' -> t = t'.
  Proof.
    intros [γ (HI & HT & _)] [(pid & Ht & Ha) Hg] [(pid' & Ht' & Ha') Hg'] E.
    assert (HL : live s t pid) by (split; eauto). assert (HL' : live s t' pid') by (split; eauto).
    destruct (HT _ _ _ Ht Ha) as [(_ & _ & _ & [(? & _)|(i & Hi & Hr & _)]) _]; [lia|].
    destruct (HT _ _ _ Ht' Ha') as [(_ & _ & _ & [(? & _)|(j & Hj & Hr' & _)]) _]; [lia|].
    assert (i = j) as <- by lia. by eapply (ic_r1 _ _ _ _ _ _ _ HI t pid t' pid').
  Qed.

  (** A load by the observer. *)
  Lemma observes_load {A} (during : lstate -> Prop) w (k : Z -> lprog A) a s s2 :
    observes F pids guards during s (LAct (ALoad w) k) a s2 -> inv_holds s ->
    exists s1, inv_holds s1 /\ during s1 /\ observes F pids guards during s1 (k (l_mem s1 w)) a s2.
  Proof.
    intros H. remember (LAct (ALoad w) k) as p eqn:E. revert k E.
    induction H as [s a Hd|s l s1 p a s2 Hd Hst Ho IH|s x k' r m' a s2 Hd Hx Ho IH]; intros k E [γ HI].
    - done.
    - eapply IH; [exact E|]. destruct (LInv_step F guards pids Hpid Hmix _ _ _ _ _ Hst HI) as [[γ' HI'] _].
      exists γ'. by destruct l.
    - injection E as -> ->. destruct Hx as [-> ->]. exists s. split; [by exists γ|]. split; [done|].
      by destruct s.
  Qed.
  Lemma observes_ret {A} (during : lstate -> Prop) (x : A) a s s2 :
    observes F pids guards during s (LRet x) a s2 -> a = x.
  Proof.
    intros H. remember (LRet x) as p eqn:E. induction H; [by injection E|by auto|done].
  Qed.

  Lemma is_locked_write (during : lstate -> Prop) t g s b s2 :
    (forall s, during s -> writes s t g) ->
    observes F pids guards during s (is_locked true) b s2 -> inv_holds s -> b = true.
  Proof.
    intros Hd Ho HI. apply observes_load in Ho as (s1 & HI1 & Hd1 & Ho); [|done].
    apply observes_ret in Ho as ->. apply bool_decide_eq_true. by eapply writes_word, Hd.
  Qed.
  Lemma any_reader_sees (during : lstate -> Prop) t g n x s b s2 i :
    (forall s, during s -> reads s t g) -> g_slot g = Z.of_nat i -> (x <= i < x + n)%nat ->
    observes F pids guards during s (any_reader n x) b s2 -> inv_holds s -> b = true.
  Proof.
    intros Hd Hi. revert x s. induction n as [|n IH]; intros x s Hx Ho HI; [lia|].
    cbn [any_reader lbind act] in Ho. apply observes_load in Ho as (s1 & HI1 & Hd1 & Ho); [|done].
    case_bool_decide as Hv; [by apply observes_ret in Ho as ->|].
    eapply (IH (S x) s1); [|done|done].
    destruct (decide (i = x)) as [->|Hn]; [|lia]. exfalso.
    destruct (reads_word _ _ _ HI1 (Hd _ Hd1)) as (j & Hj & _ & Hm). assert (j = x) as -> by lia. done.
  Qed.
  Lemma is_locked_read (during : lstate -> Prop) t g s b s2 :
    (forall s, during s -> reads s t g) ->
    observes F pids guards during s (is_locked false) b s2 -> during s -> inv_holds s -> b = true.
  Proof.
    intros Hd Ho Hds HI. destruct (reads_word _ _ _ HI (Hd _ Hds)) as (i & Hi & Hn & _).
    eapply (any_reader_sees during t g num_slots 0 s b s2 i); [done|done|lia|done|done].
  Qed.

  (** The slots of the readers [ts] from [x] on. *)
  Definition from_slot (x : nat) (ts : list (nat * lguard)) : list (nat * lguard) :=
    filter (fun tg => Z.of_nat x <= g_slot tg.2) ts.
  Lemma from_slot_step s x ts : inv_holds s -> NoDup (map fst ts) -> (forall tg, tg ∈ ts -> reads s tg.1 tg.2) ->
    (length (from_slot x ts) <= length (from_slot (S x) ts) + if bool_decide (l_mem s (ReaderWord x) <> 0) then 1 else 0)%nat.
  Proof.
    intros HI. induction ts as [|[t g] ts IH]; intros Hnd Hr; [simpl; lia|].
    cbn [List.map] in Hnd. apply NoDup_cons in Hnd as [Hni Hnd].
    assert (reads s t g) as Htg by (apply (Hr (t, g)); by left).
    assert (forall tg, tg ∈ ts -> reads s tg.1 tg.2) as Hr' by (intros tg ?; apply Hr; by right).
    specialize (IH Hnd Hr'). unfold from_slot in *. rewrite !filter_cons. cbn [snd].
    destruct (reads_word _ _ _ HI Htg) as (i & Hi & _ & Hm).
    destruct (decide (i = x)) as [->|Hne].
    - rewrite decide_True; [|lia]. rewrite decide_False; [|lia]. cbn [length].
      rewrite bool_decide_eq_true_2; [|done].
      assert (filter (fun tg : nat * lguard => Z.of_nat x <= g_slot tg.2) ts =
              filter (fun tg : nat * lguard => Z.of_nat (S x) <= g_slot tg.2) ts) as ->; [|lia].
      apply list_filter_iff'. intros [t' g'] Hin. cbn [snd].
      assert (g_slot g' <> g_slot g); [|lia]. intros E. apply Hni.
      assert (t' = t) as <- by (eapply (reads_distinct s t' g' t g); [done|apply (Hr' (t', g') Hin)|done|done]).
      apply elem_of_list_fmap. by exists (t', g').
    - destruct (decide (Z.of_nat x <= g_slot g)).
      + rewrite decide_True; [|lia]. cbn [length]. lia.
      + rewrite decide_False; [|lia]. lia.
  Qed.
  Lemma count_readers_sees (during : lstate -> Prop) ts n x c s r s2 :
    NoDup (map fst ts) -> (forall s, during s -> forall tg, tg ∈ ts -> reads s tg.1 tg.2) ->
    during s -> (num_slots <= x + n)%nat ->
    observes F pids guards during s (count_readers n x c) r s2 -> inv_holds s ->
    c + Z.of_nat (length (from_slot x ts)) <= r.
  Proof.
    intros Hnd Hd. revert x c s. induction n as [|n IH]; intros x c s Hds Hx Ho HI.
    - apply observes_ret in Ho as ->.
      assert (from_slot x ts = []) as ->; [|simpl; lia].
      apply list_filter_nil'. intros [t g] Hin. cbn [snd].
      destruct (reads_word _ _ _ HI (Hd _ Hds _ Hin)) as (i & Hi & Hn & _). cbn [snd] in Hi. lia.
    - cbn [count_readers lbind act] in Ho. apply observes_load in Ho as (s1 & HI1 & Hd1 & Ho); [|done].
      apply IH in Ho; [|done|lia|done].
      pose proof (from_slot_step s1 x ts HI1 Hnd (Hd _ Hd1)) as Hs.
      destruct (bool_decide _); lia.
  Qed.
  Lemma reader_count_sees (during : lstate -> Prop) ts s r s2 :
    NoDup (map fst ts) -> (forall s, during s -> forall tg, tg ∈ ts -> reads s tg.1 tg.2) ->
    during s -> observes F pids guards during s reader_count r s2 -> inv_holds s ->
    Z.of_nat (length ts) <= r.
  Proof.
    intros Hnd Hd Hds Ho HI. apply (count_readers_sees during ts) in Ho; [|done|done|done|lia|done].
    assert (from_slot 0 ts = ts) as E.
    { apply list_filter_all'. intros [t g] Hin. cbn [snd].
      destruct (reads_word _ _ _ HI (Hd _ Hds _ Hin)) as (i & Hi & _). cbn [snd] in Hi. lia. }
    rewrite E in Ho. lia.
  Qed.
End proof.
