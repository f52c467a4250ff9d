(** * C36, C37, C39: the inter-process locks.

    Vocabulary of the statements. A history is a sequence of steps of the system
    of [ProcessLockModel.v] from a fresh lock: processes and threads start,
    construct guards, downgrade and destroy them, perform the single atomic
    actions of these functions in any interleaving, and processes die at any
    point. *)
From Verif Require Export ProcessLockModel ProcessLockProof ProcessReuse LockQueries.
From iris.prelude Require Import prelude options.
From Coq Require Import ZArith Lia.
Open Scope Z_scope.

(** pids as the 18 bits of PID_BITS allow; pids as Linux allows (PID_MAX_LIMIT) *)
Definition small_pids (p : Z) : Prop := 0 < p < 2 ^ 18.
Definition linux_pids (p : Z) : Prop := 0 < p < 2 ^ 22.

(** Clients use ProcessReadWriteLockGuard / ProcessLockGuard. *)
Definition rw_guards (b : behavior) : Prop := b <> PLAIN.
Definition plain_guards (b : behavior) : Prop := b = PLAIN.
(** The guards constructed by SimpleAllocator::lock and LogarithmicAllocator::lock
    (SimpleAllocator.cc:201-220, LogarithmicAllocator.cc:442-461). *)
Definition allocator_guards (b : behavior) : Prop := b = WRITE \/ b = READ_UNLESS_STOLEN.

Definition reachable F pids reuse guards (s : lstate) : Prop :=
  exists history, lsteps F pids reuse guards lstate0 history s.

(** Thread [t] of a running process is in control state [x]. *)
Definition running (s : lstate) (t : nat) (x : tstate) : Prop :=
  exists pid, l_threads s !! t = Some (pid, x) /\ pid ∈ l_alive s.

Definition holds_for_writing (s : lstate) (t : nat) : Prop :=
  exists g, running s t (Holding g) /\ g_slot g = -1.
(** A thread inside [downgrade] counts as a reader. *)
Definition holds_for_reading (s : lstate) (t : nat) : Prop :=
  (exists g, running s t (Holding g) /\ g_slot g <> -1) \/
  (exists p, running s t (Downgrading p)).

(** ** C36 *)
Lemma LInv_excludes s γ t t' : LInv rw_guards s γ false ->
  holds_for_writing s t -> t' <> t ->
  ~ holds_for_writing s t' /\ ~ holds_for_reading s t'.
Proof.
  intros (HI & HT & _) (g & (pid & Ht & Ha) & Hg) Hne.
  assert (HL : live s t pid) by (split; eauto).
  destruct (HT _ _ _ Ht Ha) as [(_ & _ & _ & [(_ & Hw & Hr & _ & Hd)|(i & Hi & _)]) _]; [|lia].
  destruct Hd as [Hd|Hd]; [|by destruct Hd].
  assert (Hno : forall p', live s t' p' -> own_r (γ t') = None).
  { intros p' HL'. destruct (own_r (γ t')) as [i|] eqn:E; [|done]. exfalso.
    destruct (ic_r _ _ _ _ _ _ _ HI _ _ _ HL' E) as [E1 E2].
    destruct (ic_drain _ _ _ _ _ _ _ HI _ _ i HL Hw) as [E3|E3]; [lia| |].
    - pose proof (ic_pid _ _ _ _ _ _ _ HI p' (ic_used _ _ _ _ _ _ _ HI _ (proj1 HL'))) as [? _].
      lia.
    - congruence. }
  assert (Hno2 : forall p', live s t' p' -> own_w (γ t') = true -> False).
  { intros p' HL' Hw'. apply Hne. by eapply (ic_w1 _ _ _ _ _ _ _ HI t' p' t pid). }
  split.
  - intros (g' & (pid' & Ht' & Ha') & Hg').
    assert (HL' : live s t' pid') by (split; eauto).
    destruct (HT _ _ _ Ht' Ha') as [(_ & _ & _ & [(_ & Hw' & _)|(i & Hi & _)]) _]; [|lia]. eauto.
  - intros [(g' & (pid' & Ht' & Ha') & Hg')|(p & pid' & Ht' & Ha')];
      assert (HL' : live s t' pid') by (split; eauto).
    + destruct (HT _ _ _ Ht' Ha') as [(_ & _ & _ & [(? & _)|(i & Hi & Hr' & _)]) _]; [done|].
      specialize (Hno _ HL'). congruence.
    + pose proof (HT _ _ _ Ht' Ha') as Hk. apply lwp_inv in Hk.
      destruct Hk as [[Hw' _]|Hr']; [eauto|]. specialize (Hno _ HL'). congruence.
Qed.

Theorem C36_writer_excludes_everyone F s t t' :
  reachable F small_pids false rw_guards s ->
  holds_for_writing s t -> t' <> t ->
  ~ holds_for_writing s t' /\ ~ holds_for_reading s t'.
Proof.
  intros [ls Hs] Hw Hne.
  assert (Hmix : rw_guards PLAIN -> only_plain rw_guards) by (intros H; by destruct H).
  destruct (LInv_steps F rw_guards small_pids (fun p H => H) Hmix _ _ _ _ Hs
    (LInv_init F rw_guards small_pids (fun p H => H) Hmix)) as [γ HL].
  by eapply LInv_excludes.
Qed.
Theorem C36_process_lock_excludes F s t t' g g' :
  reachable F small_pids false plain_guards s ->
  running s t (Holding g) -> running s t' (Holding g') -> t = t'.
Proof.
  intros [ls Hs] (pid & Ht & Ha) (pid' & Ht' & Ha').
  assert (Hmix : plain_guards PLAIN -> only_plain plain_guards) by (intros _ b Hb; done).
  destruct (LInv_steps F plain_guards small_pids (fun p H => H) Hmix _ _ _ _ Hs
    (LInv_init F plain_guards small_pids (fun p H => H) Hmix)) as [γ (HI & HT & _)].
  assert (Hop : only_plain plain_guards) by (by apply Hmix).
  assert (HL : live s t pid) by (split; eauto).
  assert (HL' : live s t' pid') by (split; eauto).
  destruct (HT _ _ _ Ht Ha) as [(_ & _ & Hs1 & H1) _].
  destruct (HT _ _ _ Ht' Ha') as [(_ & _ & Hs2 & H2) _].
  specialize (Hs1 Hop). specialize (Hs2 Hop).
  destruct H1 as [(_ & Hw & _)|(i & Hi & _)]; [|lia].
  destruct H2 as [(_ & Hw' & _)|(i & Hi & _)]; [|lia].
  by eapply (ic_w1 _ _ _ _ _ _ _ HI t pid t' pid').
Qed.

(** No lock function throws: [downgrade] of a write guard always finds a slot. *)
Theorem C36_lock_functions_do_not_throw F s t pid :
  reachable F small_pids false rw_guards s -> ~ l_threads s !! t = Some (pid, Failed).
Proof.
  intros [ls Hs].
  assert (Hmix : rw_guards PLAIN -> only_plain rw_guards) by (intros H; by destruct H).
  assert (Hgen : forall s0 γ, lsteps F small_pids false rw_guards s0 ls s ->
    LInv rw_guards s0 γ false ->
    (forall t' p', l_threads s0 !! t' = Some (p', Failed) -> False) ->
    l_threads s !! t = Some (pid, Failed) -> False).
  { clear Hs. intros s0 γ Hs. revert γ. induction Hs as [s0|s0 l s1 ls s2 H1 H2 IH]; intros γ HI Hf Hx.
    - eauto.
    - destruct (LInv_step F rw_guards small_pids (fun p H => H) Hmix _ _ _ _ _ H1 HI) as [[γ' HI'] _].
      apply (IH γ'); [by destruct l| |done].
      intros t' p' Hx'. destruct H1; simpl in Hx';
        try (apply map_filter_lookup_Some in Hx' as [Hx' _]; by eauto);
        try (by eauto);
        (destruct (decide (t' = t0)) as [->|Hn];
         [rewrite lookup_insert in Hx'; try done|
          rewrite lookup_insert_ne in Hx'; [by eauto|done]]);
        destruct HI as (_ & HT & _);
        by destruct (HT _ _ _ H H0). }
  intros Hx. eapply Hgen; [exact Hs|by eapply LInv_init|done|done].
Qed.

(** ** C37 *)
(** A guard that reports a stolen token took the lock from a process that is dead. *)
Theorem C37_stolen_only_from_the_dead F guards s t g s' :
  (guards = rw_guards \/ guards = plain_guards) ->
  reachable F small_pids false guards s ->
  lstep F small_pids false guards s (Acquired t g) s' ->
  g_stolen g <> 0 ->
  g_stolen g ∈ l_used s /\ g_stolen g ∉ l_alive s.
Proof.
  intros Hgu [ls Hs] Hst Hn.
  assert (Hmix : guards PLAIN -> only_plain guards).
  { destruct Hgu as [-> | ->]; [intros H; by destruct H|intros _ b Hb; done]. }
  destruct (LInv_steps F guards small_pids (fun p H => H) Hmix _ _ _ _ Hs
    (LInv_init F guards small_pids (fun p H => H) Hmix)) as [γ HI].
  destruct (LInv_step F guards small_pids (fun p H => H) Hmix _ _ _ _ _ Hst HI) as (_ & H & _).
  destruct (H _ _ eq_refl) as [_ H']. destruct (H' Hn). done.
Qed.

(** When a process dies while it holds the lock for writing, the next guard that
    anybody acquires is a write guard that reports a stolen token, so its owner
    knows that the data must be repaired and may repair it. *)
Theorem C37_thief_is_told F guards s0 s1 s2 s3 h t pid g t' g' :
  (guards = allocator_guards \/ guards = plain_guards) ->
  reachable F small_pids false guards s0 ->
  l_threads s0 !! t = Some (pid, Holding g) -> g_slot g = -1 ->
  lstep F small_pids false guards s0 (Dies pid) s1 ->
  lsteps F small_pids false guards s1 h s2 ->
  (forall t'' g'', Acquired t'' g'' ∉ h) ->
  lstep F small_pids false guards s2 (Acquired t' g') s3 ->
  g_slot g' = -1 /\ g_stolen g' <> 0 /\ g_stolen g' ∉ l_alive s2.
Proof.
  intros Hgu [ls Hs] Ht Hg Hd Hh Hno Ha.
  assert (Hmix : guards PLAIN -> only_plain guards).
  { destruct Hgu as [-> | ->]; [intros [H|H]; done|intros _ b Hb; done]. }
  assert (Hnr : ~ guards READ).
  { destruct Hgu as [-> | ->]; [intros [H|H]; done|intros H; done]. }
  destruct (LInv_steps F guards small_pids (fun p H => H) Hmix _ _ _ _ Hs
    (LInv_init F guards small_pids (fun p H => H) Hmix)) as [γ HI].
  pose proof (LInv_dies F guards small_pids (fun p H => H) Hmix _ _ _ _ _ _ _ Hd HI Ht Hg Hnr) as HI1.
  destruct (LInv_steps_pend F guards small_pids (fun p H => H) Hmix _ _ _ _ Hh HI1) as [γ2 HI2].
  { apply Forall_forall. intros lb Hlb. destruct lb; try done. by apply Hno in Hlb. }
  destruct (LInv_step F guards small_pids (fun p H => H) Hmix _ _ _ _ _ Ha HI2) as (_ & H & _).
  destruct (H _ _ eq_refl) as [H1 H2]. destruct (H1 eq_refl) as [H3 H4].
  destruct (H2 H3). done.
Qed.

(** ** C39 *)
(** A step of the system changes a lock word only when the word is free, or
    carries the token of a process that is no longer running, or carries the
    token of the acting thread's own process. *)
Theorem C39_only_own_or_dead_words_change F guards s l s' w :
  (guards = rw_guards \/ guards = plain_guards) ->
  reachable F small_pids false guards s ->
  lstep F small_pids false guards s l s' ->
  l_mem s' w <> l_mem s w ->
  exists t pid x, l = Step t /\ l_threads s !! t = Some (pid, x) /\ pid ∈ l_alive s /\
    (l_mem s w = 0 \/ l_mem s w ∉ l_alive s \/ l_mem s w = pid).
Proof.
  intros Hgu [ls Hs] Hst Hw.
  assert (Hmix : guards PLAIN -> only_plain guards).
  { destruct Hgu as [-> | ->]; [intros H; by destruct H|intros _ b Hb; done]. }
  destruct (LInv_steps F guards small_pids (fun p H => H) Hmix _ _ _ _ Hs
    (LInv_init F guards small_pids (fun p H => H) Hmix)) as [γ HI].
  destruct (LInv_step F guards small_pids (fun p H => H) Hmix _ _ _ _ _ Hst HI) as (_ & _ & H).
  destruct (H w Hw) as (t & pid & -> & HL & Hc). pose proof HL as [Ha [x Hx]].
  exists t, pid, x. split; [done|]. split; [done|]. split; [done|].
  destruct Hc as [?|[?|Ho]]; [auto|auto|]. right; right.
  destruct HI as (HI & _). destruct w; simpl in Ho.
  - by eapply (ic_w _ _ _ _ _ _ _ HI).
  - by eapply (ic_r _ _ _ _ _ _ _ HI).
Qed.

(** The word of the lock that a guard stands for. *)
Definition guard_word (g : lguard) : lword :=
  if bool_decide (g_slot g = -1) then WriteWord else ReaderWord (Z.to_nat (g_slot g)).

(** As long as its process runs, nobody else clears or overwrites the word of a
    guard: it carries the token of its owner. *)
Theorem C39_holder_keeps_its_word F guards s t pid g :
  (guards = rw_guards \/ guards = plain_guards) ->
  reachable F small_pids false guards s ->
  l_threads s !! t = Some (pid, Holding g) -> pid ∈ l_alive s ->
  g_token g = pid /\ l_mem s (guard_word g) = pid.
Proof.
  intros Hgu [ls Hs] Ht Ha.
  assert (Hmix : guards PLAIN -> only_plain guards).
  { destruct Hgu as [-> | ->]; [intros H; by destruct H|intros _ b Hb; done]. }
  destruct (LInv_steps F guards small_pids (fun p H => H) Hmix _ _ _ _ Hs
    (LInv_init F guards small_pids (fun p H => H) Hmix)) as [γ (HI & HT & _)].
  assert (HL : live s t pid) by (split; eauto).
  destruct (HT _ _ _ Ht Ha) as [(H1 & _ & _ & H2) _]. split; [done|]. unfold guard_word.
  destruct H2 as [(Hs1 & Hw & _)|(i & Hi & Hr & _)].
  - rewrite bool_decide_eq_true_2; [|done]. by eapply (ic_w _ _ _ _ _ _ _ HI).
  - rewrite bool_decide_eq_false_2; [|lia]. rewrite Hi Nat2Z.id.
    by eapply (ic_r _ _ _ _ _ _ _ HI).
Qed.

(** ** Executions *)
(** An executable version of the system: each label comes with the answer that
    the action gives when there is a choice (weak compare-exchange succeeds when
    it can, futex_wait answers the given number). *)
Definition exec_act (alive : gset Z) (m : lmem) (a : lact) (c : Z) : Z * lmem :=
  match a with
  | ALoad w => (m w, m)
  | ACas w e d => (m w, if decide (m w = e) then upd m w d else m)
  | ACasWeak w e d => if decide (m w = e) then (-1, upd m w d) else (m w, m)
  | ARunning p => (if decide (p ∈ alive) then 1 else 0, m)
  | AFutexWait w e => (if decide (c = 0) then 0 else 1, m)
  | AFutexWake w => (0, m)
  end.
Lemma exec_act_ok alive m a c :
  lexec alive m a (exec_act alive m a c).1 (exec_act alive m a c).2.
Proof.
  destruct a; simpl; try done.
  - case_decide; simpl; auto.
  - case_decide; simpl; auto.
  - case_decide; auto.
Qed.

Definition exec_label (F : nat) (reuse : bool) (s : lstate) (lb : label) (c : Z) : option lstate :=
  let thread t k :=
    match l_threads s !! t with
    | Some (pid, x) => if decide (pid ∈ l_alive s) then k pid x else None
    | None => None
    end in
  match lb with
  | NewProcess pid =>
      if decide (pid ∉ l_alive s) then
        if reuse || bool_decide (pid ∉ l_used s) then
          Some (LState (l_mem s) ({[pid]} ∪ l_alive s) ({[pid]} ∪ l_used s)
             (filter (fun x => x.2.1 <> pid) (l_threads s)))
        else None
      else None
  | NewThread t pid =>
      if decide (pid ∈ l_alive s) then
        match l_threads s !! t with None => Some (set_thread s t pid Idle) | _ => None end
      else None
  | Dies pid =>
      if decide (pid ∈ l_alive s) then
        Some (LState (l_mem s) (l_alive s ∖ {[pid]}) (l_used s) (l_threads s)) else None
  | Construct t b =>
      thread t (fun pid x =>
        match x with
        | Idle => Some (set_thread s t pid (Constructing (construct F pid b)))
        | _ => None
        end)
  | Acquired t g =>
      thread t (fun pid x =>
        match x with
        | Constructing (LRet g') =>
            if decide (g_slot g' = g_slot g /\ g_token g' = g_token g /\ g_stolen g' = g_stolen g)
            then Some (set_thread s t pid (Holding g)) else None
        | _ => None
        end)
  | Downgrade t =>
      thread t (fun pid x =>
        match x with
        | Holding g => if decide (g_slot g = -1) then
             Some (set_thread s t pid (Downgrading (downgrade pid g))) else None
        | _ => None
        end)
  | Downgraded t =>
      thread t (fun pid x =>
        match x with
        | Downgrading (LRet g) => Some (set_thread s t pid (Holding g))
        | _ => None
        end)
  | Destroy t =>
      thread t (fun pid x =>
        match x with
        | Holding g => Some (set_thread s t pid (Destroying (destroy g)))
        | _ => None
        end)
  | Destroyed t =>
      thread t (fun pid x =>
        match x with
        | Destroying (LRet _) => Some (set_thread s t pid Idle)
        | _ => None
        end)
  | Step t =>
      thread t (fun pid x =>
        match x with
        | Constructing (LAct a k) =>
            let '(r, m') := exec_act (l_alive s) (l_mem s) a c in
            Some (LState m' (l_alive s) (l_used s) (<[t := (pid, Constructing (k r))]> (l_threads s)))
        | Downgrading (LAct a k) =>
            let '(r, m') := exec_act (l_alive s) (l_mem s) a c in
            Some (LState m' (l_alive s) (l_used s) (<[t := (pid, Downgrading (k r))]> (l_threads s)))
        | Destroying (LAct a k) =>
            let '(r, m') := exec_act (l_alive s) (l_mem s) a c in
            Some (LState m' (l_alive s) (l_used s) (<[t := (pid, Destroying (k r))]> (l_threads s)))
        | _ => None
        end)
  | Fails t => None
  end.

Definition label_ok (pids : Z -> Prop) (guards : behavior -> Prop) (lb : label) : Prop :=
  match lb with NewProcess pid => pids pid | Construct _ b => guards b | _ => True end.

Lemma exec_label_ok F (pids : Z -> Prop) reuse (guards : behavior -> Prop) s lb c s' :
  label_ok pids guards lb -> guards WRITE \/ guards READ_UNLESS_STOLEN ->
  exec_label F reuse s lb c = Some s' -> lstep F pids reuse guards s lb s'.
Proof.
  intros Hok Hg. destruct lb; cbn [exec_label]; intros H; try done;
    repeat (case_match; try done); simplify_eq;
    try (by econstructor).
  - apply S_process; [done|done|]. intros ->. simpl in *. by apply bool_decide_eq_true in H1.
  - destruct a0 as (E1 & E2 & E3). destruct g, a. simpl in *. subst. by econstructor.
  - destruct a. by econstructor.
  - eapply S_step_c; [done|done|]. pose proof (exec_act_ok (l_alive s) (l_mem s) a c) as X.
    rewrite H5 in X. done.
  - eapply S_step_g; [done|done|]. pose proof (exec_act_ok (l_alive s) (l_mem s) a c) as X.
    rewrite H5 in X. done.
  - eapply S_step_d; [done|done|]. pose proof (exec_act_ok (l_alive s) (l_mem s) a c) as X.
    rewrite H5 in X. done.
Qed.

Fixpoint exec_labels (F : nat) (reuse : bool) (s : lstate) (ls : list (label * Z)) : option lstate :=
  match ls with
  | [] => Some s
  | (lb, c) :: ls' =>
      match exec_label F reuse s lb c with Some s' => exec_labels F reuse s' ls' | None => None end
  end.

Lemma exec_labels_ok F (pids : Z -> Prop) reuse (guards : behavior -> Prop) ls s s' :
  Forall (fun x => label_ok pids guards x.1) ls -> guards WRITE \/ guards READ_UNLESS_STOLEN ->
  exec_labels F reuse s ls = Some s' -> lsteps F pids reuse guards s (map fst ls) s'.
Proof.
  intros HF Hg. revert s. induction HF as [|[lb c] ls Hx _ IH]; intros s; simpl.
  - intros [= ->]. constructor.
  - destruct (exec_label F reuse s lb c) as [s1|] eqn:E; [|done]. intros H.
    econstructor; [|by apply IH]. by eapply exec_label_ok.
Qed.

(** [n] actions of thread [t], in which futex_wait always times out. *)
Definition acts (n t : nat) : list (label * Z) := repeat (Step t, 0) n.
Definition ev (lb : label) : list (label * Z) := [(lb, 0)].

(** What the threads do in a state, for checking by computation: 1 = holding for
    writing, 2 = holding for reading, 3 = waiting in a constructor; 0 otherwise. *)
Definition activity (s : option lstate) (t : nat) : Z :=
  match s with
  | Some s =>
      match l_threads s !! t with
      | Some (pid, x) =>
          if decide (pid ∈ l_alive s) then
            match x with
            | Holding g => if decide (g_slot g = -1) then 1 else 2
            | Constructing _ => 3
            | _ => 0
            end
          else 0
      | None => 0
      end
  | None => 0
  end.

Lemma activity_spec s t :
  (activity s t = 1 -> exists s', s = Some s' /\ holds_for_writing s' t) /\
  (activity s t = 2 -> exists s', s = Some s' /\ holds_for_reading s' t) /\
  (activity s t = 3 -> exists s' p, s = Some s' /\ running s' t (Constructing p)).
Proof.
  unfold activity. destruct s as [s|]; [|done].
  destruct (l_threads s !! t) as [[pid x]|] eqn:E; [|done].
  case_decide as Ha; [|done].
  destruct x as [|p|g|p|p|]; try done.
  - split; [done|]. split; [done|]. intros _. exists s, p. split; [done|]. exists pid. done.
  - case_decide as Hs; (split; [|split]); intros ?; try done; exists s; split; try done.
    + exists g. split; [|done]. exists pid. done.
    + left. exists g. split; [|done]. exists pid. done.
Qed.

(** Two readers share the lock while a writer waits; the writer then gets it. *)
Definition share_script : list (label * Z) :=
  ev (NewProcess 10) ++ ev (NewProcess 20) ++ ev (NewProcess 30) ++
  ev (NewThread 1 10) ++ ev (NewThread 2 20) ++ ev (NewThread 3 30) ++
  ev (Construct 1 READ) ++ acts 4 1 ++ ev (Acquired 1 (Guard 0 10 0)) ++
  ev (Construct 2 READ_UNLESS_STOLEN) ++ acts 5 2 ++ ev (Acquired 2 (Guard 1 20 0)) ++
  ev (Construct 3 WRITE) ++ acts 6 3.
Definition write_script : list (label * Z) :=
  share_script ++
  ev (Destroy 1) ++ acts 2 1 ++ ev (Destroyed 1) ++ ev (Dies 20) ++
  acts 71 3 ++ ev (Acquired 3 (Guard (-1) 30 0)).

Ltac labels_ok :=
  repeat (apply Forall_cons; split; [simpl; unfold small_pids, linux_pids, rw_guards, allocator_guards; first [done|lia|by left|by right]|]);
  by apply Forall_nil.

Lemma share_ok : Forall (fun x => label_ok small_pids rw_guards x.1) share_script.
Proof. labels_ok. Qed.
Lemma write_ok : Forall (fun x => label_ok small_pids rw_guards x.1) write_script.
Proof. labels_ok. Qed.
Lemma rw_guards_write : rw_guards WRITE \/ rw_guards READ_UNLESS_STOLEN.
Proof. by left. Qed.

Example C36_case :
  exists s, reachable 20 small_pids false rw_guards s /\
    holds_for_reading s 1 /\ holds_for_reading s 2 /\ (exists p, running s 3 (Constructing p)) /\
  exists s', reachable 20 small_pids false rw_guards s' /\ holds_for_writing s' 3.
Proof.
  assert (H1 : activity (exec_labels 20 false lstate0 share_script) 1 = 2) by (vm_compute; reflexivity).
  assert (H2 : activity (exec_labels 20 false lstate0 share_script) 2 = 2) by (vm_compute; reflexivity).
  assert (H3 : activity (exec_labels 20 false lstate0 share_script) 3 = 3) by (vm_compute; reflexivity).
  assert (H4 : activity (exec_labels 20 false lstate0 write_script) 3 = 1) by (vm_compute; reflexivity).
  apply activity_spec in H1 as (s & E & H1).
  apply activity_spec in H2 as (s2 & E2 & H2). rewrite E in E2. injection E2 as <-.
  apply activity_spec in H3 as (s3 & p & E3 & H3). rewrite E in E3. injection E3 as <-.
  apply activity_spec in H4 as (s4 & E4 & H4).
  exists s. split; [|split; [exact H1|split; [exact H2|split; [exists p; exact H3|]]]].
  - exists (map fst share_script). exact (exec_labels_ok _ _ _ _ _ _ _ share_ok rw_guards_write E).
  - exists s4. split; [|exact H4].
    exists (map fst write_script). exact (exec_labels_ok _ _ _ _ _ _ _ write_ok rw_guards_write E4).
Qed.

(** C37: a writer dies, a reader finds out, steals and gets a write guard. *)
Definition dies_script : list (label * Z) :=
  ev (NewProcess 10) ++ ev (NewProcess 20) ++ ev (NewThread 1 10) ++ ev (NewThread 2 20) ++
  ev (Construct 1 WRITE) ++ acts 66 1 ++ ev (Acquired 1 (Guard (-1) 10 0)).
Definition steals_script : list (label * Z) :=
  ev (Construct 2 READ_UNLESS_STOLEN) ++ acts 78 2.

Lemma dies_ok : Forall (fun x => label_ok small_pids allocator_guards x.1) dies_script.
Proof. labels_ok. Qed.
Lemma steals_ok : Forall (fun x => label_ok small_pids allocator_guards x.1) steals_script.
Proof. labels_ok. Qed.
Lemma steals_none t g : Acquired t g ∉ map fst steals_script.
Proof.
  vm_compute; intros H; repeat (apply elem_of_cons in H as [H|H]; [done|]);
  by apply elem_of_nil in H.
Qed.
Lemma exec_labels_app F b l1 l2 s s' : exec_labels F b s (l1 ++ l2) = Some s' ->
  exists s1, exec_labels F b s l1 = Some s1 /\ exec_labels F b s1 l2 = Some s'.
Proof.
  revert s. induction l1 as [|[lb c] l1 IH]; intros s; simpl; [eauto|].
  destruct (exec_label F b s lb c); [|done]. apply IH.
Qed.
Lemma exec_labels_one F b lb s s' : exec_labels F b s (ev lb) = Some s' ->
  exec_label F b s lb 0 = Some s'.
Proof. simpl. by destruct (exec_label F b s lb 0). Qed.

Example C37_case :
  exists s0 s1 s2 s3 h,
    reachable 20 small_pids false allocator_guards s0 /\ holds_for_writing s0 1 /\
    lstep 20 small_pids false allocator_guards s0 (Dies 10) s1 /\
    lsteps 20 small_pids false allocator_guards s1 h s2 /\
    (forall t g, Acquired t g ∉ h) /\
    lstep 20 small_pids false allocator_guards s2 (Acquired 2 (Guard (-1) 20 10)) s3.
Proof.
  assert (Hg : allocator_guards WRITE \/ allocator_guards READ_UNLESS_STOLEN) by (left; by left).
  assert (H1 : activity (exec_labels 20 false lstate0 dies_script) 1 = 1) by (vm_compute; reflexivity).
  assert (H2 : activity (exec_labels 20 false lstate0
     (dies_script ++ ev (Dies 10) ++ steals_script ++ ev (Acquired 2 (Guard (-1) 20 10)))) 2 = 1)
    by (vm_compute; reflexivity).
  apply activity_spec in H1 as (s0 & E0 & H1).
  apply activity_spec in H2 as (s3 & E3 & _).
  apply exec_labels_app in E3 as (s0' & E0' & E3). rewrite E0 in E0'. injection E0' as <-.
  apply exec_labels_app in E3 as (s1 & E1 & E3). apply exec_labels_app in E3 as (s2 & E2 & E3).
  apply exec_labels_one in E1. apply exec_labels_one in E3.
  exists s0, s1, s2, s3, (map fst steals_script).
  split; [exists (map fst dies_script); exact (exec_labels_ok _ _ _ _ _ _ _ dies_ok Hg E0)|].
  split; [exact H1|].
  split; [exact (exec_label_ok _ _ _ _ _ (Dies 10) _ _ Logic.I Hg E1)|].
  split; [exact (exec_labels_ok _ _ _ _ _ _ _ steals_ok Hg E2)|].
  split; [exact steals_none|].
  exact (exec_label_ok _ _ _ _ _ (Acquired 2 (Guard (-1) 20 10)) _ _ Logic.I Hg E3).
Qed.

(** C36/C37 fail for the pids that Linux hands out on 64-bit machines (up to
    2^22): pid_for_token keeps 18 bits only, so a process with a larger pid is
    taken for dead and its lock is stolen. *)
Definition big_pid_script : list (label * Z) :=
  ev (NewProcess 262146) ++ ev (NewProcess 20) ++
  ev (NewThread 1 262146) ++ ev (NewThread 2 20) ++
  ev (Construct 1 WRITE) ++ acts 66 1 ++ ev (Acquired 1 (Guard (-1) 262146 0)) ++
  ev (Construct 2 WRITE) ++ acts 78 2 ++ ev (Acquired 2 (Guard (-1) 20 262146)).

Lemma big_pid_ok : Forall (fun x => label_ok linux_pids rw_guards x.1) big_pid_script.
Proof. labels_ok. Qed.
Theorem C36_big_pids_refuted :
  exists s, reachable 20 linux_pids false rw_guards s /\
    holds_for_writing s 1 /\ holds_for_writing s 2.
Proof.
  assert (H1 : activity (exec_labels 20 false lstate0 big_pid_script) 1 = 1) by (vm_compute; reflexivity).
  assert (H2 : activity (exec_labels 20 false lstate0 big_pid_script) 2 = 1) by (vm_compute; reflexivity).
  apply activity_spec in H1 as (s1 & E1 & H1).
  apply activity_spec in H2 as (s2 & E2 & H2). rewrite E1 in E2. injection E2 as <-.
  exists s1. split; [|split; [exact H1|exact H2]].
  exists (map fst big_pid_script). exact (exec_labels_ok _ _ _ _ _ _ _ big_pid_ok rw_guards_write E1).
Qed.

(** They also fail when a pid is used again between the check that its process
    is gone and the compare-exchange that takes its lock. *)
Definition reuse_script : list (label * Z) :=
  ev (NewProcess 10) ++ ev (NewProcess 20) ++ ev (NewProcess 30) ++
  ev (NewThread 1 10) ++ ev (NewThread 2 20) ++ ev (NewThread 3 30) ++
  ev (Construct 1 WRITE) ++ acts 66 1 ++ ev (Acquired 1 (Guard (-1) 10 0)) ++ ev (Dies 10) ++
  (* process 20 sees that process 10 is gone *)
  ev (Construct 2 WRITE) ++ acts 12 2 ++
  (* process 30 steals the lock and releases it *)
  ev (Construct 3 WRITE) ++ acts 78 3 ++ ev (Acquired 3 (Guard (-1) 30 10)) ++
  ev (Destroy 3) ++ acts 2 3 ++ ev (Destroyed 3) ++
  (* a new process with pid 10 takes the lock *)
  ev (NewProcess 10) ++ ev (NewThread 4 10) ++
  ev (Construct 4 WRITE) ++ acts 66 4 ++ ev (Acquired 4 (Guard (-1) 10 0)) ++
  (* process 20 goes on *)
  acts 66 2 ++ ev (Acquired 2 (Guard (-1) 20 10)).

Lemma reuse_ok : Forall (fun x => label_ok small_pids rw_guards x.1) reuse_script.
Proof. labels_ok. Qed.
Theorem C36_pid_reuse_refuted :
  exists s, reachable 20 small_pids true rw_guards s /\
    holds_for_writing s 4 /\ holds_for_writing s 2.
Proof.
  assert (H1 : activity (exec_labels 20 true lstate0 reuse_script) 4 = 1) by (vm_compute; reflexivity).
  assert (H2 : activity (exec_labels 20 true lstate0 reuse_script) 2 = 1) by (vm_compute; reflexivity).
  apply activity_spec in H1 as (s1 & E1 & H1).
  apply activity_spec in H2 as (s2 & E2 & H2). rewrite E1 in E2. injection E2 as <-.
  exists s1. split; [|split; [exact H1|exact H2]].
  exists (map fst reuse_script). exact (exec_labels_ok _ _ _ _ _ _ _ reuse_ok rw_guards_write E1).
Qed.

(** ** C50: what holds of exclusion when pids are used again, and how taking over fails *)
(** Exclusion holds if a pid is given out again only while the lock is [quiet]. *)
Theorem C50_reuse_when_quiet_partial F history s t t' :
  careful F small_pids rw_guards lstate0 history s ->
  holds_for_writing s t -> t' <> t ->
  ~ holds_for_writing s t' /\ ~ holds_for_reading s t'.
Proof.
  intros Hc Hw Hne.
  assert (Hmix : rw_guards PLAIN -> only_plain rw_guards) by (intros H; by destruct H).
  destruct (LInv_careful F rw_guards small_pids (fun p H => H) Hmix _ _ _ _ Hc
    (LInv_init F rw_guards small_pids (fun p H => H) Hmix)) as [γ HL].
  by eapply LInv_excludes.
Qed.
(** Process 10 has used the lock and died; its pid is given out again while process 20 holds
    the lock for reading; then the new process gets the lock for writing. *)
Definition reuse_before : list (label * Z) :=
  ev (NewProcess 10) ++ ev (NewProcess 20) ++ ev (NewThread 1 10) ++ ev (NewThread 2 20) ++
  ev (Construct 1 WRITE) ++ acts 66 1 ++ ev (Acquired 1 (Guard (-1) 10 0)) ++
  ev (Destroy 1) ++ acts 2 1 ++ ev (Destroyed 1) ++ ev (Dies 10) ++
  ev (Construct 2 READ) ++ acts 4 2 ++ ev (Acquired 2 (Guard 0 20 0)).
Definition reuse_after : list (label * Z) :=
  ev (NewThread 3 10) ++ ev (Construct 3 WRITE) ++ acts 6 3 ++
  ev (Destroy 2) ++ acts 2 2 ++ ev (Destroyed 2) ++ acts 67 3 ++ ev (Acquired 3 (Guard (-1) 10 0)).
Definition the_lstate (o : option lstate) : lstate := match o with Some s => s | None => lstate0 end.
Lemma the_lstate_ok o : (match o with Some _ => true | None => false end) = true -> o = Some (the_lstate o).
Proof. by destruct o. Qed.
Definition reuse_mid : lstate := the_lstate (exec_labels 20 false lstate0 reuse_before).
(** The state after [NewProcess 10]. *)
Definition started_10 (s : lstate) : lstate :=
  LState (l_mem s) ({[10]} ∪ l_alive s) ({[10]} ∪ l_used s) (filter (fun x => x.2.1 <> 10) (l_threads s)).
Definition reuse_new : lstate := started_10 reuse_mid.
Lemma started_10_ok F s : bool_decide (10 ∉ l_alive s) = true ->
  lstep F small_pids true rw_guards s (NewProcess 10) (started_10 s).
Proof. intros H%bool_decide_eq_true. apply S_process; [unfold small_pids; lia|exact H|done]. Qed.
Lemma careful_of F pids guards s ls s' : lsteps F pids false guards s ls s' -> careful F pids guards s ls s'.
Proof.
  induction 1 as [|s l s1 ls s2 H1 H2 IH]; [constructor|]. econstructor; [| |exact IH].
  - destruct H1; by econstructor.
  - intros p -> Hu. inversion H1 as [? ? ? ? Hn| | | | | | | | | | | | | | ]; subst. by destruct (Hn eq_refl).
Qed.
Lemma careful_app F pids guards s ls s1 ls' s2 :
  careful F pids guards s ls s1 -> careful F pids guards s1 ls' s2 -> careful F pids guards s (ls ++ ls') s2.
Proof. induction 1; [done|]. intros. simpl. econstructor; eauto. Qed.
Lemma reuse_before_ok : Forall (fun x => label_ok small_pids rw_guards x.1) reuse_before.
Proof. labels_ok. Qed.
Lemma reuse_after_ok : Forall (fun x => label_ok small_pids rw_guards x.1) reuse_after.
Proof. labels_ok. Qed.
Lemma reuse_mid_quiet : quiet reuse_mid 10.
Proof.
  split.
  - intros [|[|i]]; vm_compute; discriminate.
  - assert (map_to_list (l_threads reuse_mid) =
      [(1%nat, (10, Idle)); (2%nat, (20, Holding (Guard 0 20 0)))]) as E by (vm_compute; reflexivity).
    intros t pid x Hx Ha. apply elem_of_map_to_list in Hx. rewrite E in Hx.
    apply elem_of_cons in Hx as [[= -> -> ->]|Hx]; [by left|].
    apply elem_of_list_singleton in Hx as [= -> -> ->]. right. eexists. split; [reflexivity|]. discriminate.
Qed.
Example C50_case : exists history s,
  careful 20 small_pids rw_guards lstate0 history s /\ holds_for_writing s 3 /\
  running reuse_new 2 (Holding (Guard 0 20 0)).
Proof.
  assert (H1 : activity (exec_labels 20 false reuse_new reuse_after) 3 = 1) by (vm_compute; reflexivity).
  apply activity_spec in H1 as (s & E & H1).
  exists (map fst reuse_before ++ NewProcess 10 :: map fst reuse_after), s.
  split; [|split; [exact H1|]].
  - eapply (careful_app _ _ _ _ _ reuse_mid).
    + apply careful_of. apply (exec_labels_ok _ _ _ _ _ _ _ reuse_before_ok rw_guards_write).
      apply the_lstate_ok. vm_compute. reflexivity.
    + eapply (careful_cons _ _ _ _ _ reuse_new).
      * refine (started_10_ok 20 reuse_mid _). vm_compute. reflexivity.
      * intros p [= <-] _. exact reuse_mid_quiet.
      * apply careful_of. exact (exec_labels_ok _ _ _ _ _ _ _ reuse_after_ok rw_guards_write E).
  - exists 20. split; [vm_compute; reflexivity|]. refine (bool_decide_eq_true_1 _ _). vm_compute. reflexivity.
Qed.

(** A process dies with the lock, and its pid is given to a process that has nothing to do
    with the lock: as long as this process lives nobody gets the lock, in any history. *)
Definition never_script : list (label * Z) :=
  ev (NewProcess 10) ++ ev (NewProcess 20) ++ ev (NewThread 1 10) ++ ev (NewThread 2 20) ++
  ev (Construct 1 WRITE) ++ acts 66 1 ++ ev (Acquired 1 (Guard (-1) 10 0)) ++ ev (Dies 10) ++
  ev (NewProcess 10).
Lemma never_ok : Forall (fun x => label_ok small_pids rw_guards x.1) never_script.
Proof. labels_ok. Qed.
Theorem C50_never_taken_over_refuted :
  exists s, reachable 20 small_pids true rw_guards s /\
    forall history s' t, lsteps 20 small_pids true rw_guards s history s' -> Dies 10 ∉ history ->
      ~ holds_for_writing s' t /\ ~ holds_for_reading s' t.
Proof.
  exists (the_lstate (exec_labels 20 true lstate0 never_script)). split.
  - exists (map fst never_script). apply (exec_labels_ok _ _ _ _ _ _ _ never_ok rw_guards_write).
    apply the_lstate_ok. vm_compute. reflexivity.
  - intros history s' t Hs Hd.
    assert (stays 10 (the_lstate (exec_labels 20 true lstate0 never_script))) as HI.
    { split; [vm_compute; reflexivity|]. split; [refine (bool_decide_eq_true_1 _ _); vm_compute; reflexivity|].
      intros t' pid x Hx _. apply elem_of_map_to_list in Hx.
      assert (map_to_list (l_threads (the_lstate (exec_labels 20 true lstate0 never_script))) =
        [(2%nat, (20, Idle))]) as E by (vm_compute; reflexivity).
      rewrite E in Hx. apply elem_of_list_singleton in Hx as [= -> -> ->]. by left. }
    assert (0 < 10 < 2 ^ 18) as Hp by lia.
    apply (stays_steps 10 Hp _ _ _ _ _ _ _ Hs HI) in Hd as (_ & _ & Hd).
    split.
    + intros (g & (pid & Ht & Ha) & _). destruct (Hd _ _ _ Ht Ha) as [?|(? & ? & _)]; simplify_eq.
    + intros [(g & (pid & Ht & Ha) & _)|(p & pid & Ht & Ha)];
        destruct (Hd _ _ _ Ht Ha) as [?|(? & ? & _)]; simplify_eq.
Qed.

(** ** C59: is_locked() and reader_count() never miss a holder *)
(** An observer calls one of them, in any interleaving with all other steps. *)
Theorem C59_is_locked_sees_writer F s t g b s' :
  reachable F small_pids false rw_guards s ->
  observes F small_pids rw_guards (fun s => running s t (Holding g) /\ g_slot g = -1) s (is_locked true) b s' ->
  b = true.
Proof.
  intros [ls Hs] Ho.
  assert (Hmix : rw_guards PLAIN -> only_plain rw_guards) by (intros H; by destruct H).
  eapply (is_locked_write F rw_guards small_pids (fun p H => H) Hmix _ t g); [|exact Ho|].
  - by intros s0 H.
  - by eapply (LInv_steps F rw_guards small_pids (fun p H => H) Hmix _ _ _ _ Hs), LInv_init.
Qed.
Theorem C59_process_lock_is_locked F s t g b s' :
  reachable F small_pids false plain_guards s ->
  observes F small_pids plain_guards (fun s => running s t (Holding g)) s (is_locked true) b s' ->
  b = true.
Proof.
  intros [ls Hs] Ho.
  assert (Hmix : plain_guards PLAIN -> only_plain plain_guards) by (intros _ b' Hb; done).
  assert (Hop : only_plain plain_guards) by (by apply Hmix).
  destruct (LInv_steps F plain_guards small_pids (fun p H => H) Hmix _ _ _ _ Hs
    (LInv_init F plain_guards small_pids (fun p H => H) Hmix)) as [γ HI].
  assert (HI' : inv_holds plain_guards s) by (by exists γ).
  cbn [is_locked lbind act] in Ho.
  destruct (observes_load F plain_guards small_pids (fun p H => H) Hmix _ _ _ _ _ _ Ho HI') as (s1 & HI1 & Hd & Ho1).
  apply (observes_ret F plain_guards small_pids (fun p H => H) Hmix) in Ho1 as ->.
  apply bool_decide_eq_true. destruct Hd as (pid & Ht & Ha). destruct HI1 as [γ1 HI1].
  eapply (writes_word F plain_guards small_pids (fun p H => H) Hmix s1 t g); [by exists γ1|].
  split; [by exists pid|]. destruct HI1 as (_ & HT & _).
  destruct (HT _ _ _ Ht Ha) as [(_ & _ & Hsl & _) _]. by apply Hsl.
Qed.
(** [ts]: threads that have guards for reading all the time. *)
Theorem C59_is_locked_sees_reader F s t g b s' :
  reachable F small_pids false rw_guards s ->
  running s t (Holding g) /\ g_slot g <> -1 ->
  observes F small_pids rw_guards (fun s => running s t (Holding g) /\ g_slot g <> -1) s (is_locked false) b s' ->
  b = true.
Proof.
  intros [ls Hs] Hr Ho.
  assert (Hmix : rw_guards PLAIN -> only_plain rw_guards) by (intros H; by destruct H).
  eapply (is_locked_read F rw_guards small_pids (fun p H => H) Hmix _ t g); [|exact Ho|exact Hr|].
  - by intros s0 H.
  - by eapply (LInv_steps F rw_guards small_pids (fun p H => H) Hmix _ _ _ _ Hs), LInv_init.
Qed.
Theorem C59_reader_count_sees_readers F s (ts : list (nat * lguard)) n s' :
  let during s := forall t g, (t, g) ∈ ts -> running s t (Holding g) /\ g_slot g <> -1 in
  reachable F small_pids false rw_guards s -> NoDup (map fst ts) -> during s ->
  observes F small_pids rw_guards during s reader_count n s' ->
  Z.of_nat (length ts) <= n.
Proof.
  intros during [ls Hs] Hnd Hr Ho.
  assert (Hmix : rw_guards PLAIN -> only_plain rw_guards) by (intros H; by destruct H).
  eapply (reader_count_sees F rw_guards small_pids (fun p H => H) Hmix during ts); [exact Hnd| |exact Hr|exact Ho|].
  - intros s0 H [t g] Hin. exact (H t g Hin).
  - by eapply (LInv_steps F rw_guards small_pids (fun p H => H) Hmix _ _ _ _ Hs), LInv_init.
Qed.
(** Two readers and a waiting writer, seen by an observer that is not interrupted. *)
Fixpoint alone {A} (m : lmem) (p : lprog A) : option A :=
  match p with LRet a => Some a | LAct (ALoad w) k => alone m (k (m w)) | _ => None end.
Lemma alone_ok {A} F pids guards (during : lstate -> Prop) s (p : lprog A) a :
  during s -> alone (l_mem s) p = Some a -> observes F pids guards during s p a s.
Proof.
  intros Hd. induction p as [x| | |x k IH]; simpl; try done.
  - intros [= ->]. by constructor.
  - destruct x; try done. intros Ha. eapply obs_act; [done|split; reflexivity|].
    destruct s. by apply IH.
Qed.
Definition holds_guard (s : lstate) (t : nat) (slot pid : Z) : bool :=
  match l_threads s !! t with
  | Some (p, Holding (Guard x y z)) =>
      (p =? pid) && (x =? slot) && (y =? pid) && (z =? 0) && bool_decide (p ∈ l_alive s)
  | _ => false
  end.
Lemma holds_guard_ok s t slot pid :
  holds_guard s t slot pid = true -> running s t (Holding (Guard slot pid 0)).
Proof.
  unfold holds_guard. destruct (l_threads s !! t) as [[p []]|] eqn:E; try done. destruct g as [x y z].
  rewrite !andb_true_iff !Z.eqb_eq bool_decide_eq_true.
  intros ((((-> & ->) & ->) & ->) & Ha). exists pid. by split.
Qed.
Definition share_state : lstate := the_lstate (exec_labels 20 false lstate0 share_script).
Example C59_case :
  let ts := [(1%nat, Guard 0 10 0); (2%nat, Guard 1 20 0)] in
  let during s := forall t g, (t, g) ∈ ts -> running s t (Holding g) /\ g_slot g <> -1 in
  reachable 20 small_pids false rw_guards share_state /\ NoDup (map fst ts) /\ during share_state /\
  observes 20 small_pids rw_guards during share_state reader_count 2 share_state /\
  observes 20 small_pids rw_guards during share_state (is_locked false) true share_state.
Proof.
  intros ts during.
  assert (Hd : during share_state).
  { assert (H1 : holds_guard share_state 1 0 10 = true) by (vm_compute; reflexivity).
    assert (H2 : holds_guard share_state 2 1 20 = true) by (vm_compute; reflexivity).
    apply holds_guard_ok in H1, H2. unfold during, ts. clear during ts.
    generalize dependent share_state. intros s H1 H2 t g Hin.
    apply elem_of_cons in Hin as [[= -> ->]|Hin]; [by split|].
    apply elem_of_list_singleton in Hin as [= -> ->]. by split. }
  split; [|split; [|split; [exact Hd|split]]].
  - exists (map fst share_script). apply (exec_labels_ok _ _ _ _ _ _ _ share_ok rw_guards_write).
    apply the_lstate_ok. vm_compute. reflexivity.
  - apply (bool_decide_eq_true_1 _). vm_compute. reflexivity.
  - apply alone_ok; [exact Hd|]. vm_compute. reflexivity.
  - apply alone_ok; [exact Hd|]. vm_compute. reflexivity.
Qed.
