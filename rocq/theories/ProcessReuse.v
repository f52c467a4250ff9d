(** * Process ids that are used again (C50). *)
From Verif Require Export ProcessLockModel ProcessLockProof.
From iris.prelude Require Import prelude options.
From Coq Require Import ZArith Lia.
Open Scope Z_scope.

(** The pid [p] of a dead process can be given out again without harm: no lock word holds
    it, no living thread is inside of a lock function, and none has a guard that was taken
    over from [p]. *)
Definition quiet (s : lstate) (p : Z) : Prop :=
  (forall w, l_mem s w <> p) /\
  (forall t pid x, l_threads s !! t = Some (pid, x) -> pid ∈ l_alive s ->
     x = Idle \/ exists g, x = Holding g /\ g_stolen g <> p).

Section careful.
  Context (F : nat) (pids : Z -> Prop) (guards : behavior -> Prop).
  (** Histories with reuse of pids, but only when the lock is quiet. *)
  Inductive careful : lstate -> list label -> lstate -> Prop :=
    | careful_nil s : careful s [] s
    | careful_cons s l s1 ls s2 :
        lstep F pids true guards s l s1 ->
        (forall p, l = NewProcess p -> p ∈ l_used s -> quiet s p) ->
        careful s1 ls s2 -> careful s (l :: ls) s2.
End careful.

Set Default Proof Using "All".
Section proof.
  Context (F : nat) (guards : behavior -> Prop).
  Context (pids : Z -> Prop) (Hpid : forall p, pids p -> good_pid p)
          (Hmix : guards PLAIN -> only_plain guards).

  (** The state as if [p] had never been used. *)
  Definition forget (s : lstate) (p : Z) : lstate :=
    LState (l_mem s) (l_alive s) (l_used s ∖ {[p]}) (filter (fun x => x.2.1 <> p) (l_threads s)).
  Definition gforget (γ : nat -> lg) (p : Z) (t : nat) : lg :=
    LG (own_w (γ t)) (own_r (γ t)) (drained (γ t)) (stl (γ t)) (acq (γ t))
       (known (γ t) ∖ {[p]}) (dead (γ t) ∖ {[p]}).

  Lemma LInv_forget s γ p :
    LInv guards s γ false -> quiet s p -> p ∉ l_alive s -> LInv guards (forget s p) (gforget γ p) false.
  Proof.
    intros (H1 & H2 & H3) [Qm Qt] Ha.
    assert (HL : forall t q, live (forget s p) t q -> live s t q).
    { intros t q [Hq [x Hx]]. simpl in *. apply map_filter_lookup_Some in Hx as [Hx _]. split; eauto. }
    split; [|split]; simpl.
    - destruct H1 as [A1 A2 A3 A4 A5 A6 A7 A8 A9 A10 A11 A12 A13]. split; simpl; try done.
      + intros t q H. by apply HL in H as [? _].
      + set_solver.
      + set_solver.
      + intros w. destruct (A4 w) as [?|?]; [by left|right]. specialize (Qm w). set_solver.
      + intros t q H. eauto.
      + intros t q t' q' X Y. eauto.
      + intros t q i X. eauto.
      + intros t q t' q' i X Y. eauto.
      + intros t q X. pose proof (A9 _ _ (HL _ _ X)). set_solver.
      + intros t q X. destruct (A10 _ _ (HL _ _ X)). set_solver.
      + intros t q i X. eauto.
      + intros Hp t q X. eauto.
    - intros t q x Hx Hq. apply map_filter_lookup_Some in Hx as [Hx _].
      pose proof (H2 _ _ _ Hx Hq) as Hok.
      destruct (Qt _ _ _ Hx Hq) as [->|(g & -> & Hg)]; [exact Hok|].
      destruct Hok as [(G1 & G2 & G2' & G3) G4]. split; [|exact G4].
      split; [exact G1|]. split; [|split; [exact G2'|exact G3]].
      intros Hn. specialize (G2 Hn). simpl. set_solver.
    - intros t q x Hx. apply map_filter_lookup_Some in Hx as [Hx Hn]. simpl in Hn.
      specialize (H3 _ _ _ Hx). set_solver.
  Qed.

  Lemma LInv_careful s ls s' γ :
    careful F pids guards s ls s' -> LInv guards s γ false -> exists γ', LInv guards s' γ' false.
  Proof.
    intros H. revert γ. induction H as [s|s l s1 ls s2 H1 Hq H2 IH]; intros γ HI; [eauto|].
    assert (exists γ', LInv guards s1 γ' false) as [γ' HI']; [|by eapply IH].
    assert ((exists p, l = NewProcess p /\ p ∈ l_used s) \/ ~ (exists p, l = NewProcess p /\ p ∈ l_used s)) as [(p & -> & Hu)|Hn].
    { destruct l as [q|?|?|?|?|?|?|?|?|?|?]; try (right; by intros (? & ? & _)).
      destruct (decide (q ∈ l_used s)); [left; eauto|right]. by intros (? & [= <-] & ?). }
    - specialize (Hq p eq_refl Hu). inversion H1 as [? ? Hp Hna _| | | | | | | | | | | | | | ]; subst.
      assert (lstep F pids false guards (forget s p) (NewProcess p)
        (LState (l_mem s) ({[p]} ∪ l_alive s) ({[p]} ∪ l_used s) (filter (fun x => x.2.1 <> p) (l_threads s)))) as Hst.
      { replace ({[p]} ∪ l_used s) with ({[p]} ∪ l_used s ∖ {[p]}).
        2:{ apply leibniz_equiv. intros q. destruct (decide (q = p)); set_solver. }
        replace (filter (fun x => x.2.1 <> p) (l_threads s))
          with (filter (fun x : nat * (Z * tstate) => x.2.1 <> p) (l_threads (forget s p))).
        2:{ simpl. apply map_eq. intros t. apply option_eq. intros x. rewrite !map_filter_lookup_Some. naive_solver. }
        apply (S_process F pids false guards (forget s p) p Hp); simpl; [done|set_solver]. }
      destruct (LInv_step F guards pids Hpid Hmix _ _ _ _ _ Hst (LInv_forget _ _ _ HI Hq Hna)) as [[γ' HI'] _].
      exists γ'. exact HI'.
    - assert (lstep F pids false guards s l s1) as Hst.
      { destruct H1; try (by econstructor). apply S_process; [done|done|]. intros _ Hu. apply Hn. eauto. }
      destruct (LInv_step F guards pids Hpid Hmix _ _ _ _ _ Hst HI) as [[γ' HI'] _].
      exists γ'. by destruct l.
  Qed.
End proof.

(** ** A pid that is used again while the lock word holds it *)
Section never.
  Context (p : Z) (Hp : 0 < p < 2 ^ 18).

  (** Programs that never end while the write word is [p] and the process [p] is running. *)
  Fixpoint blocked {A} (x : lprog A) : Prop :=
    match x with
    | LRet _ | LThrow => False
    | LStuck => True
    | LAct a k => forall alive m r m', p ∈ alive -> m WriteWord = p -> lexec alive m a r m' ->
        m' WriteWord = p /\ blocked (k r)
    end.
  Lemma blocked_bind {A B} (x : lprog A) (k : A -> lprog B) : blocked x -> blocked (lbind x k).
  Proof.
    induction x as [a| | |a c IH]; simpl; try done.
    intros H alive m r m' H1 H2 H3. destruct (H _ _ _ _ H1 H2 H3). eauto.
  Qed.
  Lemma blocked_spin {A} n des last (k : option Z -> lprog A) :
    blocked (k (Some p)) -> (n = O -> last = p) -> blocked (lbind (spin n WriteWord des last) k).
  Proof.
    revert last. induction n as [|n IH]; intros last Hk Hl; [by rewrite (Hl eq_refl)|].
    cbn [spin lbind act blocked]. intros alive m r m' _ Hm [(E & _)|[-> ->]]; [lia|].
    split; [done|]. rewrite bool_decide_eq_false_2; [|lia]. apply IH; [done|]. by intros _.
  Qed.
  Lemma blocked_acquire F des : blocked (acquire_process_lock F WriteWord des).
  Proof.
    induction F as [|F IH]; [done|]. cbn [acquire_process_lock].
    apply blocked_spin; [|done]. cbn [lbind act blocked].
    intros alive m r m' _ Hm [_ ->]. split; [done|].
    case_bool_decide; [apply IH|]. cbn [lbind act blocked].
    intros alive' m2 r2 m2' Ha Hm2 (_ & Hr & ->). split; [done|].
    rewrite pid_for_token_id in Hr; [|lia]. rewrite decide_True in Hr; [|done].
    rewrite (bool_decide_eq_false_2 (r2 = 0)); [apply IH|]. rewrite Hr; lia.
  Qed.
  Lemma blocked_construct F pid b : blocked (construct F pid b).
  Proof.
    destruct b; cbn [construct]; try (apply blocked_bind, blocked_acquire);
      destruct F; cbn [read_loop]; try done; apply blocked_bind, blocked_acquire.
  Qed.

  Definition stays (s : lstate) : Prop :=
    l_mem s WriteWord = p /\ p ∈ l_alive s /\
    forall t pid x, l_threads s !! t = Some (pid, x) -> pid ∈ l_alive s ->
      x = Idle \/ exists y, x = Constructing y /\ blocked y.
  Lemma stays_steps F pids reuse guards s ls s' :
    lsteps F pids reuse guards s ls s' -> stays s -> Dies p ∉ ls -> stays s'.
  Proof.
    intros H. induction H as [|s l s1 ls s2 H1 H2 IH]; [done|].
    intros HI Hd. apply not_elem_of_cons in Hd as [Hd1 Hd2]. apply IH; [|done]. clear IH H2 Hd2.
    destruct HI as (I1 & I2 & I3).
    assert (Hset : forall t pid x y m, l_threads s !! t = Some (pid, y) \/ l_threads s !! t = None ->
      m WriteWord = p -> (x = Idle \/ exists z, x = Constructing z /\ blocked z) ->
      stays (LState m (l_alive s) (l_used s) (<[t := (pid, x)]> (l_threads s)))).
    { intros t pid x y m _ Hm Hx. split; [done|]. split; [done|]. intros t' pid' x'. simpl.
      destruct (decide (t' = t)) as [->|Hn]; [rewrite lookup_insert; by intros [= <- <-]|].
      rewrite lookup_insert_ne; [|done]. apply I3. }
    destruct H1 as [s pid Hq Hna Hnu|s t pid Hal Hno|s pid Hal|s t pid b Ht Hal Hb
      |s t pid g Ht Hal|s t pid g Ht Hal Hs Hrw|s t pid g Ht Hal|s t pid g Ht Hal|s t pid Ht Hal
      |s t pid a k r m' Ht Hal He|s t pid a k r m' Ht Hal He|s t pid a k r m' Ht Hal He
      |s t pid Ht Hal|s t pid Ht Hal|s t pid Ht Hal];
      try (destruct (I3 _ _ _ Ht Hal) as [?|(? & ? & HB)]; simplify_eq; try done).
    - split; [done|]. split; [simpl; set_solver|]. intros t q x. simpl. intros Hx Hq'.
      apply map_filter_lookup_Some in Hx as [Hx Hn]. simpl in Hn. eapply I3; [done|set_solver].
    - eapply (Hset t pid Idle Idle); [by right|done|by left].
    - assert (pid <> p) by congruence. split; [done|]. split; [simpl; set_solver|].
      intros t q x Hx Hq. eapply I3; [done|]. simpl in Hq. set_solver.
    - eapply (Hset t pid _ Idle); [by left|done|right]. eexists. split; [done|]. apply blocked_construct.
    - destruct (HB _ _ _ _ I2 I1 He) as [Hm Hk]. eapply (Hset t pid _ (Constructing (LAct a k)) m'); [by left|done|eauto].
  Qed.
End never.
