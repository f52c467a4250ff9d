(** * The invariant of the lock protocol.

    Each live thread has a ghost state [lg] that records which lock words it
    owns; [IC] relates the ghost states to the lock words, [lwp] is a
    thread-modular weakest precondition for lock functions. *)
From Verif Require Export ProcessLockModel.
From iris.prelude Require Import prelude options.
From Coq Require Import ZArith Lia.
Open Scope Z_scope.

Record lg := LG {
  own_w : bool;          (* it owns the write word *)
  own_r : option nat;    (* it owns this reader slot *)
  drained : nat;         (* no other live thread is in the slots below *)
  stl : Z;               (* the token stolen with the write word *)
  acq : bool;            (* it has a guard *)
  known : gset Z;        (* pids it has seen in the lock *)
  dead : gset Z          (* pids it has seen to be dead *)
}.

Definition owns (l : lg) (w : lword) : Prop :=
  match w with WriteWord => own_w l = true | ReaderWord i => own_r l = Some i end.

Definition good_pid (p : Z) : Prop := 0 < p < 2 ^ 18.

Lemma pid_for_token_id p : 0 <= p < 2 ^ 18 -> pid_for_token p = p.
Proof.
  intros H. unfold pid_for_token, PID_BITS.
  replace (Z.shiftl 1 18 - 1) with (Z.ones 18) by done.
  rewrite Z.land_ones; [|lia]. by apply Z.mod_small.
Qed.

Section proof.
  Context (F : nat) (allowed : behavior -> Prop).

  Definition only_plain : Prop := forall b, allowed b -> b = PLAIN.

  Record IC (L : nat -> Z -> Prop) (alive used : gset Z) (m : lmem) (γ : nat -> lg)
            (pend : bool) : Prop := {
    ic_alive : forall t p, L t p -> p ∈ alive;
    ic_used : alive ⊆ used;
    ic_pid : forall p, p ∈ used -> good_pid p;
    ic_mem : forall w, m w = 0 \/ m w ∈ used;
    ic_w : forall t p, L t p -> own_w (γ t) = true -> m WriteWord = p;
    ic_w1 : forall t p t' p', L t p -> L t' p' ->
        own_w (γ t) = true -> own_w (γ t') = true -> t = t';
    ic_r : forall t p i, L t p -> own_r (γ t) = Some i ->
        m (ReaderWord i) = p /\ (i < num_slots)%nat;
    ic_r1 : forall t p t' p' i, L t p -> L t' p' ->
        own_r (γ t) = Some i -> own_r (γ t') = Some i -> t = t';
    ic_known : forall t p, L t p -> known (γ t) ⊆ used;
    ic_dead : forall t p, L t p -> dead (γ t) ⊆ used /\ dead (γ t) ## alive;
    ic_drain : forall t p i, L t p -> own_w (γ t) = true -> (i < drained (γ t))%nat ->
        m (ReaderWord i) = 0 \/ own_r (γ t) = Some i;
    ic_pend : pend = true ->
        ~ allowed READ /\ m WriteWord <> 0 /\
        (forall t p, L t p -> own_r (γ t) = None /\
           (own_w (γ t) = true -> stl (γ t) <> 0 /\ acq (γ t) = false));
    ic_plain : only_plain -> forall t p, L t p -> own_r (γ t) = None
  }.

  Definition gupd (γ : nat -> lg) (t : nat) (l : lg) : nat -> lg :=
    fun t' => if decide (t' = t) then l else γ t'.
  Lemma gupd_same γ t l : gupd γ t l t = l.
  Proof. unfold gupd. by case_decide. Qed.
  Lemma gupd_other γ t l t' : t' <> t -> gupd γ t l t' = γ t'.
  Proof. intros. unfold gupd. by case_decide. Qed.
  Lemma upd_same m w v : upd m w v w = v.
  Proof. unfold upd. by case_decide. Qed.
  Lemma upd_other m w v w' : w' <> w -> upd m w v w' = m w'.
  Proof. intros. unfold upd. by case_decide. Qed.

  (** [lwp I t pid p l Q]: run by thread [t] of process [pid] with ghost state
      [l], among any other threads, [p] keeps the invariant, only changes words
      that are free, its own, or a dead process's, has [I] at every point and
      [Q] at the end. *)
  Fixpoint lwp {A} (I : lg -> Prop) (t : nat) (pid : Z) (p : lprog A) (l : lg)
      (Q : A -> lg -> Prop) : Prop :=
    I l /\
    match p with
    | LRet a => Q a l
    | LThrow => False
    | LStuck => True
    | LAct a k =>
        forall L alive used m γ pend r m',
          IC L alive used m γ pend -> L t pid -> γ t = l ->
          (forall t' p p', L t' p -> L t' p' -> p = p') ->
          lexec alive m a r m' ->
          (forall w, m' w <> m w -> m w = 0 \/ m w ∉ alive \/ owns l w) /\
          exists l', IC L alive used m' (gupd γ t l') pend /\ lwp I t pid (k r) l' Q
    end.

  Lemma lwp_inv {A} (I : lg -> Prop) t pid (p : lprog A) l Q : lwp I t pid p l Q -> I l.
  Proof. destruct p; simpl; tauto. Qed.

  Lemma lwp_bind {A B} I t pid (p : lprog A) (k : A -> lprog B) l Q :
    lwp I t pid p l (fun a l' => lwp I t pid (k a) l' Q) -> lwp I t pid (lbind p k) l Q.
  Proof.
    revert l; induction p as [a| | |a c IH]; intros l; simpl.
    - by intros [_ H].
    - tauto.
    - tauto.
    - intros [Hl H]. split; [done|].
      intros L alive used m γ pend r m' H1 H2 H3 H4 H5.
      destruct (H _ _ _ _ _ _ _ _ H1 H2 H3 H4 H5) as (Hw & l' & HI & Hk).
      split; [done|]. exists l'. split; [done|]. by apply IH.
  Qed.

  Lemma lwp_mono {A} (I : lg -> Prop) t pid (p : lprog A) l (Q Q' : A -> lg -> Prop) :
    (forall a l', I l' -> Q a l' -> Q' a l') ->
    lwp I t pid p l Q -> lwp I t pid p l Q'.
  Proof.
    intros HQ. revert l; induction p as [a| | |a c IH]; intros l; simpl; try tauto.
    - intros [? ?]. auto.
    - intros [Hl H]. split; [done|].
      intros L alive used m γ pend r m' H1 H2 H3 H4 H5.
      destruct (H _ _ _ _ _ _ _ _ H1 H2 H3 H4 H5) as (Hw & l' & HI & Hk).
      split; [done|]. exists l'. split; [done|]. by apply IH.
  Qed.

  (** Changing only what a thread knows. *)
  Definition lsame (l l' : lg) : Prop :=
    own_w l' = own_w l /\ own_r l' = own_r l /\ drained l' = drained l /\
    stl l' = stl l /\ acq l' = acq l /\ known l ⊆ known l' /\ dead l ⊆ dead l'.
  Lemma lsame_refl l : lsame l l.
  Proof. unfold lsame. repeat split; done. Qed.
  Lemma lsame_trans l1 l2 l3 : lsame l1 l2 -> lsame l2 l3 -> lsame l1 l3.
  Proof.
    intros (?&?&?&?&?&?&?) (?&?&?&?&?&?&?). unfold lsame.
    repeat split; try congruence; by etrans.
  Qed.

  Definition with_known (l : lg) (v : Z) : lg :=
    LG (own_w l) (own_r l) (drained l) (stl l) (acq l)
       (if decide (v = 0) then known l else {[v]} ∪ known l) (dead l).
  Definition with_dead (l : lg) (v : Z) : lg :=
    LG (own_w l) (own_r l) (drained l) (stl l) (acq l) (known l) ({[v]} ∪ dead l).
  Definition with_drained (l : lg) (n : nat) : lg :=
    LG (own_w l) (own_r l) n (stl l) (acq l) (known l) (dead l).
  Definition with_w (l : lg) (b : bool) (st : Z) : lg :=
    LG b (own_r l) 0 st false (known l) (dead l).
  Definition with_r (l : lg) (o : option nat) : lg :=
    LG (own_w l) o (drained l) (stl l) (acq l) (known l) (dead l).
  Definition with_acq (l : lg) (b : bool) : lg :=
    LG (own_w l) (own_r l) (drained l) (stl l) b (known l) (dead l).

  (** A generic way to re-establish [IC] when the words do not change. *)
  Lemma IC_same L alive used m γ pend t pid l' :
    IC L alive used m γ pend -> L t pid ->
    own_w l' = own_w (γ t) -> own_r l' = own_r (γ t) -> stl l' = stl (γ t) ->
    acq l' = acq (γ t) -> known l' ⊆ used -> dead l' ⊆ used -> dead l' ## alive ->
    (own_w (γ t) = true ->
      forall i, (i < drained l')%nat -> m (ReaderWord i) = 0 \/ own_r (γ t) = Some i) ->
    IC L alive used m (gupd γ t l') pend.
  Proof.
    intros H Ht Ew Er Es Ea Hk Hd1 Hd2 Hdr. destruct H.
    assert (Gw : forall t', own_w (gupd γ t l' t') = own_w (γ t')).
    { intros t'. unfold gupd. case_decide; subst; congruence. }
    assert (Gr : forall t', own_r (gupd γ t l' t') = own_r (γ t')).
    { intros t'. unfold gupd. case_decide; subst; congruence. }
    assert (Gs : forall t', stl (gupd γ t l' t') = stl (γ t')).
    { intros t'. unfold gupd. case_decide; subst; congruence. }
    assert (Ga : forall t', acq (gupd γ t l' t') = acq (γ t')).
    { intros t'. unfold gupd. case_decide; subst; congruence. }
    split; try done.
    - intros t' p. rewrite Gw. eauto.
    - intros t1 p1 t2 p2. rewrite !Gw. eauto.
    - intros t1 p1 i. rewrite Gr. eauto.
    - intros t1 p1 t2 p2 i. rewrite !Gr. eauto.
    - intros t1 p1. unfold gupd. case_decide; [done|eauto].
    - intros t1 p1. unfold gupd. case_decide; [done|eauto].
    - intros t1 p1 i H1. rewrite Gw Gr.
      destruct (decide (t1 = t)) as [->|Hn].
      + intros Hw Hi. rewrite gupd_same in Hi. eauto.
      + rewrite gupd_other; [|done]. eauto.
    - intros Hp. destruct (ic_pend0 Hp) as (A1 & A2 & A3). split; [done|]. split; [done|].
      intros t1 p1 H1. rewrite Gw Gr Gs Ga. eauto.
    - intros Hp t1 p1. rewrite Gr. eauto.
  Qed.

  Ltac step_start :=
    split; [assumption|];
    let L := fresh "L" in let m := fresh "m" in
    intros L alive used m γ pend r m' HI HL Hγ HF.

  (** A load of a word. *)
  Lemma lwp_load {A} (I : lg -> Prop) t pid w (k : Z -> lprog A) l Q :
    I l ->
    (forall r, lwp I t pid (k r) (with_known l r) Q) ->
    lwp I t pid (LAct (ALoad w) k) l Q.
  Proof.
    intros Hl Hk. step_start. intros [-> ->]. split; [done|].
    exists (with_known l (m w)). split; [|done]. subst l.
    apply (IC_same _ _ _ _ _ _ t pid); simpl; try done; destruct HI.
    - case_decide; [eauto|]. destruct (ic_mem0 w) as [?|Hu]; [done|].
      pose proof (ic_known0 _ _ HL). set_solver.
    - by apply (ic_dead0 _ _ HL).
    - by apply (ic_dead0 _ _ HL).
    - intros Hw i Hi. by eapply (ic_drain0 t pid).
  Qed.

  (** A load of reader slot [x] by the drainer. *)
  Lemma lwp_load_drain {A} (I : lg -> Prop) t pid x (k : Z -> lprog A) l Q :
    I l -> drained l = x -> own_w l = true ->
    (forall r, r <> 0 -> lwp I t pid (k r) (with_known l r) Q) ->
    lwp I t pid (k 0) (with_drained l (S x)) Q ->
    lwp I t pid (LAct (ALoad (ReaderWord x)) k) l Q.
  Proof.
    intros Hl Hx Hw Hk Hk0. step_start. intros [-> ->]. split; [done|].
    destruct (decide (m (ReaderWord x) = 0)) as [E|E].
    - rewrite E. exists (with_drained l (S x)). split; [|done]. subst l.
      apply (IC_same _ _ _ _ _ _ t pid); simpl; try done; destruct HI.
      + eauto.
      + by apply (ic_dead0 _ _ HL).
      + by apply (ic_dead0 _ _ HL).
      + intros Hw0 i Hi. destruct (decide (i = x)) as [->|Hn]; [by left|].
        eapply (ic_drain0 t pid); eauto. lia.
    - exists (with_known l (m (ReaderWord x))). split; [|by apply Hk]. subst l.
      apply (IC_same _ _ _ _ _ _ t pid); simpl; try done; destruct HI.
      + case_decide; [eauto|]. destruct (ic_mem0 (ReaderWord x)) as [?|Hu]; [done|].
        pose proof (ic_known0 _ _ HL). set_solver.
      + by apply (ic_dead0 _ _ HL).
      + by apply (ic_dead0 _ _ HL).
      + intros Hw0 i Hi. by eapply (ic_drain0 t pid).
  Qed.

  (** futex calls *)
  Lemma lwp_nop {A} (I : lg -> Prop) t pid a (k : Z -> lprog A) l Q :
    I l -> (forall alive m r m', lexec alive m a r m' -> m' = m) ->
    (forall r, lwp I t pid (k r) l Q) ->
    lwp I t pid (LAct a k) l Q.
  Proof.
    intros Hl Ha Hk. step_start. intros ->%Ha. split; [done|]. exists l. split; [|done].
    subst l.
    apply (IC_same _ _ _ _ _ _ t pid); simpl; try done; destruct HI.
    - eauto.
    - by apply (ic_dead0 _ _ HL).
    - by apply (ic_dead0 _ _ HL).
    - intros Hw0 i Hi. by eapply (ic_drain0 t pid).
  Qed.

  (** The check for a running process. *)
  Lemma lwp_running {A} (I : lg -> Prop) t pid e (k : Z -> lprog A) l Q :
    I l -> e = 0 \/ e ∈ known l ->
    lwp I t pid (k 1) l Q ->
    (e = 0 -> lwp I t pid (k 0) l Q) ->
    (e <> 0 -> lwp I t pid (k 0) (with_dead l e) Q) ->
    lwp I t pid (LAct (ARunning (pid_for_token e)) k) l Q.
  Proof.
    intros Hl He H1 H00 H0. step_start. intros (Hr & Hp & ->). split; [done|].
    assert (Hsame : forall l', own_w l' = own_w l -> own_r l' = own_r l -> stl l' = stl l ->
      acq l' = acq l -> known l' = known l -> drained l' = drained l ->
      dead l' ⊆ used -> dead l' ## alive -> IC L alive used m (gupd γ t l') pend).
    { intros l' E1 E2 E3 E4 E5 E6 D1 D2. subst l.
      apply (IC_same _ _ _ _ _ _ t pid); try done; destruct HI.
      - rewrite E5. eauto.
      - intros Hw i Hi. rewrite E6 in Hi. by eapply (ic_drain0 t pid). }
    pose proof (ic_dead _ _ _ _ _ _ HI _ _ HL) as Hd. rewrite Hγ in Hd.
    destruct Hr as [-> | ->].
    - destruct (decide (e = 0)) as [->|Hn].
      + exists l. split; [|auto]. apply Hsame; try done; apply Hd.
      + destruct He as [?|He]; [done|].
        pose proof (ic_known _ _ _ _ _ _ HI _ _ HL) as Hkn. rewrite Hγ in Hkn.
        pose proof (ic_pid _ _ _ _ _ _ HI e (Hkn _ He)) as [G1 G2].
        rewrite pid_for_token_id in Hp; [|lia]. specialize (Hp Hn).
        case_decide as Ha; [done|].
        exists (with_dead l e). split; [|auto].
        apply Hsame; simpl; try done; set_solver.
    - exists l. split; [|auto]. apply Hsame; try done; apply Hd.
  Qed.

  (** What must be known to give up or share the write word. *)
  Definition may_release (l : lg) : Prop := stl l = 0 \/ acq l = true \/ allowed READ.
  Lemma may_release_pend L alive used m γ pend t p :
    IC L alive used m γ pend -> L t p -> own_w (γ t) = true -> may_release (γ t) ->
    pend = false.
  Proof.
    intros HI HL Hw Hm. destruct pend; [|done]. exfalso.
    destruct (ic_pend _ _ _ _ _ _ HI eq_refl) as (H1 & H2 & H3).
    destruct (H3 _ _ HL) as [_ H4]. destruct (H4 Hw) as [H5 H6].
    destruct Hm as [?|[?|?]]; congruence.
  Qed.

  (** Taking the write word when it has the value [e], which is 0 or the token
      of a dead process. *)
  Lemma IC_take_w L alive used m γ pend t pid e l :
    IC L alive used m γ pend -> L t pid -> γ t = l ->
    (forall t' p p', L t' p -> L t' p' -> p = p') ->
    m WriteWord = e -> own_r l = None -> e = 0 \/ e ∈ dead l ->
    (e = 0 -> pend = false) ->
    IC L alive used (upd m WriteWord pid) (gupd γ t (with_w l true e)) pend /\
    (e = 0 \/ e ∉ alive).
  Proof.
    intros HI HL Hγ HF Hm Hr He Hpe. destruct HI.
    assert (Hno : forall t' p', L t' p' -> own_w (γ t') = true -> False).
    { intros t' p' HL' Hw. pose proof (ic_w0 _ _ HL' Hw) as E. rewrite Hm in E. subst e.
      pose proof (ic_pid0 p' (ic_used0 _ (ic_alive0 _ _ HL'))) as [? _].
      destruct He as [?|He]; [lia|]. destruct (ic_dead0 _ _ HL) as [_ Hd].
      rewrite Hγ in Hd. pose proof (ic_alive0 _ _ HL'). set_solver. }
    split; [|destruct He as [?|He]; [by left|]; right;
             destruct (ic_dead0 _ _ HL) as [_ Hd]; rewrite Hγ in Hd; set_solver].
    assert (Gr : forall t', own_r (gupd γ t (with_w l true e) t') = own_r (γ t')).
    { intros t'. unfold gupd. case_decide; [|done]. subst t'. simpl. by rewrite Hγ. }
    split; try done.
    - intros w. destruct (decide (w = WriteWord)) as [->|Hn].
      + rewrite upd_same. right. eauto.
      + rewrite upd_other; eauto.
    - intros t' p HL' Hw. rewrite upd_same. destruct (decide (t' = t)) as [->|Hn]; [eauto|].
      rewrite gupd_other in Hw; [|done]. exfalso; eauto.
    - intros t1 p1 t2 p2 H1 H2 W1 W2.
      destruct (decide (t1 = t)) as [->|Hn1].
      + destruct (decide (t2 = t)) as [->|Hn2]; [done|].
        rewrite gupd_other in W2; [|done]. exfalso; eauto.
      + rewrite gupd_other in W1; [|done]. exfalso; eauto.
    - intros t1 p1 i H1. rewrite Gr. rewrite upd_other; [|done]. eauto.
    - intros t1 p1 t2 p2 i. rewrite !Gr. eauto.
    - intros t1 p1 H1. unfold gupd. case_decide; [|eauto]. subst. simpl.
      by apply (ic_known0 _ _ HL).
    - intros t1 p1 H1. unfold gupd. case_decide; [|eauto]. subst. simpl.
      by apply (ic_dead0 _ _ HL).
    - intros t1 p1 i H1 W1 Hi. destruct (decide (t1 = t)) as [->|Hn1].
      + rewrite gupd_same in Hi. simpl in Hi. lia.
      + rewrite gupd_other in W1; [|done]. exfalso; eauto.
    - intros Hp. destruct (ic_pend0 Hp) as (P1 & P2 & P3). split; [done|].
      split; [rewrite upd_same; pose proof (ic_pid0 pid (ic_used0 _ (ic_alive0 _ _ HL))) as [? _]; lia|].
      intros t1 p1 H1. rewrite Gr. split; [by eapply P3|].
      destruct (decide (t1 = t)) as [->|Hn1].
      + rewrite gupd_same. simpl. intros _. split; [|done]. intros ->. specialize (Hpe eq_refl). congruence.
      + rewrite gupd_other; [|done]. by eapply P3.
    - intros Hp t1 p1. rewrite Gr. eauto.
  Qed.

  Lemma lwp_casweak_w {A} (I : lg -> Prop) t pid (k : Z -> lprog A) l Q :
    I l -> own_r l = None ->
    lwp I t pid (k (-1)) (with_w l true 0) Q ->
    (forall r, r <> -1 -> lwp I t pid (k r) (with_known l r) Q) ->
    lwp I t pid (LAct (ACasWeak WriteWord 0 pid) k) l Q.
  Proof.
    intros Hl Hr Hs Hf. step_start. intros [(Hm & -> & ->)|(-> & ->)].
    - destruct (IC_take_w _ _ _ _ _ _ t pid 0 l HI HL Hγ HF Hm Hr) as [HI' _]; [by left| |].
      { intros _. destruct pend; [|done]. by destruct (ic_pend _ _ _ _ _ _ HI eq_refl) as (_ & ? & _). }
      split; [|exists (with_w l true 0); split; done].
      intros w Hw. left. destruct (decide (w = WriteWord)) as [->|Hn]; [done|].
      rewrite upd_other in Hw; done.
    - split; [done|]. exists (with_known l (m WriteWord)).
      assert (Hne : m WriteWord <> -1).
      { destruct (ic_mem _ _ _ _ _ _ HI WriteWord) as [?|Hu]; [lia|].
        pose proof (ic_pid _ _ _ _ _ _ HI _ Hu) as [? _]. lia. }
      split; [|by apply Hf]. subst l.
      apply (IC_same _ _ _ _ _ _ t pid); simpl; try done; destruct HI.
      + case_decide; [eauto|]. destruct (ic_mem0 WriteWord) as [?|Hu]; [done|].
        pose proof (ic_known0 _ _ HL). set_solver.
      + by apply (ic_dead0 _ _ HL).
      + by apply (ic_dead0 _ _ HL).
      + intros Hw0 i Hi. by eapply (ic_drain0 t pid).
  Qed.

  Lemma lwp_steal_w {A} (I : lg -> Prop) t pid e (k : Z -> lprog A) l Q :
    I l -> own_r l = None -> e = 0 \/ e ∈ dead l ->
    lwp I t pid (k e) (with_w l true e) Q ->
    (forall r, r <> e -> lwp I t pid (k r) l Q) ->
    lwp I t pid (LAct (ACas WriteWord e pid) k) l Q.
  Proof.
    intros Hl Hr He Hs Hf. step_start. intros (-> & ->). case_decide as Hm.
    - destruct (IC_take_w _ _ _ _ _ _ t pid e l HI HL Hγ HF Hm Hr He) as [HI' Hal].
      { intros ->. destruct pend; [|done]. by destruct (ic_pend _ _ _ _ _ _ HI eq_refl) as (_ & ? & _). }
      rewrite Hm. split; [|exists (with_w l true e); split; done].
      intros w Hw. destruct (decide (w = WriteWord)) as [->|Hn].
      + rewrite Hm. destruct Hal; auto.
      + rewrite upd_other in Hw; done.
    - split; [done|]. exists l. split; [|by apply Hf]. subst l.
      apply (IC_same _ _ _ _ _ _ t pid); simpl; try done; destruct HI.
      + eauto.
      + by apply (ic_dead0 _ _ HL).
      + by apply (ic_dead0 _ _ HL).
      + intros Hw0 i Hi. by eapply (ic_drain0 t pid).
  Qed.

  (** Clearing the slot of a dead reader. *)
  Lemma lwp_clear_r {A} (I : lg -> Prop) t pid x e (k : Z -> lprog A) l Q (d : bool) :
    I l -> e ∈ dead l -> (d = true -> own_w l = true /\ drained l = x) ->
    lwp I t pid (k e) (if d then with_drained l (S x) else l) Q ->
    (forall r, r <> e -> lwp I t pid (k r) l Q) ->
    lwp I t pid (LAct (ACas (ReaderWord x) e 0) k) l Q.
  Proof.
    intros Hl He Hd Hs Hf. step_start. intros (-> & ->). case_decide as Hm.
    - assert (Hdead : e ∉ alive).
      { destruct (ic_dead _ _ _ _ _ _ HI _ _ HL) as [_ Hdd]. rewrite Hγ in Hdd. set_solver. }
      rewrite Hm. split.
      { intros w Hw. destruct (decide (w = ReaderWord x)) as [->|Hn].
        - rewrite Hm. auto.
        - rewrite upd_other in Hw; done. }
      assert (Hno : forall t' p', L t' p' -> own_r (γ t') <> Some x).
      { intros t' p' HL' Hr. destruct (ic_r _ _ _ _ _ _ HI _ _ _ HL' Hr) as [E _].
        pose proof (ic_alive _ _ _ _ _ _ HI _ _ HL'). congruence. }
      set (l' := if d then with_drained l (S x) else l) in *.
      exists l'. split; [|done].
      assert (HI1 : IC L alive used (upd m (ReaderWord x) 0) γ pend).
      { destruct HI. split; try done.
        - intros w. destruct (decide (w = ReaderWord x)) as [->|Hn].
          + rewrite upd_same. by left.
          + rewrite upd_other; eauto.
        - intros t1 p1 i H1 H2. destruct (decide (i = x)) as [->|Hn]; [exfalso; by eapply Hno|].
          rewrite upd_other; [eauto|congruence].
        - intros t1 p1 i H1 W1 Hi. destruct (decide (i = x)) as [->|Hn].
          + rewrite upd_same. by left.
          + rewrite upd_other; [eauto|congruence]. }
      { apply (IC_same _ _ _ _ _ _ t pid); try done; unfold l'; destruct HI1.
        - rewrite Hγ. by destruct d.
        - rewrite Hγ. by destruct d.
        - rewrite Hγ. by destruct d.
        - rewrite Hγ. by destruct d.
        - pose proof (ic_known0 _ _ HL) as X. rewrite Hγ in X. by destruct d.
        - pose proof (ic_dead0 _ _ HL) as [X _]. rewrite Hγ in X. by destruct d.
        - pose proof (ic_dead0 _ _ HL) as [_ X]. rewrite Hγ in X. by destruct d.
        - intros Hw i Hi. destruct (decide (i = x)) as [->|Hn]; [left; by rewrite upd_same|].
          eapply (ic_drain0 t pid); eauto. rewrite Hγ.
          destruct d; [|done]. destruct (Hd eq_refl) as [_ ?]. simpl in Hi. lia. }
    - split; [done|]. exists l. split; [|by apply Hf]. subst l.
      apply (IC_same _ _ _ _ _ _ t pid); simpl; try done; destruct HI.
      + eauto.
      + by apply (ic_dead0 _ _ HL).
      + by apply (ic_dead0 _ _ HL).
      + intros Hw0 i Hi. by eapply (ic_drain0 t pid).
  Qed.

  (** Taking a free reader slot. *)
  Lemma lwp_take_r {A} (I : lg -> Prop) t pid x (k : Z -> lprog A) l Q :
    I l -> own_w l = true -> own_r l = None -> (x < num_slots)%nat -> may_release l ->
    ~ only_plain ->
    lwp I t pid (k 0) (with_r l (Some x)) Q ->
    (forall r, r <> 0 -> (drained l <= x)%nat -> lwp I t pid (k r) l Q) ->
    lwp I t pid (LAct (ACas (ReaderWord x) 0 pid) k) l Q.
  Proof.
    intros Hl Hw Hr Hx Hmr Hop Hs Hf. step_start. intros (-> & ->). case_decide as Hm.
    - rewrite Hm. split.
      { intros w Hw'. left. destruct (decide (w = ReaderWord x)) as [->|Hn]; [done|].
        rewrite upd_other in Hw'; done. }
      exists (with_r l (Some x)). split; [|done].
      assert (pend = false) as ->.
      { eapply may_release_pend; try done; by rewrite Hγ. }
      destruct HI.
      assert (Hno : forall t' p', L t' p' -> own_r (γ t') <> Some x).
      { intros t' p' HL' E. destruct (ic_r0 _ _ _ HL' E) as [E' _].
        pose proof (ic_pid0 p' (ic_used0 _ (ic_alive0 _ _ HL'))) as [? _]. lia. }
      assert (Gw : forall t', own_w (gupd γ t (with_r l (Some x)) t') = own_w (γ t')).
      { intros t'. unfold gupd. case_decide; [|done]. subst t'. simpl. by rewrite Hγ. }
      split; try done.
      + intros w. destruct (decide (w = ReaderWord x)) as [->|Hn].
        * rewrite upd_same. right. eauto.
        * rewrite upd_other; eauto.
      + intros t1 p1. rewrite Gw. rewrite upd_other; [|done]. eauto.
      + intros t1 p1 t2 p2. rewrite !Gw. eauto.
      + intros t1 p1 i H1 H2. destruct (decide (t1 = t)) as [->|Hn].
        * rewrite gupd_same in H2. simpl in H2. simplify_eq. rewrite upd_same.
          split; [by eapply HF|done].
        * rewrite gupd_other in H2; [|done].
          destruct (decide (i = x)) as [->|Hn']; [exfalso; by eapply Hno|].
          rewrite upd_other; [eauto|congruence].
      + intros t1 p1 t2 p2 i H1 H2 E1 E2.
        destruct (decide (t1 = t)) as [->|Hn1]; destruct (decide (t2 = t)) as [->|Hn2]; try done.
        * rewrite gupd_same in E1. simpl in E1. rewrite gupd_other in E2; [|done].
          simplify_eq. exfalso. by eapply (Hno t2).
        * rewrite gupd_same in E2. simpl in E2. rewrite gupd_other in E1; [|done].
          simplify_eq. exfalso. by eapply (Hno t1).
        * rewrite gupd_other in E1; [|done]. rewrite gupd_other in E2; [|done]. eauto.
      + intros t1 p1 H1. unfold gupd. case_decide; [|eauto]. subst. simpl.
        by apply (ic_known0 _ _ HL).
      + intros t1 p1 H1. unfold gupd. case_decide; [|eauto]. subst. simpl.
        by apply (ic_dead0 _ _ HL).
      + intros t1 p1 i H1. rewrite Gw. intros W1 Hi.
        assert (t1 = t) as ->.
        { eapply (ic_w2 t1 p1 t pid); try done. by rewrite Hγ. }
        rewrite gupd_same. rewrite gupd_same in Hi. simpl in Hi. simpl.
        destruct (decide (i = x)) as [->|Hn]; [by right|left]. rewrite upd_other; [|congruence].
        destruct (ic_drain0 t pid i) as [?|E]; try done; [by rewrite Hγ|].
        rewrite Hγ in E. congruence.
    - split; [done|]. exists l. split.
      2: { apply Hf; [done|]. destruct (decide (drained l <= x)%nat); [done|]. exfalso.
           destruct (ic_drain _ _ _ _ _ _ HI t pid x) as [?|E]; try done.
           - by rewrite Hγ.
           - rewrite Hγ. lia.
           - rewrite Hγ in E. congruence. }
      subst l.
      apply (IC_same _ _ _ _ _ _ t pid); simpl; try done; destruct HI.
      + eauto.
      + by apply (ic_dead0 _ _ HL).
      + by apply (ic_dead0 _ _ HL).
      + intros Hw0 i Hi. by eapply (ic_drain0 t pid).
  Qed.

  (** Releasing the write word. *)
  Lemma lwp_release_w {A} (I : lg -> Prop) t pid (k : Z -> lprog A) l Q :
    I l -> own_w l = true -> may_release l ->
    lwp I t pid (k pid) (with_w l false (stl l)) Q ->
    lwp I t pid (LAct (ACas WriteWord pid 0) k) l Q.
  Proof.
    intros Hl Hw Hmr Hs. step_start. intros (-> & ->).
    assert (Hm : m WriteWord = pid).
    { eapply (ic_w _ _ _ _ _ _ HI t); try done. by rewrite Hγ. }
    rewrite decide_True; [|done]. rewrite Hm. split.
    { intros w Hw'. destruct (decide (w = WriteWord)) as [->|Hn].
      - right; right. done.
      - rewrite upd_other in Hw'; done. }
    exists (with_w l false (stl l)). split; [|done].
    assert (pend = false) as ->.
    { eapply may_release_pend; try done; by rewrite Hγ. }
    destruct HI.
    assert (Gr : forall t', own_r (gupd γ t (with_w l false (stl l)) t') = own_r (γ t')).
    { intros t'. unfold gupd. case_decide; [|done]. subst t'. simpl. by rewrite Hγ. }
    assert (Gw : forall t' p', L t' p' -> own_w (gupd γ t (with_w l false (stl l)) t') = false).
    { intros t' p' HL'. destruct (decide (t' = t)) as [->|Hn].
      - by rewrite gupd_same.
      - rewrite gupd_other; [|done]. destruct (own_w (γ t')) eqn:E; [|done].
        exfalso. apply Hn. eapply (ic_w2 t' p' t pid); try done. by rewrite Hγ. }
    split; try done.
    - intros w. destruct (decide (w = WriteWord)) as [->|Hn].
      + rewrite upd_same. by left.
      + rewrite upd_other; eauto.
    - intros t1 p1 H1. rewrite (Gw _ _ H1). done.
    - intros t1 p1 t2 p2 H1. rewrite (Gw _ _ H1). done.
    - intros t1 p1 i H1. rewrite Gr. rewrite upd_other; [|done]. eauto.
    - intros t1 p1 t2 p2 i. rewrite !Gr. eauto.
    - intros t1 p1 H1. unfold gupd. case_decide; [|eauto]. subst. simpl.
      by apply (ic_known0 _ _ HL).
    - intros t1 p1 H1. unfold gupd. case_decide; [|eauto]. subst. simpl.
      by apply (ic_dead0 _ _ HL).
    - intros t1 p1 i H1. rewrite (Gw _ _ H1). done.
    - intros Hp t1 p1. rewrite Gr. eauto.
  Qed.

  (** Releasing a reader slot. *)
  Lemma lwp_release_r {A} (I : lg -> Prop) t pid i (k : Z -> lprog A) l Q :
    I l -> own_r l = Some i ->
    lwp I t pid (k pid) (with_r l None) Q ->
    lwp I t pid (LAct (ACas (ReaderWord i) pid 0) k) l Q.
  Proof.
    intros Hl Hr Hs. step_start. intros (-> & ->).
    assert (Hm : m (ReaderWord i) = pid).
    { eapply (ic_r _ _ _ _ _ _ HI t pid); try done. by rewrite Hγ. }
    rewrite decide_True; [|done]. rewrite Hm. split.
    { intros w Hw'. destruct (decide (w = ReaderWord i)) as [->|Hn].
      - right; right. done.
      - rewrite upd_other in Hw'; done. }
    exists (with_r l None). split; [|done].
    assert (Gw : forall t', own_w (gupd γ t (with_r l None) t') = own_w (γ t')).
    { intros t'. unfold gupd. case_decide; [|done]. subst t'. simpl. by rewrite Hγ. }
    assert (Gr : forall t' j, own_r (gupd γ t (with_r l None) t') = Some j ->
       own_r (γ t') = Some j /\ t' <> t).
    { intros t' j. unfold gupd. case_decide; [done|]. done. }
    destruct HI. split; try done.
    - intros w. destruct (decide (w = ReaderWord i)) as [->|Hn].
      + rewrite upd_same. by left.
      + rewrite upd_other; eauto.
    - intros t1 p1. rewrite Gw. rewrite upd_other; [|done]. eauto.
    - intros t1 p1 t2 p2. rewrite !Gw. eauto.
    - intros t1 p1 j H1 [E Hn]%Gr. rewrite upd_other; [eauto|]. intros [= ->].
      apply Hn. eapply (ic_r2 t1 p1 t pid i); try done. by rewrite Hγ.
    - intros t1 p1 t2 p2 j H1 H2 [E1 N1]%Gr [E2 N2]%Gr. eauto.
    - intros t1 p1 H1. unfold gupd. case_decide; [|eauto]. subst. simpl.
      by apply (ic_known0 _ _ HL).
    - intros t1 p1 H1. unfold gupd. case_decide; [|eauto]. subst. simpl.
      by apply (ic_dead0 _ _ HL).
    - intros t1 p1 j H1. rewrite Gw. intros W1 Hi.
      destruct (decide (j = i)) as [->|Hn]; [left; by rewrite upd_same|].
      rewrite upd_other; [|congruence]. destruct (decide (t1 = t)) as [->|Hn1].
      + rewrite gupd_same. rewrite gupd_same in Hi. simpl in Hi. rewrite <- Hγ in Hi. simpl.
        left. destruct (ic_drain0 t p1 j) as [?|E]; try done. rewrite Hγ in E. congruence.
      + rewrite gupd_other; [|done]. rewrite gupd_other in Hi; [|done]. eauto.
    - intros Hp. destruct (ic_pend0 Hp) as (P1 & P2 & P3). split; [done|].
      split; [by rewrite upd_other|]. intros t1 p1 H1. rewrite Gw.
      destruct (P3 _ _ H1) as [Q1 Q2]. unfold gupd. case_decide; [|done].
      subst t1. simpl. split; [done|]. intros E. rewrite <- Hγ. by apply Q2.
    - intros Hp t1 p1 H1. unfold gupd. case_decide; [done|]. eauto.
  Qed.

  (** ** The functions *)
  Notation TT := (fun _ : lg => True).

  Lemma lwp_ret {A} (I : lg -> Prop) t pid (a : A) l (Q : A -> lg -> Prop) :
    I l -> Q a l -> lwp I t pid (LRet a) l Q.
  Proof. by split. Qed.

  Lemma with_known_same l v : lsame l (with_known l v).
  Proof. unfold lsame; simpl. repeat split; try done. case_decide; set_solver. Qed.
  Lemma with_dead_same l v : lsame l (with_dead l v).
  Proof. unfold lsame; simpl. repeat split; try done. set_solver. Qed.
  Lemma with_known_in l v : v = 0 \/ v ∈ known (with_known l v).
  Proof. simpl. case_decide; [by left|right; set_solver]. Qed.

  Lemma lwp_spin n t pid last l (Q : option Z -> lg -> Prop) :
    own_r l = None -> last = 0 \/ last ∈ known l ->
    (forall l', lsame l l' -> Q None (with_w l' true 0)) ->
    (forall l' v, lsame l l' -> v = 0 \/ v ∈ known l' -> Q (Some v) l') ->
    lwp TT t pid (spin n WriteWord pid last) l Q.
  Proof.
    revert last l; induction n as [|n IH]; intros last l Hr Hlast Hs Hf; cbn [spin].
    - split; [done|]. apply Hf; [apply lsame_refl|done].
    - apply lwp_bind. apply lwp_casweak_w; [done|done| |].
      + apply lwp_ret; [done|]. rewrite bool_decide_eq_true_2; [|done].
        apply lwp_ret; [done|]. apply Hs, lsame_refl.
      + intros r Hne. apply lwp_ret; [done|]. rewrite bool_decide_eq_false_2; [|done].
        pose proof (with_known_same l r) as Hsame.
        apply IH.
        * done.
        * apply with_known_in.
        * intros l' Hl'. apply Hs. by eapply lsame_trans.
        * intros l' v Hl'. apply Hf. by eapply lsame_trans.
  Qed.

  Definition acquired (st : Z) (l : lg) : Prop :=
    own_w l = true /\ own_r l = None /\ drained l = O /\ stl l = st /\ acq l = false /\
    (st <> 0 -> st ∈ dead l).

  Lemma lwp_acquire G t pid l :
    own_r l = None ->
    lwp TT t pid (acquire_process_lock G WriteWord pid) l acquired.
  Proof.
    revert l; induction G as [|G IH]; intros l Hr; cbn [acquire_process_lock]; [done|].
    apply lwp_bind. apply lwp_spin; [done|by left| |].
    - intros l' (?&?&?&?&?&?&?). apply lwp_ret; [done|]. unfold acquired. simpl.
      repeat split; try done. congruence.
    - intros l' v Hsame Hv. pose proof Hsame as (E1&E2&E3&E4&E5&E6&E7).
      apply lwp_bind. apply lwp_nop; [done|by intros ???? [_ ->]|].
      intros r. apply lwp_ret; [done|]. case_bool_decide; [apply IH; congruence|].
      apply lwp_bind. apply lwp_running; [done|done| | |].
      + apply lwp_ret; [done|]. rewrite bool_decide_eq_false_2; [|done]. apply IH; congruence.
      + intros ->. apply lwp_ret; [done|]. rewrite bool_decide_eq_true_2; [|done].
        apply lwp_bind. apply lwp_steal_w; [done|congruence|by left| |].
        * apply lwp_ret; [done|]. rewrite bool_decide_eq_true_2; [|done].
          apply lwp_ret; [done|]. unfold acquired. simpl. repeat split; try done. congruence.
        * intros r' Hr'. apply lwp_ret; [done|]. rewrite bool_decide_eq_false_2; [|done].
          apply IH; congruence.
      + intros Hn. apply lwp_ret; [done|]. rewrite bool_decide_eq_true_2; [|done].
        apply lwp_bind. apply lwp_steal_w; [done|simpl; congruence|right; simpl; set_solver| |].
        * apply lwp_ret; [done|]. rewrite bool_decide_eq_true_2; [|done].
          apply lwp_ret; [done|]. unfold acquired. simpl. repeat split; try done; [congruence|].
          set_solver.
        * intros r' Hr'. apply lwp_ret; [done|]. rewrite bool_decide_eq_false_2; [|done].
          apply IH; simpl; congruence.
  Qed.

  Definition drain1 (d : bool) (l : lg) (x : nat) : lg :=
    if d then with_drained l (S x) else l.
  Lemma drain1_same d l l' x : lsame l l' -> lsame (drain1 d l x) (drain1 d l' x).
  Proof. intros (?&?&?&?&?&?&?). destruct d; unfold lsame; simpl; repeat split; done. Qed.

  Lemma lwp_wait_release G t pid x l (d : bool) (Q : unit -> lg -> Prop) :
    (d = true -> own_w l = true /\ drained l = x) ->
    (forall l', lsame (drain1 d l x) l' -> Q tt l') ->
    lwp TT t pid (wait_for_reader_release G (ReaderWord x)) l Q.
  Proof.
    revert l; induction G as [|G IH]; intros l Hd HQ; cbn [wait_for_reader_release]; [done|].
    assert (Hcont : forall l', lsame l l' ->
      lwp TT t pid (wait_for_reader_release G (ReaderWord x)) l' Q).
    { intros l' Hs. apply IH.
      - intros E. destruct Hs as (?&?&?&_). destruct (Hd E). split; congruence.
      - intros l2 Hl2. apply HQ. eapply lsame_trans; [by apply drain1_same|done]. }
    assert (Hrest : forall r, r <> 0 ->
      lwp TT t pid
        (if bool_decide (r = 0) then LRet tt
         else
          woken <- act (AFutexWait (ReaderWord x) r);;
          (if bool_decide (woken ≠ 0)
           then wait_for_reader_release G (ReaderWord x)
           else
            running <- act (ARunning (pid_for_token r));;
            (if bool_decide (running = 0)
             then
              old <- act (ACas (ReaderWord x) r 0);;
              (if bool_decide (old = r) then LRet tt else wait_for_reader_release G (ReaderWord x))
             else wait_for_reader_release G (ReaderWord x)))) (with_known l r) Q).
    { intros r Hr. rewrite bool_decide_eq_false_2; [|done].
      pose proof (with_known_same l r) as Hs1.
      apply lwp_bind. apply lwp_nop; [done|by intros ???? [_ ->]|].
      intros w. apply lwp_ret; [done|]. case_bool_decide; [by apply Hcont|].
      apply lwp_bind. apply lwp_running; [done|apply with_known_in| |done|].
      - apply lwp_ret; [done|]. rewrite bool_decide_eq_false_2; [|done]. by apply Hcont.
      - intros _. apply lwp_ret; [done|]. rewrite bool_decide_eq_true_2; [|done].
        pose proof (with_dead_same (with_known l r) r) as Hs2.
        assert (Hs3 : lsame l (with_dead (with_known l r) r)) by (by eapply lsame_trans).
        apply lwp_bind. apply (lwp_clear_r TT t pid x r _ _ _ d); [done|simpl; set_solver| | |].
        + intros E. destruct (Hd E). by split.
        + apply lwp_ret; [done|]. rewrite bool_decide_eq_true_2; [|done].
          apply lwp_ret; [done|]. apply HQ.
          by apply (drain1_same d l (with_dead (with_known l r) r) x).
        + intros r' Hr'. apply lwp_ret; [done|]. rewrite bool_decide_eq_false_2; [|done].
          by apply Hcont. }
    apply lwp_bind. destruct d.
    - destruct (Hd eq_refl) as [Hw Hx]. apply lwp_load_drain; [done|done|done| |].
      + intros r Hr. apply lwp_ret; [done|]. by apply Hrest.
      + apply lwp_ret; [done|]. rewrite bool_decide_eq_true_2; [|done].
        apply lwp_ret; [done|]. apply HQ, lsame_refl.
    - apply lwp_load; [done|]. intros r. apply lwp_ret; [done|].
      destruct (decide (r = 0)) as [->|Hr]; [|by apply Hrest].
      rewrite bool_decide_eq_true_2; [|done]. apply lwp_ret; [done|]. apply HQ. simpl.
      apply with_known_same.
  Qed.

  Lemma lwp_drain_from G n x t pid l (Q : unit -> lg -> Prop) :
    own_w l = true -> drained l = x ->
    (forall l', lsame (with_drained l (x + n)) l' -> Q tt l') ->
    lwp TT t pid (drain_from G n x) l Q.
  Proof.
    revert x l; induction n as [|n IH]; intros x l Hw Hx HQ; cbn [drain_from].
    - apply lwp_ret; [done|]. apply HQ. unfold lsame; simpl. repeat split; try done. lia.
    - assert (Hcont : forall l', lsame (with_drained l (S x)) l' ->
        lwp TT t pid (drain_from G n (S x)) l' Q).
      { intros l' (E1&E2&E3&E4&E5&E6&E7). apply IH; [by rewrite E1|done|].
        intros l2 (G1&G2&G3&G4&G5&G6&G7). apply HQ. unfold lsame; simpl in *.
        repeat split; try congruence; [lia|set_solver|set_solver]. }
      apply lwp_bind. apply lwp_load_drain; [done|done|done| |].
      + intros r Hr. apply lwp_ret; [done|]. apply lwp_bind.
        rewrite bool_decide_eq_false_2; [|done].
        apply (lwp_wait_release _ _ _ _ _ true); [done|].
        intros l' (E1&E2&E3&E4&E5&E6&E7). apply Hcont.
        unfold lsame; simpl in *. repeat split; try done.
        case_decide; set_solver.
      + apply lwp_ret; [done|]. apply lwp_bind. rewrite bool_decide_eq_true_2; [|done].
        apply lwp_ret; [done|]. apply Hcont, lsame_refl.
  Qed.

  Lemma lwp_empty_slot n x t pid l (Q : bool -> lg -> Prop) :
    (forall b l', lsame l l' -> Q b l') ->
    lwp TT t pid (empty_slot n x) l Q.
  Proof.
    revert x l; induction n as [|n IH]; intros x l HQ; cbn [empty_slot].
    - apply lwp_ret; [done|]. apply HQ, lsame_refl.
    - apply lwp_bind. apply lwp_load; [done|]. intros r. apply lwp_ret; [done|].
      pose proof (with_known_same l r). case_bool_decide.
      + apply lwp_ret; [done|]. by apply HQ.
      + apply IH. intros b l' Hl'. apply HQ. by eapply lsame_trans.
  Qed.

  Lemma lwp_drain_any n G t pid l (Q : unit -> lg -> Prop) :
    (forall l', lsame l l' -> Q tt l') ->
    lwp TT t pid (drain_any n G pid) l Q.
  Proof.
    revert l; induction n as [|n IH]; intros l HQ; cbn [drain_any]; [done|].
    apply lwp_bind. apply lwp_empty_slot. intros b l' Hl'. destruct b.
    - apply lwp_ret; [done|]. by apply HQ.
    - apply lwp_bind. apply (lwp_wait_release _ _ _ _ _ false); [done|].
      intros l2 Hl2. simpl in Hl2. apply IH. intros l3 Hl3. apply HQ.
      eapply lsame_trans; [done|]. by eapply lsame_trans.
  Qed.

  Lemma lwp_take_slot (I : lg -> Prop) n x t pid l (Q : option nat -> lg -> Prop) :
    I l -> own_w l = true -> own_r l = None -> (x + n = num_slots)%nat -> may_release l ->
    ~ only_plain ->
    (forall y, (y < num_slots)%nat -> I (with_r l (Some y)) /\ Q (Some y) (with_r l (Some y))) ->
    ((forall y, (x <= y < num_slots)%nat -> (drained l <= y)%nat) -> Q None l) ->
    lwp I t pid (take_slot n x pid) l Q.
  Proof.
    intros Hl Hw Hr. revert x. induction n as [|n IH]; intros x Hx Hm Hop Hs Hn; cbn [take_slot].
    - apply lwp_ret; [done|]. apply Hn. intros. lia.
    - apply lwp_bind. destruct (Hs x) as [HIx HQx]; [lia|].
      apply lwp_take_r; try done; [lia|].
      { intros r Hr0 Hd. apply lwp_ret; [done|]. rewrite bool_decide_eq_false_2; [|done].
        apply IH; try done; [lia|]. intros Hy. apply Hn. intros y Hy'.
        destruct (decide (y = x)) as [->|]; [done|]. apply Hy. lia. }
  Qed.

  Lemma lwp_release_word (I : lg -> Prop) t pid l (Q : unit -> lg -> Prop) :
    I l -> own_w l = true -> may_release l ->
    I (with_w l false (stl l)) -> Q tt (with_w l false (stl l)) ->
    lwp I t pid (release_process_lock WriteWord pid) l Q.
  Proof.
    intros Hl Hw Hm HI HQ. unfold release_process_lock. apply lwp_bind.
    apply lwp_release_w; [done..|]. apply lwp_ret; [done|].
    rewrite bool_decide_eq_true_2; [|done]. apply lwp_bind.
    apply lwp_nop; [done|by intros ???? ->|]. intros r. apply lwp_ret; [done|]. by apply lwp_ret.
  Qed.

  Lemma lwp_release_slot (I : lg -> Prop) i t pid l (Q : unit -> lg -> Prop) :
    I l -> own_r l = Some i -> I (with_r l None) -> Q tt (with_r l None) ->
    lwp I t pid (release_process_lock (ReaderWord i) pid) l Q.
  Proof.
    intros Hl Hw HI HQ. unfold release_process_lock. apply lwp_bind.
    apply lwp_release_r; [done..|]. apply lwp_ret; [done|].
    rewrite bool_decide_eq_true_2; [|done]. apply lwp_bind.
    apply lwp_nop; [done|by intros ???? ->|]. intros r. apply lwp_ret; [done|]. by apply lwp_ret.
  Qed.

  (** A guard describes what its thread owns. *)
  Definition good_guard (pid : Z) (g : lguard) (l : lg) : Prop :=
    g_token g = pid /\
    (g_stolen g <> 0 -> g_stolen g ∈ dead l) /\
    (only_plain -> g_slot g = -1) /\
    ((g_slot g = -1 /\ own_w l = true /\ own_r l = None /\ g_stolen g = stl l /\
      (drained l = num_slots \/ allowed PLAIN)) \/
     exists i, g_slot g = Z.of_nat i /\ own_r l = Some i /\ own_w l = false).

  Lemma lwp_read_loop n G t pid b l :
    own_r l = None -> b = READ \/ b = READ_UNLESS_STOLEN -> allowed b ->
    lwp TT t pid (read_loop n G pid b) l (good_guard pid).
  Proof.
    intros Hr Hb Hal. revert l Hr; induction n as [|n IH]; intros l Hr; cbn [read_loop]; [done|].
    assert (Hop : ~ only_plain).
    { intros Hp. specialize (Hp _ Hal). destruct Hb; congruence. }
    apply lwp_bind. eapply lwp_mono; [|by apply lwp_acquire].
    intros st l1 _ (E1&E2&E3&E4&E5&E6). case_bool_decide as Hst.
    - destruct Hst as [Hst _]. apply lwp_bind. apply lwp_drain_from; [done|done|].
      intros l2 (G1&G2&G3&G4&G5&G6&G7). apply lwp_ret; [done|]. simpl in *.
      split; [done|]. split; [simpl; auto|]. split; [done|]. left. simpl.
      split; [done|]. split; [congruence|]. split; [congruence|]. split; [congruence|]. by left.
    - assert (Hmr : may_release l1).
      { unfold may_release. destruct (decide (st = 0)) as [->|Hn]; [by left|].
        right; right. destruct Hb as [->| ->]; [done|]. exfalso. auto. }
      apply lwp_bind. apply lwp_take_slot; try done.
      + intros y Hy. split; [done|]. apply lwp_bind. apply lwp_release_word; try done.
        apply lwp_ret; [done|]. split; [done|]. split; [simpl; auto|]. split; [done|]. right.
        exists y. done.
      + intros _. apply lwp_bind. apply lwp_release_word; try done.
        apply lwp_bind. apply lwp_drain_any. intros l3 (G1&G2&G3&G4&G5&G6&G7).
        apply IH. by rewrite G2.
  Qed.

  Lemma lwp_construct G t pid b l :
    own_r l = None -> allowed b ->
    lwp TT t pid (construct G pid b) l (good_guard pid).
  Proof.
    intros Hr Hal. destruct b; cbn [construct].
    - apply lwp_read_loop; auto.
    - apply lwp_bind. eapply lwp_mono; [|by apply lwp_acquire].
      intros st l1 _ (E1&E2&E3&E4&E5&E6).
      apply lwp_bind. apply lwp_drain_from; [done|done|].
      intros l2 (G1&G2&G3&G4&G5&G6&G7). apply lwp_ret; [done|]. simpl in *.
      split; [done|]. split; [simpl; auto|]. split; [done|]. left. simpl.
      split; [done|]. split; [congruence|]. split; [congruence|]. split; [congruence|]. by left.
    - apply lwp_read_loop; auto.
    - apply lwp_bind. eapply lwp_mono; [|by apply lwp_acquire].
      intros st l1 _ (E1&E2&E3&E4&E5&E6). apply lwp_ret; [done|].
      split; [done|]. split; [done|]. split; [done|]. left. simpl.
      split; [done|]. split; [congruence|]. split; [congruence|]. split; [congruence|]. by right.
  Qed.

  Lemma lwp_destroy t pid g l :
    good_guard pid g l -> acq l = true ->
    lwp TT t pid (destroy g) l (fun _ l' => own_w l' = false /\ own_r l' = None).
  Proof.
    intros (H1 & H2 & H2' & H3) Ha. unfold destroy. rewrite H1.
    destruct H3 as [(Hs & Hw & Hr & _)|(i & Hs & Hr & Hw)]; rewrite Hs.
    - rewrite bool_decide_eq_true_2; [|lia]. apply lwp_release_word; try done.
      right; left; done.
    - rewrite bool_decide_eq_false_2; [|lia]. rewrite Nat2Z.id.
      apply lwp_release_slot; done.
  Qed.

  (** While downgrading, a thread keeps all writers out. *)
  Definition keeps_out (l : lg) : Prop :=
    (own_w l = true /\ (drained l = num_slots \/ allowed PLAIN)) \/ own_r l <> None.

  Lemma lwp_downgrade t pid g l :
    good_guard pid g l -> acq l = true -> g_slot g = -1 -> ~ allowed PLAIN -> ~ only_plain ->
    lwp keeps_out t pid (downgrade pid g) l
      (fun g' l' => good_guard pid g' l' /\ own_r l' <> None).
  Proof.
    intros (H1 & H2 & H2' & H3) Ha Hs Hpl Hop. unfold downgrade.
    rewrite bool_decide_eq_false_2; [|lia].
    destruct H3 as [(_ & Hw & Hr & Hst & Hd)|(i & Hs' & _)]; [|lia].
    assert (Hk : keeps_out l) by (left; done).
    destruct Hd as [Hd|?]; [|done].
    apply lwp_bind. apply lwp_take_slot; try done.
    - right; left; done.
    - intros y Hy. split; [right; done|]. rewrite H1. apply lwp_bind.
      apply lwp_release_word; try done.
      + right; done.
      + right; left; done.
      + right; done.
      + apply lwp_ret; [right; done|]. split; [|done]. split; [done|]. split; [done|].
        split; [done|]. right. eexists; split; [|split]; done.
    - intros Hno. exfalso. specialize (Hno O). unfold num_slots in *. lia.
  Qed.

  (** ** The system *)
  Definition live (s : lstate) (t : nat) (pid : Z) : Prop :=
    pid ∈ l_alive s /\ exists x, l_threads s !! t = Some (pid, x).

  Definition thread_ok (t : nat) (pid : Z) (x : tstate) (l : lg) : Prop :=
    match x with
    | Idle => own_w l = false /\ own_r l = None
    | Constructing p => lwp TT t pid p l (good_guard pid)
    | Holding g => good_guard pid g l /\ acq l = true
    | Downgrading p => lwp keeps_out t pid p l (fun g' l' => good_guard pid g' l' /\ own_r l' <> None)
    | Destroying p => lwp TT t pid p l (fun _ l' => own_w l' = false /\ own_r l' = None)
    | Failed => False
    end.

  Definition LInv (s : lstate) (γ : nat -> lg) (pend : bool) : Prop :=
    IC (live s) (l_alive s) (l_used s) (l_mem s) γ pend /\
    (forall t pid x, l_threads s !! t = Some (pid, x) -> pid ∈ l_alive s ->
       thread_ok t pid x (γ t)) /\
    (forall t pid x, l_threads s !! t = Some (pid, x) -> pid ∈ l_used s).

  Lemma live_fun s t p p' : live s t p -> live s t p' -> p = p'.
  Proof. intros [_ [x H]] [_ [x' H']]. congruence. Qed.

  Lemma IC_weaken (L L' : nat -> Z -> Prop) alive alive' used m γ pend :
    IC L alive used m γ pend -> alive' ⊆ alive ->
    (forall t p, L' t p -> L t p /\ p ∈ alive') ->
    IC L' alive' used m γ pend.
  Proof.
    intros [] Ha HL.
    assert (HL1 : forall t p, L' t p -> L t p) by (intros ?? H; by apply HL).
    split; try done.
    - intros t p H. by apply HL in H as [_ ?].
    - set_solver.
    - eauto.
    - intros t p t' p' H1 H2. eauto.
    - eauto.
    - intros t p t' p' i H1 H2. eauto.
    - eauto.
    - intros t p H. destruct (ic_dead0 t p); [eauto|]. set_solver.
    - eauto.
    - intros Hp. destruct (ic_pend0 Hp) as (P1&P2&P3). split; [done|]. split; [done|].
      intros t p H. eauto.
    - eauto.
  Qed.

  Lemma IC_pend_off L alive used m γ pend :
    IC L alive used m γ pend -> IC L alive used m γ false.
  Proof. intros []. by split. Qed.

  Lemma live_set s t pid x y t' p' :
    l_threads s !! t = Some (pid, y) ->
    live (set_thread s t pid x) t' p' <-> live s t' p'.
  Proof.
    intros Ht. unfold live, set_thread. simpl.
    destruct (decide (t' = t)) as [->|Hn].
    - rewrite lookup_insert. rewrite Ht. split; intros [Ha [z Hz]]; simplify_eq; eauto.
    - rewrite lookup_insert_ne; done.
  Qed.

  (** A thread changes only its own control state. *)
  Lemma LInv_local s γ pend t pid x y l' :
    LInv s γ pend -> l_threads s !! t = Some (pid, y) -> pid ∈ l_alive s ->
    IC (live s) (l_alive s) (l_used s) (l_mem s) (gupd γ t l') pend ->
    thread_ok t pid x l' ->
    LInv (set_thread s t pid x) (gupd γ t l') pend.
  Proof.
    intros (H1 & H2 & H3) Ht Ha HI Hx. split; [|split].
    - simpl. eapply IC_weaken; [done|done|]. intros t' p' HL.
      rewrite (live_set _ _ _ _ _ _ _ Ht) in HL. split; [done|]. by destruct HL.
    - intros t' p' z. simpl. destruct (decide (t' = t)) as [->|Hn].
      + rewrite lookup_insert. intros [= <- <-] _. by rewrite gupd_same.
      + rewrite lookup_insert_ne; [|done]. rewrite gupd_other; [|done]. eauto.
    - intros t' p' z. simpl. destruct (decide (t' = t)) as [->|Hn].
      + rewrite lookup_insert. intros [= <- <-]. eauto.
      + rewrite lookup_insert_ne; [|done]. eauto.
  Qed.

  Lemma IC_acq L alive used m γ t :
    IC L alive used m γ false -> IC L alive used m (gupd γ t (with_acq (γ t) true)) false.
  Proof.
    intros HI0. destruct HI0.
    assert (E : forall t', own_w (gupd γ t (with_acq (γ t) true) t') = own_w (γ t')).
    { intros t'. unfold gupd. by case_decide; subst. }
    assert (E2 : forall t', own_r (gupd γ t (with_acq (γ t) true) t') = own_r (γ t')).
    { intros t'. unfold gupd. by case_decide; subst. }
    assert (E3 : forall t', drained (gupd γ t (with_acq (γ t) true) t') = drained (γ t')).
    { intros t'. unfold gupd. by case_decide; subst. }
    assert (E4 : forall t', known (gupd γ t (with_acq (γ t) true) t') = known (γ t')).
    { intros t'. unfold gupd. by case_decide; subst. }
    assert (E5 : forall t', dead (gupd γ t (with_acq (γ t) true) t') = dead (γ t')).
    { intros t'. unfold gupd. by case_decide; subst. }
    split; try done; intros; rewrite ?E ?E2 ?E3 ?E4 ?E5;
      repeat match goal with
      | H : context [own_w (gupd _ _ _ _)] |- _ => rewrite E in H
      | H : context [own_r (gupd _ _ _ _)] |- _ => rewrite E2 in H
      | H : context [drained (gupd _ _ _ _)] |- _ => rewrite E3 in H
      end; eauto.
  Qed.

  Lemma IC_gupd_same L alive used m γ pend t pid :
    IC L alive used m γ pend -> L t pid -> IC L alive used m (gupd γ t (γ t)) pend.
  Proof.
    intros HI HL. apply (IC_same _ _ _ _ _ _ t pid); try done; destruct HI; [eauto| | |].
    - by apply (ic_dead0 _ _ HL).
    - by apply (ic_dead0 _ _ HL).
    - intros Hw i Hi. by eapply (ic_drain0 t pid).
  Qed.

  (** A thread performs an action inside a lock function. *)
  Lemma LInv_act {A} s γ pend t pid (I : lg -> Prop) a (k : Z -> lprog A) Q r m'
      (C : lprog A -> tstate) :
    LInv s γ pend -> l_threads s !! t = Some (pid, C (LAct a k)) -> pid ∈ l_alive s ->
    lwp I t pid (LAct a k) (γ t) Q ->
    (forall l', lwp I t pid (k r) l' Q -> thread_ok t pid (C (k r)) l') ->
    lexec (l_alive s) (l_mem s) a r m' ->
    (exists γ', LInv (LState m' (l_alive s) (l_used s) (<[t := (pid, C (k r))]> (l_threads s))) γ' pend) /\
    (forall w, m' w <> l_mem s w -> l_mem s w = 0 \/ l_mem s w ∉ l_alive s \/ owns (γ t) w).
  Proof.
    intros (H1 & H2 & H3) Ht Ha [_ Hw] HC He.
    assert (HL : live s t pid) by (split; eauto).
    destruct (Hw _ _ _ _ _ _ _ _ H1 HL eq_refl (live_fun s) He) as (Hch & l' & HI & Hk).
    split; [|done]. exists (gupd γ t l').
    assert (Hs : LInv (LState m' (l_alive s) (l_used s) (l_threads s)) (gupd γ t l') pend \/ True)
      by (by right). clear Hs.
    split; [|split]; simpl.
    - eapply IC_weaken; [done|done|]. intros t' p' HL'.
      rewrite <- (live_set s t pid (C (k r)) _ _ _ Ht). split; [done|]. by destruct HL'.
    - intros t' p' z. destruct (decide (t' = t)) as [->|Hn].
      + rewrite lookup_insert. intros [= <- <-] _. rewrite gupd_same. auto.
      + rewrite lookup_insert_ne; [|done]. rewrite gupd_other; [|done]. eauto.
    - intros t' p' z. destruct (decide (t' = t)) as [->|Hn].
      + rewrite lookup_insert. intros [= <- <-]. eauto.
      + rewrite lookup_insert_ne; [|done]. eauto.
  Qed.

  Set Default Proof Using "All".
  Context (pid_ok : Z -> Prop) (Hpid : forall p, pid_ok p -> good_pid p)
          (Hmix : allowed PLAIN -> only_plain).

  Lemma LInv_step s lb s' γ pend :
    lstep F pid_ok false allowed s lb s' -> LInv s γ pend ->
    (exists γ', LInv s' γ' (match lb with Acquired _ _ => false | _ => pend end)) /\
    (forall t g, lb = Acquired t g ->
       (pend = true -> g_stolen g <> 0 /\ g_slot g = -1) /\
       (g_stolen g <> 0 -> g_stolen g ∉ l_alive s /\ g_stolen g ∈ l_used s)) /\
    (forall w, l_mem s' w <> l_mem s w ->
       exists t pid, lb = Step t /\ live s t pid /\
         (l_mem s w = 0 \/ l_mem s w ∉ l_alive s \/ owns (γ t) w)).
  Proof.
    intros Hstep HInv. pose proof HInv as (H1 & H2 & H3).
    destruct Hstep as [s pid Hp Hna Hnu|s t pid Hal Hno|s pid Hal|s t pid b Ht Hal Hb
      |s t pid g Ht Hal|s t pid g Ht Hal Hs Hrw|s t pid g Ht Hal|s t pid g Ht Hal|s t pid Ht Hal
      |s t pid a k r m' Ht Hal He|s t pid a k r m' Ht Hal He|s t pid a k r m' Ht Hal He
      |s t pid Ht Hal|s t pid Ht Hal|s t pid Ht Hal].
    - (* new process *)
      split; [|split; [done|simpl; done]]. specialize (Hnu eq_refl).
      exists γ. split; [|split]; simpl.
      + assert (HL : forall t p, live (LState (l_mem s) ({[pid]} ∪ l_alive s) ({[pid]} ∪ l_used s)
             (filter (fun x => x.2.1 <> pid) (l_threads s))) t p -> live s t p).
        { intros t p [Ha [x Hx]]. simpl in *. apply map_filter_lookup_Some in Hx as [Hx Hn].
          simpl in Hn. split; [set_solver|eauto]. }
        destruct H1. split; simpl.
        * intros t p H. apply HL in H. pose proof (ic_alive0 _ _ H). set_solver.
        * set_solver.
        * intros p [->%elem_of_singleton|Hu]%elem_of_union; auto.
        * intros w. destruct (ic_mem0 w); [by left|right; set_solver].
        * eauto.
        * intros t p t' p' X1 X2. eauto.
        * eauto.
        * intros t p t' p' i X1 X2. eauto.
        * intros t p X. pose proof (ic_known0 t p (HL _ _ X)). set_solver.
        * intros t p X. destruct (ic_dead0 t p (HL _ _ X)) as [D1 D2]. split; [set_solver|].
          assert (pid ∉ dead (γ t)) by set_solver. set_solver.
        * eauto.
        * intros Hpe. destruct (ic_pend0 Hpe) as (P1&P2&P3). split; [done|]. split; [done|].
          intros t p X. eauto.
        * eauto.
      + intros t p x Hx Ha. apply map_filter_lookup_Some in Hx as [Hx Hn]. simpl in Hn.
        eapply H2; [done|]. set_solver.
      + intros t p x Hx. apply map_filter_lookup_Some in Hx as [Hx Hn]. simpl in Hn.
        specialize (H3 _ _ _ Hx). set_solver.
    - (* new thread *)
      split; [|split; [done|simpl; done]].
      set (l0 := LG false None 0 0 false ∅ ∅). exists (gupd γ t l0).
      assert (HL : forall t' p, live (set_thread s t pid Idle) t' p ->
         (t' = t /\ p = pid) \/ (t' <> t /\ live s t' p)).
      { intros t' p [Ha [x Hx]]. simpl in *. destruct (decide (t' = t)) as [->|Hn].
        - rewrite lookup_insert in Hx. simplify_eq. by left.
        - rewrite lookup_insert_ne in Hx; [|done]. right. split; [done|]. split; eauto. }
      assert (G : forall t' p, live (set_thread s t pid Idle) t' p ->
         gupd γ t l0 t' = l0 \/ (gupd γ t l0 t' = γ t' /\ live s t' p)).
      { intros t' p [[-> ->]|[Hn HL']]%HL; [left; by rewrite gupd_same|right].
        by rewrite gupd_other. }
      split; [|split]; simpl.
      + destruct H1. split; simpl; try done.
        * intros t' p H. apply HL in H as [[-> ->]|[_ H]]; eauto.
        * intros t' p H Hw. destruct (G _ _ H) as [E|[E HL']]; rewrite E in Hw; [done|eauto].
        * intros t1 p1 t2 p2 X1 X2 W1 W2.
          destruct (G _ _ X1) as [E|[E HL1]]; rewrite E in W1; [done|].
          destruct (G _ _ X2) as [E'|[E' HL2]]; rewrite E' in W2; [done|eauto].
        * intros t1 p1 i X1 W1.
          destruct (G _ _ X1) as [E|[E HL1]]; rewrite E in W1; [done|eauto].
        * intros t1 p1 t2 p2 i X1 X2 W1 W2.
          destruct (G _ _ X1) as [E|[E HL1]]; rewrite E in W1; [done|].
          destruct (G _ _ X2) as [E'|[E' HL2]]; rewrite E' in W2; [done|eauto].
        * intros t1 p1 X1. destruct (G _ _ X1) as [E|[E HL1]]; rewrite E; [set_solver|eauto].
        * intros t1 p1 X1. destruct (G _ _ X1) as [E|[E HL1]]; rewrite E; [set_solver|eauto].
        * intros t1 p1 i X1 W1 Hi.
          destruct (G _ _ X1) as [E|[E HL1]]; rewrite E in W1, Hi; [done|]. rewrite E. eauto.
        * intros Hpe. destruct (ic_pend0 Hpe) as (P1&P2&P3). split; [done|]. split; [done|].
          intros t1 p1 X1. destruct (G _ _ X1) as [E|[E HL1]]; rewrite E; [done|eauto].
        * intros Hpl t1 p1 X1. destruct (G _ _ X1) as [E|[E HL1]]; rewrite E; [done|eauto].
      + intros t' p x. destruct (decide (t' = t)) as [->|Hn].
        * rewrite lookup_insert gupd_same. intros [= <- <-] _. done.
        * rewrite lookup_insert_ne; [|done]. rewrite gupd_other; [|done]. eauto.
      + intros t' p x. destruct (decide (t' = t)) as [->|Hn].
        * rewrite lookup_insert. intros [= <- <-]. by apply (ic_used _ _ _ _ _ _ H1).
        * rewrite lookup_insert_ne; [|done]. eauto.
    - (* death *)
      split; [|split; [done|simpl; done]]. exists γ. split; [|split]; simpl.
      + eapply IC_weaken; [done|set_solver|]. intros t p [Ha [x Hx]]. simpl in *.
        split; [|done]. split; [set_solver|eauto].
      + intros t p x Hx Ha. eapply H2; [done|set_solver].
      + done.
    - (* construct *)
      split; [|split; [done|simpl; done]]. assert (HL : live s t pid) by (split; eauto).
      exists (gupd γ t (γ t)). eapply LInv_local; try done; [by eapply IC_gupd_same|].
      simpl. apply lwp_construct; [|done]. by apply (H2 _ _ _ Ht Hal).
    - (* acquired *)
      pose proof (H2 _ _ _ Ht Hal) as [_ (G1 & G2 & G2' & G3)].
      assert (HL : live s t pid) by (split; eauto).
      split; [|split; [|simpl; done]].
      + exists (gupd γ t (with_acq (γ t) true)).
        assert (HI0 : LInv s γ false).
        { split; [by eapply IC_pend_off|done]. }
        eapply LInv_local; try done.
        by apply IC_acq; destruct HI0.
      + intros t' g' [= <- <-]. split.
        * intros ->. destruct (ic_pend _ _ _ _ _ _ H1 eq_refl) as (_ & _ & P3).
          destruct (P3 _ _ HL) as [Q1 Q2].
          destruct G3 as [(A1 & A2 & A3 & A4 & A5)|(i & A1 & A2 & A3)]; [|congruence].
          rewrite A4. split; [by apply Q2|done].
        * intros Hn. specialize (G2 Hn). destruct (ic_dead _ _ _ _ _ _ H1 _ _ HL).
          set_solver.
    - (* downgrade *)
      pose proof (H2 _ _ _ Ht Hal) as [Hg Hacq].
      split; [|split; [done|simpl; done]]. assert (HL : live s t pid) by (split; eauto).
      exists (gupd γ t (γ t)). eapply LInv_local; try done; [by eapply IC_gupd_same|].
      simpl. assert (Hnop : ~ only_plain).
      { intros Hop. destruct Hrw as [Hx|Hx]; apply Hop in Hx; done. }
      apply lwp_downgrade; try done. auto.
    - (* downgraded *)
      pose proof (H2 _ _ _ Ht Hal) as [_ [Hg Hr]].
      assert (HL : live s t pid) by (split; eauto).
      split; [|split; [done|simpl; done]].
      destruct pend.
      + (* nobody downgrades while a dead writer's lock is waiting to be stolen *)
        destruct (ic_pend _ _ _ _ _ _ H1 eq_refl) as (_ & _ & P3).
        by destruct (P3 _ _ HL) as [Q1 Q2].
      + exists (gupd γ t (with_acq (γ t) true)).
        eapply LInv_local; try done. by apply IC_acq.
    - (* destroy *)
      pose proof (H2 _ _ _ Ht Hal) as [Hg Hacq].
      split; [|split; [done|simpl; done]]. assert (HL : live s t pid) by (split; eauto).
      exists (gupd γ t (γ t)). eapply LInv_local; try done; [by eapply IC_gupd_same|].
      simpl. by apply lwp_destroy.
    - (* destroyed *)
      pose proof (H2 _ _ _ Ht Hal) as [_ Hg].
      split; [|split; [done|simpl; done]]. assert (HL : live s t pid) by (split; eauto).
      exists (gupd γ t (γ t)). eapply LInv_local; try done; by eapply IC_gupd_same.
    - pose proof (H2 _ _ _ Ht Hal) as Hw.
      destruct (LInv_act s γ pend t pid TT a k _ r m' Constructing HInv Ht Hal Hw) as [X1 X2]; try done.
      split; [done|]. split; [done|]. simpl. intros w Hx. exists t, pid.
      split; [done|]. split; [split; eauto|auto].
    - pose proof (H2 _ _ _ Ht Hal) as Hw.
      destruct (LInv_act s γ pend t pid keeps_out a k _ r m' Downgrading HInv Ht Hal Hw) as [X1 X2]; try done.
      split; [done|]. split; [done|]. simpl. intros w Hx. exists t, pid.
      split; [done|]. split; [split; eauto|auto].
    - pose proof (H2 _ _ _ Ht Hal) as Hw.
      destruct (LInv_act s γ pend t pid TT a k _ r m' Destroying HInv Ht Hal Hw) as [X1 X2]; try done.
      split; [done|]. split; [done|]. simpl. intros w Hx. exists t, pid.
      split; [done|]. split; [split; eauto|auto].
    - by destruct (H2 _ _ _ Ht Hal).
    - by destruct (H2 _ _ _ Ht Hal).
    - by destruct (H2 _ _ _ Ht Hal).
  Qed.

  (** A process dies while it holds the lock for writing. *)
  Lemma LInv_dies s s' γ pend t pid g :
    lstep F pid_ok false allowed s (Dies pid) s' -> LInv s γ pend ->
    l_threads s !! t = Some (pid, Holding g) -> g_slot g = -1 -> ~ allowed READ ->
    LInv s' γ true.
  Proof.
    intros Hst (H1 & H2 & H3) Ht Hs Hnr. inversion Hst as [| |s0 p Hal| | | | | | | | | | | | ]; subst.
    assert (HL : live s t pid) by (split; eauto).
    destruct (H2 _ _ _ Ht Hal) as [(G1 & G2 & G2' & G3) Hacq].
    destruct G3 as [(_ & Hw & Hr & Hstl & Hd)|(i & Hi & _)]; [|lia].
    split; [|split]; simpl.
    - assert (HI : IC (live s) (l_alive s ∖ {[pid]}) (l_used s) (l_mem s) γ false \/ True) by (by right).
      clear HI. destruct H1.
      assert (HL' : forall t' p', live (LState (l_mem s) (l_alive s ∖ {[pid]}) (l_used s) (l_threads s)) t' p' ->
         live s t' p' /\ p' <> pid /\ t' <> t).
      { intros t' p' [Ha [x Hx]]. simpl in *. split; [split; [set_solver|eauto]|].
        split; [set_solver|]. intros ->. rewrite Ht in Hx. simplify_eq. set_solver. }
      split; simpl; try done.
      + intros t' p' [Ha _]. done.
      + set_solver.
      + intros t' p' [X _]%HL'. eauto.
      + intros t1 p1 t2 p2 [X _]%HL' [Y _]%HL'. eauto.
      + intros t1 p1 i [X _]%HL'. eauto.
      + intros t1 p1 t2 p2 i [X _]%HL' [Y _]%HL'. eauto.
      + intros t' p' [X _]%HL'. eauto.
      + intros t' p' [X _]%HL'. destruct (ic_dead0 _ _ X). set_solver.
      + intros t1 p1 i [X _]%HL'. eauto.
      + intros _. split; [done|]. split.
        * rewrite (ic_w0 _ _ HL Hw). pose proof (ic_pid0 pid (ic_used0 _ Hal)) as [? _]. lia.
        * intros t' p' (X & Y & Z)%HL'. split.
          -- destruct (own_r (γ t')) as [i|] eqn:E; [|done]. exfalso.
             destruct Hd as [Hd|Hpl].
             ++ destruct (ic_r0 _ _ _ X E) as [E1 E2].
                destruct (ic_drain0 _ _ i HL Hw) as [E3|E3]; [lia| |].
                ** pose proof (ic_pid0 p' (ic_used0 _ (ic_alive0 _ _ X))) as [? _]. lia.
                ** apply Z. by eapply (ic_r2 t' p' t pid).
             ++ specialize (ic_plain0 (Hmix Hpl) _ _ X). congruence.
          -- intros W. exfalso. apply Z. by eapply (ic_w2 t' p' t pid).
      + intros Hp t' p' [X _]%HL'. eauto.
    - intros t' p' x Hx Ha. eapply H2; [done|set_solver].
    - done.
  Qed.

  Lemma LInv_init : LInv lstate0 (fun _ => LG false None 0 0 false ∅ ∅) false.
  Proof.
    split; [|split]; simpl; try done.
    split; simpl; try done; intros; try (by destruct H as [_ [? ?]]); try set_solver.
  Qed.

  Lemma LInv_steps s ls s' γ :
    lsteps F pid_ok false allowed s ls s' -> LInv s γ false -> exists γ', LInv s' γ' false.
  Proof.
    intros H. revert γ. induction H as [|s l s1 ls s2 H1 H2 IH]; intros γ HI; [eauto|].
    destruct (LInv_step _ _ _ _ _ H1 HI) as [[γ' HI'] _].
    apply (IH γ'). by destruct l.
  Qed.

  Definition is_acquired (lb : label) : bool :=
    match lb with Acquired _ _ => true | _ => false end.

  Lemma LInv_steps_pend s ls s' γ :
    lsteps F pid_ok false allowed s ls s' -> LInv s γ true ->
    Forall (fun lb => is_acquired lb = false) ls -> exists γ', LInv s' γ' true.
  Proof.
    intros H. revert γ. induction H as [|s l s1 ls s2 H1 H2 IH]; intros γ HI HF; [eauto|].
    inversion HF; subst.
    destruct (LInv_step _ _ _ _ _ H1 HI) as [[γ' HI'] _].
    apply (IH γ'); [|done]. by destruct l.
  Qed.
End proof.
