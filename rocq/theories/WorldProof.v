(** * Transferring separation-logic facts to worlds. *)
From Verif Require Export World Adequacy SimpleAllocModel.
From iris.proofmode Require Import tactics.
From iris.prelude Require Import options.
Open Scope Z_scope.
Open Scope prog_scope.

Global Instance holds_proper : Proper ((≡) ==> (=) ==> iff) holds.
Proof.
  intros P Q HPQ s _ <-. split; apply holds_mono; by rewrite HPQ.
Qed.

(** ** Changing the per-process part of the state *)
Definition set_scalars (s : pst) (e mx : Z) : pst :=
  mk_pst (mem s) (fsize s) (mapped s) e mx (oslim s).

Lemma hp_cell_update a x y (P : hPropI) h :
  (cell a x ∗ P)%I h → (cell a y ∗ P)%I (<[a := y]> h).
Proof.
  intros Hh. apply hp_sep in Hh as (h1 & h2 & Hd & -> & H1 & H2). apply hp_cell in H1.
  rewrite insert_union_l. apply hp_sep. exists (<[a:=y]> h1), h2. split_and!; [|done| |done].
  - apply map_disjoint_insert_l_2; [|done]. by eapply map_disjoint_Some_l.
  - apply hp_cell. apply lookup_insert.
Qed.

Lemma holds_set_scalars x y e mx P s :
  holds (cell a_epoch x ∗ cell a_maxsz y ∗ P) s →
  holds (cell a_epoch e ∗ cell a_maxsz mx ∗ P) (set_scalars s e mx).
Proof.
  intros [Hw H]. apply holds_repr.
  exists (<[a_maxsz := mx]> (<[a_epoch := e]> (heap_of s))). split.
  - pose proof (heap_of_repr s Hw) as [Hm Hb Hh]. split; [done|done|].
    intros a. destruct (decide (a = a_maxsz)) as [->|H1]; [by rewrite lookup_insert|].
    rewrite lookup_insert_ne //. destruct (decide (a = a_epoch)) as [->|H2]; [by rewrite lookup_insert|].
    rewrite lookup_insert_ne // Hh. unfold scell; simpl.
    repeat case_decide; done.
  - apply (hp_cell_update _ x e) in H.
    assert ((cell a_epoch e ∗ cell a_maxsz y ∗ P) ⊢ cell a_maxsz y ∗ (cell a_epoch e ∗ P))%I as HH.
    { iIntros "($ & $ & $)". }
    rewrite hp_entails in HH. apply HH in H. apply (hp_cell_update _ y mx) in H.
    assert (cell a_maxsz mx ∗ (cell a_epoch e ∗ P) ⊢ (cell a_epoch e ∗ cell a_maxsz mx ∗ P))%I as HH2.
    { iIntros "($ & $ & $)". }
    rewrite hp_entails in HH2. by apply HH2.
Qed.

(** ** File-level invariants *)
Definition base_view (W : world) (m : Z) : pst :=
  mk_pst (w_mem W) (w_fsize W) m 0 0 (w_lim W).

(** The pool file has size [m] and its contents satisfy [R m]. *)
Definition file_holds (R : Z → hPropI) (W : world) : Prop :=
  ∃ m, holds (pool_inv (Cfg 0 (w_lim W)) m 0 ∗ R m) (base_view W m).

Definition proc_ok (p : proc) : Prop := 4096 <= p_mapped p ∧ 0 <= p_max p.
Definition world_ok (W : world) : Prop :=
  ∀ i p, w_procs W !! i = Some p → proc_ok p.

Lemma file_holds_mono R R' W :
  (∀ m, R m ⊢ R' m) → file_holds R W → file_holds R' W.
Proof.
  intros HR [m H]. exists m. eapply holds_mono; [|exact H]. by rewrite HR.
Qed.
Lemma file_holds_exist {A} (R : A → Z → hPropI) W :
  file_holds (λ m, ∃ x, R x m)%I W ↔ ∃ x, file_holds (R x) W.
Proof.
  split.
  - intros [m H]. rewrite bi.sep_exist_l in H. apply holds_exist in H as [x H].
    exists x, m. done.
  - intros [x [m H]]. exists m. eapply holds_mono; [|exact H]. iIntros "[$ H]". by iExists x.
Qed.
Lemma file_holds_pure φ R W : file_holds (λ m, ⌜φ⌝ ∗ R m)%I W → φ ∧ file_holds R W.
Proof.
  intros [m H]. split.
  - eapply (holds_pure φ). eapply holds_mono; [|exact H]. iIntros "(_ & % & _)". done.
  - exists m. eapply holds_mono; [|exact H]. iIntros "($ & _ & $)".
Qed.

(** The pool as seen by a process whose mapping is up to date. *)
Lemma file_holds_view R W m e mx :
  holds (pool_inv (Cfg 0 (w_lim W)) m 0 ∗ R m) (base_view W m) → 0 <= mx →
  holds (pool_inv (Cfg mx (w_lim W)) m e ∗ R m)
        (mk_pst (w_mem W) (w_fsize W) m e mx (w_lim W)).
Proof.
  intros H Hmx.
  assert (holds (cell a_epoch 0 ∗ cell a_maxsz 0 ∗
    (cell a_mapped m ∗ cell a_oslim (w_lim W) ∗ (∃ f, cell a_fsize f ∗ ⌜m <= f⌝) ∗ word 0 m ∗
     ⌜cfg_ok (Cfg 0 (w_lim W)) ∧ size_ok m ∧ size_ok m ∧ m <= m⌝ ∗ R m)) (base_view W m)) as H2.
  { eapply holds_mono; [|exact H]. iIntros "(($ & $ & $ & $ & $ & $ & $) & $)". }
  apply (holds_set_scalars _ _ e mx) in H2. unfold base_view, set_scalars in H2; simpl in H2.
  eapply holds_mono; [|exact H2].
  iIntros "($ & $ & $ & $ & $ & $ & %Hx & $)". iPureIntro.
  destruct Hx as ((? & ?) & ? & ? & ?). split_and!; try done.
Qed.

(** And back. *)
Lemma file_holds_leave R c m e W i s :
  c_lim c = w_lim W →
  holds (pool_inv c m e ∗ R m) s → file_holds R (leave W i s) ∧ oslim s = w_lim W ∧
  size_ok m ∧ mapped s = m ∧ maxsz s = c_max c.
Proof.
  intros Hlim H.
  assert (mapped s = m ∧ oslim s = c_lim c ∧ maxsz s = c_max c ∧ size_ok m) as (Hm & Hl & Hx & Hs).
  { assert (∀ a v, (pool_inv c m e ∗ R m ⊢ cell a v) → scell s a = Some v) as Hc.
    { intros a v Hav. destruct H as [Hw H]. rewrite hp_entails in Hav. apply Hav in H.
      apply hp_cell in H. by rewrite (repr_heap _ _ (heap_of_repr _ Hw)) in H. }
    pose proof (Hc a_mapped m) as H1. pose proof (Hc a_oslim (c_lim c)) as H2.
    pose proof (Hc a_maxsz (c_max c)) as H3.
    unfold scell in *; simpl in *.
    assert (size_ok m).
    { eapply holds_pure. eapply holds_mono; [|exact H].
      iIntros "((_ & _ & _ & _ & _ & _ & %Hx) & _)". iPureIntro. apply Hx. }
    split_and!; [| | |done].
    - feed pose proof H1; [iIntros "(($ & _) & _)"|]. congruence.
    - feed pose proof H2; [iIntros "((_ & _ & _ & $ & _) & _)"|]. congruence.
    - feed pose proof H3; [iIntros "((_ & _ & $ & _) & _)"|]. congruence. }
  split_and!; try done; [|congruence].
  exists m.
  assert (holds (cell a_epoch e ∗ cell a_maxsz (c_max c) ∗
    (cell a_mapped m ∗ cell a_oslim (c_lim c) ∗ (∃ f, cell a_fsize f ∗ ⌜m <= f⌝) ∗ word 0 m ∗
     ⌜cfg_ok c ∧ size_ok m ∧ size_ok m ∧ m <= m⌝ ∗ R m)) s) as H2.
  { eapply holds_mono; [|exact H]. iIntros "(($ & $ & $ & $ & $ & $ & $) & $)". }
  apply (holds_set_scalars _ _ 0 0) in H2. unfold base_view, set_scalars in *; simpl in *.
  rewrite Hm Hl Hlim in H2.
  eapply holds_mono; [|exact H2].
  iIntros "($ & $ & $ & $ & $ & $ & %Hy & $)". iPureIntro.
  destruct Hy as ((? & ?) & ? & ? & ?). split_and!; try done; unfold cfg_ok; simpl; lia.
Qed.

Lemma run_load64 a s :
  run (load64 a) s = if valid s a 8 then Done (le_val (read_bytes s a 8)) s else UB.
Proof. unfold load64, load. cbn [run exec]. by destruct (valid s a 8). Qed.
Lemma crash_load64 a s s' : crash_state (load64 a) s s' → s' = s.
Proof.
  unfold load64, load. cbn [crash_state exec]. destruct (valid s a 8); [|by intros [->|[]]].
  by intros [->|[->|[]]].
Qed.

Lemma write_bytes_get m a bs x :
  write_bytes m a bs !! x =
  if bool_decide (a <= x < a + Z.of_nat (length bs)) then bs !! Z.to_nat (x - a) else m !! x.
Proof.
  revert m a. induction bs as [|b bs IH]; intros m a; simpl.
  - case_bool_decide; [lia|done].
  - rewrite IH. repeat case_bool_decide; try lia.
    + replace (Z.to_nat (x - a)) with (S (Z.to_nat (x - (a + 1)))) by lia. done.
    + assert (x = a) as -> by lia. rewrite lookup_insert Z.sub_diag. done.
    + rewrite lookup_insert_ne //. lia.
Qed.
Lemma read_bytes_ext s s' a n :
  (forall x, a <= x < a + Z.of_nat n -> bget s' x = bget s x) -> read_bytes s' a n = read_bytes s a n.
Proof.
  revert a. induction n as [|n IH]; intros a H; simpl; [done|]. f_equal; [apply H; lia|].
  apply IH. intros x Hx. apply H. lia.
Qed.
Lemma read_write m fs mp e mx l a bs :
  read_bytes (mk_pst (write_bytes m a bs) fs mp e mx l) a (length bs) = bs.
Proof.
  assert (forall n, (n <= length bs)%nat -> read_bytes (mk_pst (write_bytes m a bs) fs mp e mx l)
    (a + Z.of_nat (length bs - n)) n = drop (length bs - n) bs) as H.
  { induction n as [|n IH]; intros Hn; cbn [read_bytes].
    - rewrite Nat.sub_0_r drop_all. done.
    - destruct (lookup_lt_is_Some_2 bs (length bs - S n)) as [b Hb]; [lia|].
      rewrite (drop_S _ _ _ Hb). replace (S (length bs - S n)) with (length bs - n)%nat by lia.
      rewrite -IH; [|lia]. f_equal; [|f_equal; lia].
      unfold bget. cbn [mem]. rewrite write_bytes_get.
      rewrite bool_decide_eq_true_2; [|lia].
      replace (Z.to_nat (a + Z.of_nat (length bs - S n) - a)) with (length bs - S n)%nat by lia.
      by rewrite Hb. }
  specialize (H (length bs) ltac:(lia)). rewrite Nat.sub_diag in H.
  rewrite Z.add_0_r drop_0 in H. exact H.
Qed.

(** ** The lock: bringing the mapping up to date *)
Lemma run_check_size s w :
  8 <= mapped s → 8 <= fsize s → le_val (read_bytes s 0 8) = w → w ≠ 0 →
  ∃ e', run check_size_and_remap s =
        Done tt (mk_pst (mem s) (fsize s) w e' (maxsz s) (oslim s)).
Proof.
  intros Hm Hf Hw Hw0. unfold check_size_and_remap. rewrite run_bind. simpl.
  rewrite (bool_decide_eq_false_2 (mapped s = 0)); [|lia].
  rewrite run_bind run_load64. unfold valid.
  rewrite bool_decide_eq_true_2; [|lia]. rewrite Hw.
  case_bool_decide as Hc.
  - exists (epoch s). subst. destruct s; simpl in *. by rewrite Hc.
  - exists (epoch s + 1). rewrite run_bind. unfold remap. cbn [run exec].
    rewrite (bool_decide_eq_false_2 (w = 0)) //.
Qed.

Lemma crash_check_size s w s' :
  8 <= mapped s → 8 <= fsize s → le_val (read_bytes s 0 8) = w →
  crash_state check_size_and_remap s s' → mem s' = mem s ∧ fsize s' = fsize s.
Proof.
  intros Hm Hf Hw Hc. unfold check_size_and_remap in Hc.
  apply crash_bind in Hc as [[->|Hc]|(? & s1 & Hr & Hc)]; [done| |].
  { simpl in Hc. destruct Hc as [->|[]]. done. }
  simpl in Hr. injection Hr as <- <-.
  rewrite (bool_decide_eq_false_2 (mapped s = 0)) in Hc; [|lia].
  apply crash_bind in Hc as [Hc|(? & s1 & Hr & Hc)].
  - by apply crash_load64 in Hc as ->.
  - rewrite run_load64 in Hr. case_match; [|done]. injection Hr as <- <-.
    case_bool_decide.
    + destruct Hc as [->|[]]. done.
    + apply crash_bind in Hc as [Hc|(? & s1 & Hr & Hc)].
      * destruct Hc as [->|Hc]; [done|]. simpl in Hc. destruct Hc as [->|[]]. done.
      * unfold remap in Hr. cbn [run exec] in Hr. injection Hr as <- <-.
        case_bool_decide; destruct Hc as [->|[]]; done.
Qed.

Lemma file_holds_facts R W : file_holds R W →
  size_ok (w_size W) ∧ w_size W <= w_fsize W ∧
  holds (pool_inv (Cfg 0 (w_lim W)) (w_size W) 0 ∗ R (w_size W)) (base_view W (w_size W)).
Proof.
  intros [m H].
  assert (w_size W = m) as Hw.
  { assert (holds (word 0 m) (base_view W m)) as Hh.
    { eapply holds_mono; [|exact H]. iIntros "((_ & _ & _ & _ & _ & $ & _) & _)". }
    apply holds_word in Hh as (_ & _ & Hh). rewrite -Hh. unfold w_size, w_word, w_read, base_view.
    done. }
  assert (size_ok m) as Hs.
  { eapply holds_pure. eapply holds_mono; [|exact H].
    iIntros "((_ & _ & _ & _ & _ & _ & %Hx) & _)". iPureIntro. apply Hx. }
  rewrite Hw. split_and!; [done| |done].
  destruct H as [[Hm _] _]. simpl in Hm. lia.
Qed.

Lemma read_bytes_mem s s' a n : mem s = mem s' → read_bytes s a n = read_bytes s' a n.
Proof.
  intros Hm. revert a; induction n as [|n IH]; intros a; simpl; [done|].
  rewrite IH. f_equal. unfold bget. by rewrite Hm.
Qed.

Lemma run_lock R W p :
  file_holds R W → proc_ok p →
  ∃ e', run sa_lock (view W p) =
        Done tt (mk_pst (w_mem W) (w_fsize W) (w_size W) e' (p_max p) (w_lim W)).
Proof.
  intros H [Hp1 Hp2]. apply file_holds_facts in H as (Hs & Hle & _).
  destruct Hs as [Hs _].
  unfold sa_lock. rewrite run_bind.
  destruct (run_check_size (view W p) (w_size W)) as [e1 He1]; [simpl; lia|simpl; lia|done|lia|].
  rewrite He1. cbn [view mem fsize maxsz oslim].
  destruct (run_check_size (mk_pst (w_mem W) (w_fsize W) (w_size W) e1 (p_max p) (w_lim W)) (w_size W))
    as [e2 He2]; [simpl; lia|simpl; lia|done|lia|].
  rewrite He2. cbn [mem fsize maxsz oslim]. eauto.
Qed.

Lemma crash_lock R W p s' :
  file_holds R W → proc_ok p → crash_state sa_lock (view W p) s' →
  mem s' = w_mem W ∧ fsize s' = w_fsize W.
Proof.
  intros H [Hp1 Hp2] Hc. apply file_holds_facts in H as (Hs & Hle & _).
  destruct Hs as [Hs _]. unfold sa_lock in Hc.
  apply crash_bind in Hc as [Hc|(? & s1 & Hr & Hc)].
  - eapply (crash_check_size (view W p) (w_size W)) in Hc; [done|simpl; lia|simpl; lia|done].
  - destruct (run_check_size (view W p) (w_size W)) as [e1 He1]; [simpl; lia|simpl; lia|done|lia|].
    rewrite He1 in Hr. injection Hr as <- <-.
    eapply (crash_check_size _ (w_size W)) in Hc; [done|simpl; lia|simpl; lia|done].
Qed.

(** ** Crashed pools: the size word may be ahead of the dead process's mapping *)
Definition growable (R : Z → hPropI) : Prop := ∀ m w, m <= w → (R m ∗ raw m w ⊢ R w).

Lemma file_holds_die R c W i s :
  c_lim c = w_lim W → growable R →
  holds (∃ m w e, pool_gen c m w e ∗ R m)%I s → file_holds R (die W i s).
Proof.
  intros Hlim Hg H.
  apply holds_exist in H as [m H]. apply holds_exist in H as [w H]. apply holds_exist in H as [e H].
  (* let the dead process remap *)
  assert (holds (wp check_size_and_remap (λ _, ∃ e', pool_inv c w e' ∗ R w)%I (λ _, False)%I) s) as Hwp.
  { eapply holds_mono; [|exact H]. iIntros "[Hp HR]".
    iApply bind_ret_r. iApply (wpc_check_size_and_remap with "Hp"). iSplit; [auto|].
    iIntros (e') "_ Hp Hraw". iApply wp_ret. iExists e'. iFrame "Hp".
    iDestruct (raw_le with "Hraw") as %?. iApply Hg; [done|]. iFrame. }
  apply wpc_adequacy in Hwp as [Hrun _].
  assert (∃ f, run check_size_and_remap s = Done tt f ∧ mem f = mem s ∧ fsize f = fsize s) as (f & Hf & Hf1 & Hf2).
  { assert (holds (word 0 w ∗ ⌜size_ok m⌝ ∗ cell a_mapped m) s) as Hh.
    { eapply holds_mono; [|exact H]. iIntros "(($ & _ & _ & _ & _ & $ & %Hx) & _)". iPureIntro. tauto. }
    assert (holds (word 0 w) s) as Hh2.
    { eapply holds_mono; [|exact Hh]. iIntros "[$ _]". }
    apply holds_word in Hh2 as (_ & Hm8 & Hrd).
    assert (size_ok w) as Hsw.
    { eapply holds_pure. eapply holds_mono; [|exact H].
      iIntros "((_ & _ & _ & _ & _ & _ & %Hx) & _)". iPureIntro. tauto. }
    pose proof H as [[Hwf _] _].
    destruct (run_check_size s w) as [e' He']; [lia|lia|done| |]; [unfold size_ok in *; lia|]. rewrite He'. eexists. done. }
  rewrite Hf in Hrun. apply holds_exist in Hrun as [e' Hrun].
  eapply (file_holds_leave R c w e' W i f Hlim) in Hrun as (Hfh & _).
  destruct Hfh as [m' Hfh]. exists m'. unfold base_view, leave, die in *; simpl in *.
  by rewrite -Hf1 -Hf2.
Qed.

(** ** One operation under the lock *)
Definition same_env (W : world) (i : nat) (pr : proc) (W' : world) : Prop :=
  w_lim W' = w_lim W ∧ world_ok W' ∧
  (∃ m e, w_procs W' = <[i := Proc m (p_max pr) e]> (w_procs W)).

Lemma leave_ok Q W i pr m e s' :
  world_ok W → proc_ok pr →
  holds (pool_inv (Cfg (p_max pr) (w_lim W)) m e ∗ Q m) s' →
  file_holds Q (leave W i s') ∧ same_env W i pr (leave W i s').
Proof.
  intros Hok Hpr Hs'.
  apply (file_holds_leave Q _ m e W i s') in Hs' as (Hf & Hl & Hsz & Hm & Hx); [|done].
  split; [done|]. split_and!; [done| |].
  - intros j q. simpl. destruct (decide (j = i)) as [->|Hne].
    + rewrite lookup_insert. intros [= <-]. split; simpl.
      * rewrite Hm. by destruct Hsz as [[]].
      * rewrite Hx. apply Hpr.
    + rewrite lookup_insert_ne //. apply Hok.
  - simpl. exists (mapped s'), (epoch s'). by rewrite Hx.
Qed.

Lemma run_by_lock_wp {A} R R' Rx W i pr (p : prog A) :
  file_holds R W → world_ok W → w_procs W !! i = Some pr →
  (∀ e, pool_inv (Cfg (p_max pr) (w_lim W)) (w_size W) e ∗ R (w_size W) ⊢
     wp p (λ a, ∃ m' e', pool_inv (Cfg (p_max pr) (w_lim W)) m' e' ∗ R' a m')
          (λ x, ∃ m' e', pool_inv (Cfg (p_max pr) (w_lim W)) m' e' ∗ Rx x m')) →
  match run_by W i (sa_lock ;; p) with
  | WDone a W' => file_holds (R' a) W' ∧ same_env W i pr W'
  | WExn x W' => file_holds (Rx x) W' ∧ same_env W i pr W'
  | WBad | WNoProc => False
  end.
Proof.
  intros HR Hok Hi Hwp.
  pose proof (Hok i pr Hi) as Hpr.
  destruct (run_lock R W pr HR Hpr) as [e' Hlock].
  pose proof (file_holds_facts R W HR) as (Hs & Hle & Hb).
  set (s1 := mk_pst (w_mem W) (w_fsize W) (w_size W) e' (p_max pr) (w_lim W)) in *.
  assert (holds (pool_inv (Cfg (p_max pr) (w_lim W)) (w_size W) e' ∗ R (w_size W)) s1) as Hs1.
  { apply file_holds_view; [done|]. apply Hpr. }
  eapply (holds_mono _ _ _ (Hwp e')) in Hs1. apply wpc_adequacy in Hs1 as [Hrun _].
  unfold run_by. rewrite Hi run_bind Hlock. fold s1.
  destruct (run p s1) as [a s'|x s'| |]; try done.
  - apply holds_exist in Hrun as [m Hrun]. apply holds_exist in Hrun as [e Hrun]. by eapply leave_ok.
  - apply holds_exist in Hrun as [m Hrun]. apply holds_exist in Hrun as [e Hrun]. by eapply leave_ok.
Qed.

Lemma run_by_lock {A} R R' Rx Rc W i pr (p : prog A) :
  file_holds R W → world_ok W → w_procs W !! i = Some pr →
  growable Rc →
  (∀ e, pool_inv (Cfg (p_max pr) (w_lim W)) (w_size W) e ∗ R (w_size W) ⊢
     wpc (∃ m w e, pool_gen (Cfg (p_max pr) (w_lim W)) m w e ∗ Rc m) p
         (λ a, ∃ m' e', pool_inv (Cfg (p_max pr) (w_lim W)) m' e' ∗ R' a m')
         (λ x, ∃ m' e', pool_inv (Cfg (p_max pr) (w_lim W)) m' e' ∗ Rx x m')) →
  match run_by W i (sa_lock ;; p) with
  | WDone a W' => file_holds (R' a) W' ∧ same_env W i pr W'
  | WExn x W' => file_holds (Rx x) W' ∧ same_env W i pr W'
  | WBad | WNoProc => False
  end ∧
  ∀ W', dies_in W i (sa_lock ;; p) W' →
    (file_holds R W' ∨ file_holds Rc W') ∧ world_ok W' ∧ w_lim W' = w_lim W ∧
    w_procs W' = delete i (w_procs W).
Proof.
  intros HR Hok Hi Hg Hwp. split.
  { apply (run_by_lock_wp R); [done|done|done|]. intros e. rewrite (Hwp e).
    iIntros "H". iApply (wpc_strong_mono with "H"). iSplit; [|iSplit]; auto. }
  pose proof (Hok i pr Hi) as Hpr.
  destruct (run_lock R W pr HR Hpr) as [e' Hlock].
  pose proof (file_holds_facts R W HR) as (Hs & Hle & Hb).
  set (s1 := mk_pst (w_mem W) (w_fsize W) (w_size W) e' (p_max pr) (w_lim W)) in *.
  assert (holds (pool_inv (Cfg (p_max pr) (w_lim W)) (w_size W) e' ∗ R (w_size W)) s1) as Hs1.
  { apply file_holds_view; [done|]. apply Hpr. }
  eapply (holds_mono _ _ _ (Hwp e')) in Hs1. apply wpc_adequacy in Hs1 as [_ Hcr].
  intros W' (pr' & s & Hi' & Hc & ->). simplify_eq.
  split_and!; [|intros j q; simpl; rewrite lookup_delete_Some; intros [_ Hj]; by eapply Hok|done|done].
  apply crash_bind in Hc as [Hc|([] & s2 & Hr & Hc)].
  - left. apply (crash_lock R) in Hc as [Hm Hf]; [|done|done].
    destruct HR as [m HR]. exists m. unfold base_view, die in *; simpl. by rewrite Hm Hf.
  - right. rewrite Hlock in Hr. injection Hr as <-. apply Hcr in Hc.
    by eapply file_holds_die in Hc.
Qed.

(** ** Contents of the file *)
Lemma file_holds_pts R a bs W :
  file_holds (λ m, pts a bs ∗ R m)%I W → w_read W a (length bs) = bs.
Proof.
  intros [m H]. destruct bs as [|b bs]; [done|].
  assert (holds (pts a (b :: bs)) (base_view W m)) as Hp.
  { eapply holds_mono; [|exact H]. iIntros "(_ & $ & _)". }
  apply holds_pts in Hp as (_ & _ & Hp); [|done]. rewrite -{2}Hp. unfold w_read.
  by apply read_bytes_mem.
Qed.
Lemma file_holds_raw R a b W :
  file_holds (λ m, raw a b ∗ R m)%I W →
  file_holds (λ m, pts a (w_read W a (Z.to_nat (b - a))) ∗ R m)%I W.
Proof.
  intros H.
  assert (file_holds (λ m, ∃ bs, ⌜Z.to_nat (b - a) = length bs⌝ ∗ pts a bs ∗ R m)%I W) as H2.
  { eapply file_holds_mono; [|exact H]. intros m. iIntros "[(%bs & %Hl & Hp) HR]". iExists bs.
    iFrame. iPureIntro. lia. }
  apply file_holds_exist in H2 as [bs H2]. apply file_holds_pure in H2 as [Hl H2].
  rewrite Hl (file_holds_pts _ _ _ _ H2). done.
Qed.
Lemma w_read_lookup W a n j : (j < n)%nat →
  w_read W a n !! j = Some (default 0 (w_mem W !! (a + Z.of_nat j))).
Proof. intros Hj. unfold w_read. by rewrite read_bytes_spec. Qed.
Lemma w_read_length W a n : length (w_read W a n) = n.
Proof. apply read_bytes_length. Qed.
Lemma file_holds_or R R' W :
  file_holds (λ m, R m ∨ R' m)%I W → file_holds R W ∨ file_holds R' W.
Proof.
  intros [m Hf].
  assert (holds ((pool_inv (Cfg 0 (w_lim W)) m 0 ∗ R m) ∨
       (pool_inv (Cfg 0 (w_lim W)) m 0 ∗ R' m))%I (base_view W m)) as Hf2.
  { eapply holds_mono; [|exact Hf]. iIntros "[Hp [H|H]]"; [iLeft|iRight]; iFrame. }
  destruct Hf2 as [Hwf Hf2]. apply hp_or in Hf2 as [Hf2|Hf2]; [left|right]; exists m; by split.
Qed.
Lemma file_holds_at R W : file_holds R W ↔ file_holds (λ m, ⌜m = w_size W⌝ ∗ R m)%I W.
Proof.
  split.
  - intros H. apply file_holds_facts in H as (_ & _ & H). exists (w_size W).
    eapply holds_mono; [|exact H]. iIntros "[$ $]". done.
  - intros [m H]. exists m. eapply holds_mono; [|exact H]. iIntros "[$ [_ $]]".
Qed.
Lemma file_holds_same R W W' :
  w_mem W' = w_mem W → w_fsize W' = w_fsize W → w_lim W' = w_lim W →
  file_holds R W → file_holds R W'.
Proof. intros E1 E2 E3 [m H]. exists m. unfold base_view in *. by rewrite E1 E2 E3. Qed.
Lemma file_holds_pure_m (φ : Z → Prop) R W :
  file_holds (λ m, ⌜φ m⌝ ∗ R m)%I W → φ (w_size W) ∧ file_holds R W.
Proof.
  intros H. apply file_holds_facts in H as (_ & _ & H). split.
  - eapply (holds_pure (φ (w_size W))). eapply holds_mono; [|exact H]. iIntros "(_ & % & _)". done.
  - exists (w_size W). eapply holds_mono; [|exact H]. iIntros "($ & _ & $)".
Qed.
