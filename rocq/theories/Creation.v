(** * Death of the process that creates a pool (C48): what holds. *)
From Verif Require Import World SimpleAllocModel SimpleSpec SimpleGame SimpleMain.
From iris.prelude Require Import prelude options.
Open Scope Z_scope.
Open Scope prog_scope.
Local Arguments bind {A B} !p k /.

Lemma create_crash mx lim s :
  crash_state pool_create (no_pool mx lim) s →
  (fsize s = 0 ∧ mem s = ∅) ∨ (fsize s = 4096 ∧ mem s = ∅) ∨ run pool_create (no_pool mx lim) = Done tt s.
Proof.
  unfold pool_create, ftruncate, no_pool, PAGE. cbn [bind crash_state exec oslim fsize mem mapped epoch maxsz].
  intros [->|H]; [by left|]. case_bool_decide as Hl; cbn [bind crash_state] in H.
  - rewrite bool_decide_eq_false_2 in H; [|lia].
    rewrite (bool_decide_eq_false_2 (4096 < 0)) in H; [|lia].
    unfold remap, store64 in H. cbn [bind crash_state exec oslim fsize mem mapped epoch maxsz] in H.
    destruct H as [->|H]; [right; by left|]. destruct H as [->|H]; [right; by left|].
    right; right. cbn [bind run exec oslim fsize mem mapped epoch maxsz].
    rewrite (bool_decide_eq_true_2 (4096 ≤ lim)); [|done].
    rewrite bool_decide_eq_false_2; [|lia].
    rewrite (bool_decide_eq_false_2 (4096 < 0)); [|lia].
    unfold remap, store64. cbn [bind run exec oslim fsize mem mapped epoch maxsz].
    rewrite /exec in H |- *. destruct (valid _ _ _); [|done]. cbn [bind crash_state run] in H |- *.
    destruct H as [->|[]]. done.
  - rewrite bool_decide_eq_true_2 in H; [|lia]. cbn [bind crash_state] in H. destruct H as [->|[]]; by left.
Qed.

Lemma create_lim mx lim s : run pool_create (no_pool mx lim) = Done tt s → oslim s = lim.
Proof.
  unfold pool_create, ftruncate, remap, store64, store, no_pool, PAGE.
  cbn [bind run exec oslim fsize mem mapped epoch maxsz].
  case_bool_decide; cbn [bind run]; case_bool_decide; try done.
  cbn [bind run]. rewrite /exec. cbn [oslim fsize mem mapped epoch maxsz].
  destruct (valid _ _ _); [|done]. cbn [bind run]. by intros [= <-].
Qed.

Lemma started_open lim W d j mx :
  started lim W d → w_procs W !! j = None → 0 <= mx →
  ∃ W1, open_by W j mx = WDone tt W1 ∧ started lim W1 d ∧ is_Some (w_procs W1 !! j).
Proof.
  intros Hs Hj Hmx. pose proof (started_ok_file _ _ (started_inv _ _ _ Hs)) as Hf.
  pose proof (file_holds_facts _ _ Hf) as ([Hsz _] & Hfs & _).
  assert (∃ W1, open_by W j mx = WDone tt W1 ∧ is_Some (w_procs W1 !! j)) as (W1 & Ho & Hi).
  { unfold open_by, pool_open, get_fsize. rewrite run_bind. cbn [run exec fsize].
    rewrite (bool_decide_eq_false_2 (w_fsize W = 0)); [|lia]. unfold remap. cbn [run exec].
    eexists. split; [reflexivity|]. unfold leave. simpl. rewrite lookup_insert. by eexists. }
  exists W1. split; [done|]. split; [|done]. by eapply st_opened.
Qed.

Lemma creation_crash_law mx lim F s :
  0 <= mx → lim <= 2 ^ 62 →
  crash_state (pool_create ;; sa_construct false F) (no_pool mx lim) s →
  (fsize s = 0 ∧ mem s = ∅) ∨
  (fsize s = 4096 ∧ mem s = ∅) ∨
  (started lim (die (empty_world lim) 0 s) true ∧
   ∀ j mx' F', 0 <= mx' → ∃ W1 W2,
     open_by (die (empty_world lim) 0 s) j mx' = WDone tt W1 ∧
     run_by W1 j (sa_construct true F') = WDone tt W2 ∧
     (∃ d, started lim W2 d) ∧ initialized W2).
Proof.
  intros Hmx Hlim Hc.
  assert ((fsize s = 0 ∧ mem s = ∅) ∨ (fsize s = 4096 ∧ mem s = ∅) ∨ started lim (die (empty_world lim) 0 s) true) as H.
  { apply crash_bind in Hc as [Hc|([] & s1 & H1 & Hc)].
    - destruct (create_crash _ _ _ Hc) as [H|[H|H]]; [by left|right; by left|].
      right; right. eapply (st_died_in_constructor lim (leave (empty_world lim) 0 s) false 0 F).
      { by eapply st_created. }
      eexists _, s. split; [apply lookup_insert|]. split; [|unfold die, leave; simpl; by rewrite delete_empty delete_insert].
      replace (view _ _) with s; [by destruct (sa_construct false F); left|].
      rewrite -(create_lim _ _ _ H). by destruct s.
    - right; right. pose proof (create_lim _ _ _ H1) as Ho.
      eapply (st_died_in_constructor lim (leave (empty_world lim) 0 s1) false 0 F).
      { by eapply st_created. }
      eexists _, s. split; [apply lookup_insert|]. split; [|unfold die, leave; simpl; by rewrite delete_empty delete_insert].
      replace (view _ _) with s1; [done|]. rewrite -Ho. by destruct s1. }
  destruct H as [H|[H|H]]; [by left|right; by left|]. right; right. split; [done|].
  intros j mx' F' Hmx'. destruct (started_open _ _ _ j mx' H) as (W1 & Ho & Hs1 & Hi); [|done|].
  { unfold die, empty_world. simpl. apply lookup_delete_None. right. apply lookup_empty. }
  destruct (simple_construct lim W1 true F' j Hs1 Hi) as (W2 & Hr & Hs2 & Hi2).
  exists W1, W2. split; [done|]. split; [done|]. split; [by eexists|done].
Qed.
