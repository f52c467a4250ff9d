(** * PrefixTree over a SimpleAllocator: a crash at any point of any operation. *)
From Verif Require Export PrefixCrashErase PrefixMain CrashSpec.
From iris.proofmode Require Import tactics.
From iris.prelude Require Import options.
Open Scope Z_scope.
Open Scope prog_scope.

Local Arguments Z.pow : simpl never.
Local Arguments Z.mul : simpl never.
Local Arguments Z.add : simpl never.
Local Arguments u64 : simpl never.

Lemma done_crash {A} (p : prog A) s a s' : run p s = Done a s' → crash_state p s s'.
Proof.
  revert s. induction p as [| | | |e k IH]; intros s; cbn [run crash_state]; intros H; simplify_eq; [by left|].
  right. destruct (exec e s) as [[v s1]|]; [|done]. by apply IH.
Qed.
Lemma crash_map {A B} C (p : prog A) (f : A → B) : crash C p ⊢ crash C (a <- p ;; Ret (f a)).
Proof.
  apply hp_entails. intros h H. rewrite hp_wpc in H. apply hp_wpc. intros hf s Hd Hr.
  destruct (H hf s Hd Hr) as [H1 H2]. split.
  - rewrite run_bind. destruct (run p s); cbn [run]; done.
  - intros s' Hc. apply H2. apply crash_bind in Hc as [Hc|(a & s1 & Hrun & Hc)]; [done|].
    destruct Hc as [->|[]]. by eapply done_crash.
Qed.

Section crash.
  Context (F : nat) (HF : 2 ^ 62 <= Z.of_nat F) (cf : cfg) (b : Z) (R : blocks) (bo : Z).
  Notation al := (simple_allocator F).
  Notation S := (simple_spec F HF).
  Notation st := (ex F HF cf b R bo None None).

  Lemma crash_tree_writes (M : vlmap) (N : ndmap) (x xn : Z) (y : top) :
    only_reads y = false → t_args_ok y → Forall (request_ok simple_limits) (t_requests (PT (vls M) (rng N) x xn) y) →
    t_handled (PT (vls M) (rng N) x xn) y → crash_handled (PT (vls M) (rng N) x xn) y →
    st M N ⊢ crash (TC cf b R bo (crash_leaves (PT (vls M) (rng N) x xn) y)) (tree_prog al F b y).
  Proof using.
    intros Hw Ha Hsz Hh Hch. set (t := PT (vls M) (rng N) x xn) in *.
    assert (crash_leaves t y (vls M)) as Hsame by by left.
    destruct y as [k v ck|k ck|k delta|k fadd delta| |k|k|k|cur| | | |k|k|k|p|p]; try done; cbn [tree_prog]; clear Hw.
    - rewrite -crash_map. destruct Ha as [Hk Hv]. apply crash_t_insert; try done.
      + intros Eh. split; [right; right; done|]. right; left. cbn [t_ideal]. unfold t at 1. cbn [t_map]. rewrite Eh. by eexists _, _.
      + intros d Eh ->. cbn [t_requests] in Hsz. unfold t at 1 in Hsz. cbn [t_map] in Hsz. rewrite Eh in Hsz.
        apply Forall_app in Hsz as [_ Hsz]. unfold insert_sizes in Hsz.
        assert (Forall (request_ok simple_limits) (val_sizes (PStr d))) as H.
        { destruct (val_sizes_at (t_map t) k); exact Hsz. }
        unfold val_sizes in H. destruct (Z.ltb_spec (dlen d) 8) as [|Hlt]; [lia|].
        apply Forall_cons in H as [H _]. unfold request_ok in H. simpl in H. lia.
      + intros d z Eh -> Hz. apply Hch; done.
    - rewrite -crash_map. apply crash_t_erase; try done.
      intros Eh. right; left. cbn [t_ideal]. unfold t at 1. cbn [t_map]. rewrite Eh. eexists _, _. split; [done|].
      unfold t_erase. destruct (t_exists t k) eqn:Ee; [done|]. unfold t. cbn [t_map].
      rewrite delete_notin //. unfold t_exists in Ee. apply orb_false_iff in Ee as [Ee _]. apply bool_decide_eq_false in Ee.
      by apply eq_None_not_Some in Ee.
    - rewrite -crash_map. apply crash_incr_int; try done. intros z Ez. right; left. cbn [t_ideal]. unfold t at 1. cbn [t_map]. rewrite Ez.
      by eexists _, _.
    - rewrite -crash_map. destruct Ha as [Hk Hd]. apply crash_incr_dbl; try done. intros z Ez. right; left. cbn [t_ideal]. unfold t at 1. cbn [t_map].
      rewrite Ez. by eexists _, _.
    - rewrite -crash_map. iIntros "T". iDestruct (ex_tok with "T") as %HT.
      iAssert (⌜deep N (Datatypes.S F)⌝)%I as %Hdeep.
      { iDestruct (ex_tst with "T") as (ne s x') "T". iDestruct (tst_facts with "T") as %Hb. iPureIntro. by eapply deep_bound. }
      iApply (crash_t_clear with "T"); [|done].
      intros m Hm. right; right. done.
  Qed.
End crash.
