(** * The properties of the data structures, derived from the invariant. *)
From Verif Require Export StructGame.
From iris.proofmode Require Import tactics.
From iris.prelude Require Import options.
Open Scope Z_scope.
Set Default Proof Using "All".

Lemma q_total_concat l : q_total l = Z.of_nat (length (concat l)).
Proof. induction l as [|d l IH]; simpl; [done|]. rewrite app_length. unfold dlen. lia. Qed.
Lemma q_pop_front_some l d l' : q_pop_ideal true l = Some (d, l') → l = d :: l'.
Proof. destruct l; simpl; congruence. Qed.
Lemma q_pop_back_some l d l' : q_pop_ideal false l = Some (d, l') → l = l' ++ [d].
Proof.
  unfold q_pop_ideal. destruct l as [|x l _] using rev_ind; [done|]. rewrite last_snoc.
  intros [= <- <-]. by rewrite removelast_last.
Qed.
Lemma q_pop_none f l : q_pop_ideal f l = None → l = [].
Proof.
  destruct f; simpl; [by destruct l as [|? ?]|]. destruct l as [|x l _] using rev_ind; [done|]. by rewrite last_snoc.
Qed.

Lemma dlen_le_bytes z x : 0 <= z → dlen (le_bytes (Z.to_nat z) x) = z.
Proof. intros H. unfold dlen. rewrite le_bytes_length. lia. Qed.
Lemma signed_mod d : (signed d - le_val d) mod 256 ^ dlen d = 0.
Proof.
  unfold signed. cbv zeta. case_decide; [by rewrite Z.sub_diag Zmod_0_l|].
  replace (le_val d - 256 ^ dlen d - le_val d) with ((-1) * 256 ^ dlen d) by lia. by rewrite Z_mod_mult.
Qed.
Lemma wraps_le_bytes n y : 1 <= n → wraps_to n y (signed (le_bytes (Z.to_nat n) y)).
Proof.
  intros Hn. set (d := le_bytes (Z.to_nat n) y).
  assert (dlen d = n) as Hd by (apply dlen_le_bytes; lia).
  pose proof (le_val_range d (le_bytes_ok _ _)) as Hr. fold (dlen d) in Hr. pose proof (signed_mod d) as Hm. rewrite Hd in Hr, Hm.
  assert (le_val d = y mod 256 ^ n) as Hv by (unfold d; rewrite le_val_bytes; f_equal; f_equal; lia).
  assert (0 < 256 ^ n) as Hp by (apply Z.pow_pos_nonneg; lia).
  split.
  - replace (signed d - y) with ((signed d - le_val d) + (le_val d - y)) by lia.
    rewrite Z.add_mod; [|lia]. rewrite Hm Hv. rewrite Zminus_mod_idemp_l Z.sub_diag Zmod_0_l. done.
  - unfold signed. cbv zeta. rewrite Hd. case_decide; lia.
Qed.
Lemma wraps_add d delta : 1 <= dlen d → wraps_to (dlen d) (signed d + delta) (signed (le_bytes (Z.to_nat (dlen d)) (le_val d + delta))).
Proof.
  intros Hn. destruct (wraps_le_bytes (dlen d) (le_val d + delta) Hn) as [H1 H2]. split; [|done].
  pose proof (signed_mod d) as Hm. set (x := signed (le_bytes _ _)) in *.
  replace (x - (signed d + delta)) with ((x - (le_val d + delta)) - (signed d - le_val d)) by lia.
  rewrite Zminus_mod H1 Hm. done.
Qed.

Section main.
  Context {hash : HashFn}.
  Context {al : allocator} (S : alloc_spec al) `{!BaseFree S, !Visible S} (lm : alloc_limits) (HL : limits_ok S lm).
  Context (F : nat) (HF : 2 ^ 62 <= Z.of_nat F).
  Context (W : world) (evs : list gevent) (HI : GInv S (GS W ∅ 0 true)).
  Notation play cs ct := (sgame al lm F cs ct evs (GS W ∅ 0 true)).

  Lemma all_ok : play (GInv S) (gct lm).
  Proof. eapply sgame_inv; done. Qed.
  Lemma GInv_sorted st o l : GInv S st → g_objs st !! o = Some (VPrio l) → lsorted l.
  Proof.
    intros (Hok & Hbo & xs & J & K & Ho & Ht & HR) Hl. rewrite Ho in Hl.
    destruct (objs_split S lm HL F HF _ _ _ _ _ _ _ HR Hl) as (xs1 & B & xs2 & -> & _).
    assert (file_holds (λ m, ⌜lsorted l⌝ ∗ True)%I (g_w st)) as H.
    { eapply file_holds_mono; [|exact HR]. intros m. iIntros "(_ & R & _)".
      iDestruct (reps_mid with "R") as "[(%cap & %arr & %L & %G & %Hp & _) _]". iPureIntro. tauto. }
    by apply file_holds_pure in H as [? _].
  Qed.
  Ltac g := eapply sgame_mono; [| |exact all_ok];
    [intros st Hst|intros st ob st' Hst (Hid & Hgr & Hob) Hst']; try done.

  Lemma main_ideal : play (fun st => blobs_intact st /\ base_kept al st) (fun st ob st' => ideal_results st ob st' /\ grows_within st ob st').
  Proof. g. split; [by eapply GInv_blobs|by eapply GInv_base]. Qed.
  Lemma main_no_leak : play (no_leak al) (fun _ _ _ => True).
  Proof. g. by eapply GInv_no_leak. Qed.
  Lemma main_deque : play (fun _ => True) deque_results.
  Proof.
    g. unfold deque_results. destruct ob as [| |pr o v x r|pr o v x e| |]; try done.
    - destruct Hid as [v' Hid]. destruct Hob as [[Ho Hsn] Ho']. destruct x as [[] d|[]| | | | | | | | | | | | | | | | | | | |]; try done.
      + destruct v as [l|l|b|t|t ok]; try done. exists l. done.
      + destruct v as [l|l|b|t|t ok]; try done. exists l. done.
      + destruct v as [l|l|b|t|t ok]; try done. unfold after_op, ideal in Ho'. cbn [ideal] in Hid.
        destruct (q_pop_ideal true l) as [[d l']|] eqn:E; [|done]. simplify_eq.
        apply q_pop_front_some in E as ->. eauto.
      + destruct v as [l|l|b|t|t ok]; try done. unfold after_op, ideal in Ho'. cbn [ideal] in Hid.
        destruct (q_pop_ideal false l) as [[d l']|] eqn:E; [|done]. simplify_eq.
        apply q_pop_back_some in E as ->. eauto.
    - destruct Hob as [[Ho Hsn] Ho']. destruct x as [f d|f| | | | | | | | | | | | | | | | | | | |]; try done.
      + destruct Hid as [Hid|(-> & Hne & Hg)]; [by destruct v|]. destruct v as [l|l|b|t|t ok]; try done.
        split; [done|]. split; [|done]. cbn in Hg. intros Hgg. apply Hg.
        by replace (room (16 + dlen d) + 0) with (room (16 + dlen d)) by lia.
      + destruct Hid as [Hid|(-> & Hne & Hg)]; [|by destruct v]. destruct v as [l|l|b|t|t ok]; try done. cbn [ideal] in Hid.
        destruct (q_pop_ideal f l) as [[d l']|] eqn:E; [done|]. simplify_eq. apply q_pop_none in E as ->. done.
  Qed.
  Lemma main_counts : play (fun _ => True) queue_counts.
  Proof.
    g. unfold queue_counts. destruct ob as [| |pr o v x r|pr o v x e| |]; try done.
    - destruct Hid as [v' Hid]. destruct Hob as [[Ho Hsn] Ho']. destruct x; try done; destruct v as [l|l|b|t|t ok]; try done.
      + cbn in Hid. simplify_eq. eauto.
      + cbn in Hid. simplify_eq. exists l. by rewrite q_total_concat.
    - destruct Hob as [[Ho Hsn] Ho']. destruct x; try done; (destruct Hid as [Hid|(-> & Hne & Hg)]; by destruct v).
  Qed.
  Lemma lsorted_cons d l : lsorted (d :: l) → ∀ d', d' ∈ d :: l → lex_le d d'.
  Proof.
    intros H d' Hd. inversion H as [|? ? Hs Hf]; subst. apply elem_of_cons in Hd as [->|Hd]; [apply lex_le_refl|].
    rewrite Forall_forall in Hf. by apply Hf.
  Qed.
  Lemma main_least : play (fun _ => True) prio_pops_least.
  Proof.
    g. unfold prio_pops_least. destruct ob as [| |pr o v x r|pr o v x e| |]; try done.
    - destruct Hid as [v' Hid]. destruct Hob as [[Ho Hsn] Ho']. destruct x; try done; destruct v as [l|l|b|t|t ok]; try done.
      cbn in Hid. destruct l as [|d l]; [done|]. simpl in Hid. simplify_eq. exists d, (d :: l).
      split; [done|]. split; [done|]. split; [by left|]. apply lsorted_cons. exact (GInv_sorted _ _ _ Hst Ho).
    - destruct Hob as [[Ho Hsn] Ho']. destruct x; try done. destruct Hid as [Hid|(-> & Hne & Hg)]; [|by destruct v].
      destruct v as [l|l|b|t|t ok]; try done. cbn in Hid. destruct l as [|d l]; [|done]. simpl in Hid. by simplify_eq.
  Qed.
  Lemma main_multiset : play (fun _ => True) prio_multiset.
  Proof.
    g. unfold prio_multiset. destruct ob as [| |pr o v x r|pr o v x e| |]; try done.
    - destruct Hid as [v' Hid]. destruct Hob as [[Ho Hsn] Ho']. destruct x; try done; destruct v as [l|l|b|t|t ok]; try done.
      + exists l, (insert_sorted d l). split; [done|]. split; [done|]. apply insert_sorted_perm.
      + unfold after_op, ideal in Ho'. cbn in Hid. destruct l as [|d l]; [done|]. simpl in Hid, Ho'. simplify_eq.
        exists d, (d :: l), l. done.
      + cbn in Hid. simplify_eq. eauto.
    - destruct Hob as [[Ho Hsn] Ho']. destruct x; try done; (destruct Hid as [Hid|(-> & Hne & Hg)]; [by destruct v|]); destruct v as [l|l|b|t|t ok]; try done.
      exists l. split; [done|]. split; [done|]. split; [done|]. intros Hgg. apply Hg.
      refine (grow_allowed_mono (Cfg (p_max pr) (w_lim (g_w st))) _ _ _ Hgg).
      unfold space; cbn [requests]. case_bool_decide; subst; unfold room; simpl; lia.
  Qed.

  (** *** Hash tables *)
  Lemma GInv_hash st o t : GInv S st → g_objs st !! o = Some (VHash t) → h_wf hash t.
  Proof.
    intros (Hok & Hbo & xs & J & K & Ho & Ht & HR) Hl. rewrite Ho in Hl.
    destruct (objs_split S lm HL F HF _ _ _ _ _ _ _ HR Hl) as (xs1 & B & xs2 & -> & _).
    assert (file_holds (λ m, ⌜h_wf hash t⌝ ∗ True)%I (g_w st)) as H.
    { eapply file_holds_mono; [|exact HR]. intros m. iIntros "(_ & R & _)".
      iDestruct (reps_mid with "R") as "[R _]". iDestruct (h_rep_wf with "R") as %?. done. }
    by apply file_holds_pure in H as [? _].
  Qed.
  Lemma get_map_dec t k : h_wf hash t → bool_decide (h_get hash t k ≠ None) = bool_decide (is_Some (h_map t !! k)).
  Proof. intros Hwf. rewrite h_get_map //. apply bool_decide_ext. by rewrite not_eq_None_Some. Qed.
  Lemma holds_map t ck : h_wf hash t → h_holds hash t ck = true ↔ holds_in (h_map t) ck.
  Proof.
    intros Hwf. destruct ck as [[k e]|]; [|done]. unfold h_holds, holds_in. rewrite bool_decide_eq_true h_get_map //.
  Qed.
  Lemma same_objs {A} (m : gmap Z A) o v m' : m !! o = Some v → m' = <[o := v]> m → m' = m.
  Proof. intros H ->. by apply insert_id. Qed.

  Lemma main_hash_cas : play (fun _ => True) hash_compare_and_set.
  Proof.
    g. unfold hash_compare_and_set. destruct ob as [| |pr o v x r|pr o v x e| |]; try done.
    destruct Hid as [v' Hid]. destruct Hob as [[Ho Hsn] Ho']. destruct x; try done; destruct v as [l|l|b|t|t ok]; try done;
      pose proof (GInv_hash _ _ _ Hst Ho) as Hwf; exists (h_map t); (split; [by exists t|]);
      unfold after_op, ideal in Ho'; cbn in Hid; pose proof (holds_map t check Hwf) as Hc;
      destruct (h_holds hash t check); simplify_eq.
    - left. split; [by apply Hc|]. split; [done|]. eexists. split; [exact Ho'|]. by apply h_put_map.
    - right. split; [intros H; by apply Hc in H|]. split; [done|]. by eapply same_objs.
    - left. split; [by apply Hc|]. split; [by rewrite get_map_dec|]. eexists. split; [exact Ho'|].
      destruct Hsn as (_ & _ & Hh). eapply h_del_map_ok; [done|]. cbn in Hh. apply Hh. by apply holds_map, Hc.
    - right. split; [intros H; by apply Hc in H|]. split; [done|]. by eapply same_objs.
  Qed.
  Lemma main_hash_map : play (fun _ => True) hash_is_a_map.
  Proof.
    g. unfold hash_is_a_map. destruct ob as [pr k o| |pr o v x r|pr o v x e| |]; try done.
    - destruct k; try done. destruct Hob as [Hob Hb]. eexists. split; [exact Hob|].
      unfold h_map. by rewrite h_new_items.
    - destruct Hid as [v' Hid]. destruct Hob as [[Ho Hsn] Ho']. destruct x as [| | | | | | | | | | | |k w ck|k ck|k|k| | | | | |]; try done;
        destruct v as [l|l|b|t|t ok]; try done; pose proof (GInv_hash _ _ _ Hst Ho) as Hwf; unfold after_op, ideal in Ho'; cbn in Hid.
      + destruct ck; [done|]. cbn in Hid. simplify_eq. exists (h_map t). split; [by exists t|]. split; [done|].
        eexists. split; [exact Ho'|]. by apply h_put_map.
      + destruct ck; [done|]. cbn in Hid. simplify_eq. exists (h_map t). split; [by exists t|].
        split; [by rewrite get_map_dec|]. eexists. split; [exact Ho'|].
        destruct Hsn as (_ & _ & Hh). eapply h_del_map_ok; [done|]. by apply Hh.
      + simplify_eq. exists (h_map t). split; [by exists t|]. split; [by rewrite get_map_dec|by eapply same_objs].
      + rewrite h_get_map // in Hid, Ho'. destruct (h_map t !! k) as [w|] eqn:Hw; [|done]. simplify_eq.
        exists (h_map t), w. split; [by exists t|]. split; [done|]. split; [done|by eapply same_objs].
      + simplify_eq. exists (h_map t). split; [by exists t|]. split; [by erewrite h_map_size|by eapply same_objs].
      + simplify_eq. eexists. split; [exact Ho'|]. unfold h_map. by rewrite h_cleared_repeat h_repeat_items.
    - destruct Hob as [[Ho Hsn] Ho']. destruct x as [| | | | | | | | | | | |k w ck|k ck|k|k| | | | | |]; try done;
        (destruct v as [l|l|b|t|t ok]; [by destruct Hid as [Hid|(_ & Hne & _)]..| |by destruct Hid as [Hid|(_ & Hne & _)]]).
      + destruct Hid as [Hid|(-> & Hne & Hg)]; [cbn in Hid; by case_match|]. done.
      + destruct Hid as [Hid|(-> & Hne & Hg)]; [cbn in Hid; by case_match|done].
      + by destruct Hid as [Hid|(-> & Hne & Hg)].
      + pose proof (GInv_hash _ _ _ Hst Ho) as Hwf. destruct Hid as [Hid|(-> & Hne & Hg)]; [|done].
        cbn in Hid. rewrite h_get_map // in Hid. destruct (h_map t !! k) as [w|] eqn:Hw; [done|]. simplify_eq.
        exists (h_map t). split; [by exists t|]. done.
      + by destruct Hid as [Hid|(-> & Hne & Hg)].
      + by destruct Hid as [Hid|(-> & Hne & Hg)].
      + by destruct Hid as [Hid|(-> & Hne & Hg)].
  Qed.
  Lemma main_hash_iteration : play (fun _ => True) hash_iteration.
  Proof.
    g. unfold hash_iteration. destruct ob as [| |pr o v x r|pr o v x e| |]; try done.
    destruct Hid as [v' Hid]. destruct Hob as [[Ho Hsn] Ho']. destruct x; try done; destruct v as [l|l|b|t|t ok]; try done.
    pose proof (GInv_hash _ _ _ Hst Ho) as Hwf. cbn in Hid. simplify_eq. exists (h_map t), (h_items t).
    split; [by exists t|]. split; [done|]. split; [by eapply h_wf_nodup|]. split; [done|]. by eapply same_objs.
  Qed.
  Lemma main_hash_incr : play (fun _ => True) hash_incr_adds.
  Proof.
    g. unfold hash_incr_adds. destruct ob as [| |pr o v x r|pr o v x e| |]; try done.
    - destruct Hid as [v' Hid]. destruct Hob as [[Ho Hsn] Ho']. destruct x as [| | | | | | | | | | | | | | | | | | |k delta|k fadd delta|]; try done;
        destruct v as [l|l|b|t|t ok]; try done; pose proof (GInv_hash _ _ _ Hst Ho) as Hwf; unfold after_op, ideal in Ho'; cbn in Hid;
        unfold h_incr_value in *; rewrite h_get_map // in Hid, Ho'.
      + destruct (h_map t !! k) as [w|] eqn:Hw.
        * destruct (add_int delta (dlen w)) as [f|] eqn:Ef; [|done]. simplify_eq.
          unfold add_int in Ef. case_bool_decide as Hn; [|done]. simplify_eq.
          eexists (h_map t), _, _. split; [by exists t|]. split; [eexists; split; [exact Ho'|by apply h_put_map]|].
          split; [done|]. split; [done|]. rewrite Hw. rewrite dlen_le_bytes; [|clear; unfold dlen; lia].
          split; [done|]. split; [set_solver|]. apply wraps_add. clear -Hn. lia.
        * simplify_eq. eexists (h_map t), _, _. split; [by exists t|]. split; [eexists; split; [exact Ho'|by apply h_put_map]|].
          split; [done|]. split; [done|]. rewrite Hw. split; [done|]. apply (wraps_le_bytes 8). lia.
      + destruct (h_map t !! k) as [w|] eqn:Hw.
        * destruct (add_float fadd delta (dlen w)) as [f|] eqn:Ef; [|done]. simplify_eq.
          unfold add_float in Ef. case_bool_decide as Hn; [|done]. simplify_eq.
          eexists (h_map t), _. split; [by exists t|]. split; [eexists; split; [exact Ho'|by apply h_put_map]|].
          split; [done|]. rewrite Hw. split; [set_solver|]. unfold dlen. by rewrite Nat2Z.id.
        * simplify_eq. eexists (h_map t), _. split; [by exists t|]. split; [eexists; split; [exact Ho'|by apply h_put_map]|].
          split; [done|]. by rewrite Hw.
    - destruct Hob as [[Ho Hsn] Ho']. destruct x as [| | | | | | | | | | | | | | | | | | |k delta|k fadd delta|]; try done;
        (destruct v as [l|l|b|t|t ok]; [by destruct Hid as [Hid|(_ & Hne & _)]..| |by destruct Hid as [Hid|(_ & Hne & _)]]);
        pose proof (GInv_hash _ _ _ Hst Ho) as Hwf; split; [done| |done|]; exists (h_map t); split; [by exists t| |by exists t|];
        unfold out_of_space in Hid; cbn in Hid; unfold h_incr_value in *; rewrite h_get_map // in Hid;
        (destruct (h_map t !! k) as [w|] eqn:Hw; [|destruct Hid as [Hid|Hid]; [done|by destruct Hid]]); destruct Hid as [Hid|Hid]; try by destruct Hid as (_ & Hid & _).
      + destruct (add_int delta (dlen w)) as [f|] eqn:Ef; [done|]. simplify_eq. split; [done|].
        unfold add_int in Ef. case_bool_decide as Hn; [done|]. set_solver.
      + destruct (add_float fadd delta (dlen w)) as [f|] eqn:Ef; [done|]. simplify_eq. split; [done|].
        unfold add_float in Ef. case_bool_decide as Hn; [done|]. set_solver.
  Qed.
End main.
