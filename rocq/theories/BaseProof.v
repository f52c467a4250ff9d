(** * Opening the pool's base object: proof. *)
From Verif Require Export BaseSpec StructGame.
From iris.proofmode Require Import tactics.
From iris.prelude Require Import options.
Open Scope Z_scope.
Set Default Proof Using "All".

Section main.
  Context {hash : HashFn}.
  Context {al : allocator} (S : alloc_spec al) `{!BaseFree S, !Visible S} (lm : alloc_limits) (HL : limits_ok S lm).
  Context (F : nat) (HF : 2 ^ 62 <= Z.of_nat F).

  (** What the second half returns is not 0. *)
  Lemma open_nonzero st i k p : GInv S st → is_Some (w_procs (g_w st) !! i) → sensible_kind lm k →
    open_base_prog al k = Some p →
    match second_half st i p with WDone o _ => o ≠ 0 | _ => True end.
  Proof.
    intros (Hok & Hbo & xs & J & K & Ho & Ht & HR) [pr Hi] Hk Hp. unfold second_half.
    pose proof (run_pool S lm HL F HF _ _ _ _ _ _ _ p (λ o xs' J' s', o ≠ 0) (λ e xs' J' s', True) HR Hok Hi) as H.
    feed specialize H.
    { intros e. iIntros "(H & R & RJ)". iApply (wp_open_base S lm HL _ F HF with "H"); [done|done|done|]. simpl. iSplit; [|iSplit].
      - iIntros (Hb) "H". iExists xs, J, _. iFrame. done.
      - iIntros (o v B' s' (Hb & Hb' & Hext & Hoo & Hn)) "H Hv". iExists ((o, v, B') :: xs), J, s'. iFrame "R RJ Hv".
        iSplit; [|by rewrite app_assoc]. iPureIntro. lia.
      - iIntros (s' J0 (Hb & Hg & Hext & HJ0)) "H HJ". iExists xs, (J0 ++ J), s'. iFrame "R".
        iSplitL "H"; [iApply (ainv_perm with "H"); by rewrite Permutation_app_swap_app|rewrite raws_app; iFrame]. }
    destruct (run_by _ _ _) as [r W'|e W'| |]; try done. by destruct H as [_ (?&?&?&?&_)].
  Qed.

  (** The first half. *)
  Lemma first_ok st i : GInv S st → is_Some (w_procs (g_w st) !! i) →
    match first_half al st i with
    | WDone b W' => b = g_base st ∧ GInv S (GS W' (g_objs st) (g_base st) (g_tidy st))
    | _ => False
    end.
  Proof.
    intros (Hok & Hbo & xs & J & K & Ho & Ht & HR) [pr Hi]. unfold first_half.
    pose proof (run_pool S lm HL F HF _ _ _ _ _ _ _ (al_get_base al)
      (λ o xs' J' s', o = g_base st ∧ xs' = xs ∧ J' = J ∧ s_K s' = K ∧ s_bo s' = g_base st ∧ s_m s' = w_size (g_w st))
      (λ e xs' J' s', False) HR Hok Hi) as H.
    feed specialize H.
    { intros e. iIntros "(H & R & RJ)". iApply bind_ret_r. iApply (wp_get_base with "H"). iIntros "H".
      iApply wp_ret. simpl. iExists xs, J, _. iFrame. done. }
    destruct (run_by _ _ _) as [r W'|e W'| |]; try done.
    - destruct H as [(Hl & Hok' & _) (xs' & J' & s' & (-> & -> & -> & <- & HB & Hm) & Hm' & HR')]. split; [done|].
      rewrite HB in HR'.
      split; [by apply (wok_env S lm HL F HF _ _ Hok Hl Hok')|]. split; [done|]. by exists xs, J, (s_K s').
    - by destruct H as [_ (?&?&?&[]&_)].
  Qed.

  (** The second half. *)
  Lemma second_ok st i pr k p : GInv S st → w_procs (g_w st) !! i = Some pr → sensible_kind lm k →
    open_base_prog al k = Some p →
    match second_half st i p with
    | WDone o W' => o ≠ 0 ∧
        if bool_decide (g_base st = 0)
        then g_objs st !! o = None ∧ GInv S (GS W' (<[o := new_value k W' o]> (g_objs st)) o (g_tidy st))
        else o = g_base st ∧ GInv S (GS W' (g_objs st) o (g_tidy st))
    | WExn e _ => g_base st = 0 ∧ out_of_space pr (g_w st) (create_requests k) e
    | _ => False
    end.
  Proof.
    intros HI Hi Hk Hp. pose proof (open_nonzero _ _ _ _ HI ltac:(by exists pr) Hk Hp) as Hnz.
    assert (sgame al lm F (GInv S) (λ st ob st', gct lm st ob st' ∧ GInv S st') [GOpenBase i k] st) as H.
    { eapply sgame_mono; [| |apply (sgame_inv S lm HL F HF); exact HI]; done. }
    pose proof HI as (Hok & Hbo & xs & J & K & Ho & Ht & HR).
    pose proof (step_open_base S lm HL F HF _ _ _ _ _ _ _ _ _ HR Hok Hi Hk Hbo Hp) as Hs.
    destruct st as [W objs bo tidy]. unfold second_half in *. cbn [g_w g_objs g_base g_tidy] in *. cbn [sgame] in H.
    destruct H as [_ H]. specialize (H Hk). rewrite Hi Hp in H.
    destruct (run_by _ _ _) as [o W'|e W'| |]; try done.
    - split; [done|]. case_bool_decide.
      + destruct H as (? & [_ ?] & _). by split.
      + destruct H as ([_ ?] & _). destruct Hs as (_ & -> & _). by split.
    - destruct Hs as (_ & Hb & _). split; [done|]. destruct H as [[(H & _) _] _]. exact H.
  Qed.

  Definition BInv (o : Z) (st : gstate) : Prop := GInv S st ∧ g_base st = o.
  Lemma BInv_everyone o st : o ≠ 0 → BInv o st → everyone_gets al lm o st.
  Proof.
    intros Hn [HI Hb] j [pr Hj]. split.
    - pose proof (first_ok _ _ HI ltac:(by exists pr)) as H. destruct (first_half _ _ _); try done. destruct H as [-> _]. done.
    - intros k p Hp Hk. pose proof (second_ok _ _ _ _ _ HI Hj Hk Hp) as H. destruct (second_half _ _ _); try done.
      + destruct H as [_ H]. rewrite bool_decide_eq_false_2 in H; [|congruence]. destruct H as [-> _]. done.
      + destruct H as [H _]. congruence.
  Qed.
  Lemma sgame_base o evs : o ≠ 0 → List.Forall sets_no_base evs → ∀ st,
    sgame al lm F (GInv S) (λ _ _ _, True) evs st → g_base st = o →
    sgame al lm F (BInv o) (λ _ _ _, True) evs st.
  Proof.
    intros Hn. induction 1 as [|ev evs He _ IH]; intros [W objs bo tidy] [H1 H2] Hb; cbn [g_base] in Hb;
      (split; [by split|]); [done|].
    assert (∀ (ob : gobs) st', g_base st' = o → (True ∧ sgame al lm F (GInv S) (λ _ _ _, True) evs st') →
       True ∧ sgame al lm F (BInv o) (λ _ _ _, True) evs st') as Hx.
    { intros _ st' Ht' [_ H]. split; [done|]. by apply IH. }
    destruct ev as [i k|i k|i v|i o' x|i o'|i mx|i]; cbn [sgame] in *.
    - intros Hk. specialize (H2 Hk). repeat case_match; try done; [|by apply (Hx GOOther)].
      destruct H2 as [? H2]. split; [done|]. by apply (Hx GOOther).
    - intros Hk. specialize (H2 Hk). destruct (w_procs W !! i); [|done]. destruct (open_base_prog al k); [|done].
      destruct (run_by _ _ _); try done; [|by apply (Hx GOOther)].
      case_bool_decide; [congruence|by apply (Hx GOOther)].
    - done.
    - destruct (objs !! o') as [v|] eqn:Hv; [|done]. destruct (w_procs W !! i) as [pr|]; [|done].
      intros Ha Hb' Hc. specialize (H2 Ha Hb' Hc). destruct (run_by _ _ _); try done.
      + by apply (Hx GOOther).
      + destruct H2 as (v' & Hl & H2). exists v'. split; [done|]. by apply (Hx GOOther).
    - destruct (objs !! o') as [v|] eqn:Hv; [|done]. destruct v; try done. destruct (w_procs W !! i) as [pr|]; [|done].
      destruct (run_by _ _ _); try done. by apply (Hx GOOther).
    - intros Ha Hb'. specialize (H2 Ha Hb'). repeat case_match; try done; by apply (Hx GOOther).
    - by apply (Hx GOOther).
  Qed.
  Lemma BInv_from_now_on o st : o ≠ 0 → BInv o st → from_now_on al lm F o st.
  Proof.
    intros Hn [HI Hb] history Hh. eapply sgame_mono; [| |apply sgame_base; [exact Hn|exact Hh| |exact Hb]]; [|done|].
    - intros st' H. by apply BInv_everyone.
    - eapply sgame_mono; [| |apply (sgame_inv S lm HL F HF); exact HI]; done.
  Qed.
  Lemma openers st : GInv S st → openers_agree al lm F st.
  Proof.
    intros HI i k p Hp Hk Hi. pose proof (first_ok _ _ HI Hi) as H.
    destruct (first_half _ _ _) as [b W1| | |]; try done. destruct H as [-> HI1]. split.
    - intros Hb. apply BInv_from_now_on; [done|by split].
    - intros _ history. eapply sgame_mono; [| |apply (sgame_inv S lm HL F HF); exact HI1]; [|done].
      intros st2 HI2 pr Hpr. pose proof (second_ok _ _ _ _ _ HI2 Hpr Hk Hp) as H.
      destruct (second_half _ _ _) as [o W2|e W2| |]; try done. destruct H as [Hn H]. split; [done|].
      case_bool_decide; destruct H as [H1 H2]; (split; [exact H1|]); (apply BInv_from_now_on; [done|by split]).
  Qed.
  Lemma main_openers W evs : GInv S (GS W ∅ 0 true) →
    sgame al lm F (openers_agree al lm F) (λ _ _ _, True) evs (GS W ∅ 0 true).
  Proof.
    intros HI. eapply sgame_mono; [| |apply (sgame_inv S lm HL F HF); exact HI]; [|done]. intros st. apply openers.
  Qed.
End main.
