(** * A SimpleAllocator whose part of the pool is kept apart (Locked.v). *)
From Verif Require Export Locked.
From iris.proofmode Require Import tactics.
From iris.prelude Require Import options.
Open Scope Z_scope.
Open Scope prog_scope.
Local Opaque sa_allocate sa_free.

Lemma LK_exist {A} (P : A → hPropI) : LK (∃ x, P x) ⊢ ∃ x, LK (P x).
Proof.
  apply hp_entails. intros h H. apply hp_LK in H. apply hp_exist in H as [x H].
  apply hp_exist. exists x. by apply hp_LK.
Qed.
Lemma LK_pure_sep φ P : LK (⌜φ⌝ ∗ P) ⊢ ⌜φ⌝ ∗ LK P.
Proof.
  rewrite -LK_sep. iIntros "[A B]". iFrame "B". iApply (LK_pure with "A"). done.
Qed.

Lemma true_nrm (h : heap) : (True : hPropI)%I h → (True : hPropI)%I (nrm h).
Proof. intros _. by apply hp_pure. Qed.

Lemma crash_quiet_t {A} C (P : hPropI) (p : prog A) :
  WPCrash.quiet p → (P ⊢ C) → (P ⊢ wp p (λ _, True) (λ _, True)) → P ⊢ crash C p.
Proof.
  intros Hq HC Hp. apply hp_entails. intros h Hh. apply hp_wpc. intros hf s Hd Hr.
  rewrite hp_entails in Hp. pose proof (Hp _ Hh) as H. rewrite hp_wpc in H. destruct (H hf s Hd Hr) as [Ho _].
  split; [exact Ho|]. intros s' Hs. apply quiet_crash in Hs as ->; [|done]. exists h. split_and!; [done|done|].
  rewrite hp_entails in HC. by apply HC.
Qed.

Lemma acr_leaks c B Bf bo : acr c (B ++ Bf) bo ⊢ acr c Bf bo.
Proof. induction B as [|[o n] B IH]; [done|]. cbn [app]. by rewrite acr_leak. Qed.

Section spec.
  Context (F : nat) (HF : 2 ^ 62 <= Z.of_nat F) (c0 : cfg) (Bf : blocks) (Pb : Z → Prop).
  Notation al := (simple_allocator F).
  Notation S0 := (simple_spec F HF).
  Set Default Proof Using "All".

  (** The blocks of the others are allocated, and the base object is one of [Pb]. *)
  Definition others : hPropI := (∃ bo, ⌜Pb bo⌝ ∗ acr c0 Bf bo)%I.

  Local Instance RL : Rep := locked_rep others.

  Definition l_pool (c : cfg) (m e : Z) : hPropI := (⌜c = c0⌝ ∗ LK (pool_inv c m e))%I.
  Lemma l_pool_size c m e : l_pool c m e ⊢ ⌜size_ok m⌝.
  Proof. iIntros "[_ H]". iApply (LK_pure with "H"). apply pool_inv_size. Qed.
  Lemma l_pool_epoch A c m e (k : Z → prog A) Φ Ψ :
    l_pool c m e -∗ (l_pool c m e -∗ wp (k e) Φ Ψ) -∗ wp (x <- get_epoch ;; k x) Φ Ψ.
  Proof.
    iIntros "H W". iCombine "H W" as "H". iStopProof.
    transitivity (True ∧ (l_pool c m e ∗ (l_pool c m e -∗ wp (k e) Φ Ψ)))%I; [by iIntros "$"|].
    apply (wpc_op True%I _ EEpoch k). intros h hf s Hh Hd Hr.
    apply hp_sep in Hh as (h1 & h2 & Hd12 & -> & H1 & H2).
    exists e, s, (h1 ∪ h2). split_and!; [|done|done|].
    - destruct (lock_split _ _ _ _ Hd Hr) as (Hd1 & _ & _ & Hr').
      assert (l_pool c m e ⊢ LK (pool_inv c m e)) as HE0. { iIntros "[_ $]". }
      rewrite hp_entails in HE0. apply HE0 in H1. apply hp_LK in H1.
      assert (pool_inv c m e ⊢ cell a_epoch e) as HE. { iIntros "(_ & $ & _)". }
      rewrite hp_entails in HE. apply HE in H1.
      assert (scell s a_epoch = Some e) as Hs.
      { eapply scell_scalar_lookup; [|exact Hd1|exact Hr'].
        eapply hp_mono; [|exact H1]. rewrite lkd_union.
        assert (nrm (h1 ∪ h2) ##ₘ lkd (h1 ∪ h2)) as Hx.
        { destruct (lock_split _ _ _ _ Hd Hr) as (_ & ? & _). done. }
        rewrite lkd_union in Hx. etrans; [apply map_union_subseteq_l|]. by apply map_union_subseteq_r. }
      simpl. unfold scell in Hs; simpl in Hs. congruence.
    - rewrite hp_wand in H2. rewrite (map_union_comm h1 h2); [|done]. by apply H2.
  Qed.
  Local Instance PL : PoolRep := {| rep_pool := l_pool; rep_pool_size := l_pool_size; rep_pool_epoch := l_pool_epoch |}.

  Definition l_R (B K : blocks) (bo m : Z) : hPropI :=
    (∃ K', ⌜K ≡ₚ Bf ++ K' ∧ Pb bo⌝ ∗ LK (sa_RB (B ++ Bf) K' bo m))%I.

  Let P (B K : blocks) (bo m e : Z) : hPropI := (pool_inv c0 m e ∗ sa_RB (B ++ Bf) K bo m)%I.
  Lemma l_others B K bo m e : Pb bo → pool_inv c0 m e ∗ sa_RB (B ++ Bf) K bo m ⊢ others.
  Proof.
    iIntros (Hb) "[Hp H]". iExists bo. iSplit; [done|]. iApply acr_leaks.
    iApply (ainv_acr F HF c0 _ (Ast K bo m e)). iSplit; [done|]. iFrame.
  Qed.
  (** Reading. *)
  Lemma l_quiet B K bo m e (p : prog Z) v Φ Ψ : Pb bo → WPCrash.quiet p →
    (∀ Φ Ψ, pool_inv c0 m e ∗ sa_RB (B ++ Bf) K bo m -∗ (pool_inv c0 m e ∗ sa_RB (B ++ Bf) K bo m -∗ Φ v) -∗
        wpc (RR := base_rep) True%I p Φ Ψ) →
    LK (pool_inv c0 m e ∗ sa_RB (B ++ Bf) K bo m) -∗
    (LK (pool_inv c0 m e ∗ sa_RB (B ++ Bf) K bo m) -∗ Φ v) -∗ wp p Φ Ψ.
  Proof.
    iIntros (Hb Hq Hw) "H W".
    iPoseProof (locked_lift others (P B K bo m e) True%I p (λ a, ⌜a = v⌝ ∗ P B K bo m e)%I (λ _, True)%I (λ e, False)%I (λ _, True)%I with "[$H]") as "L"; [apply true_nrm| | | |].
    - intros a. iIntros "[_ H]". by iApply l_others.
    - intros a. iIntros "[]".
    - iIntros "[H _]". iApply wpc_split. iSplit.
      + iApply (crash_quiet_t _ (P B K bo m e) with "H"); [done|by apply l_others|]. iIntros "H". iApply (Hw with "H"). auto.
      + iApply (Hw with "H"). iIntros "H". by iFrame.
    - iApply (wpc_strong_mono with "L"). iSplit; [|iSplit; [|done]].
      + iIntros (a) "[H _]". iDestruct (LK_pure_sep with "H") as "[-> H]". by iApply "W".
      + iIntros (a) "[H _]". iDestruct (LK_pure _ False with "H") as %[]. by iIntros "[]".
  Qed.

  Program Definition locked_spec : alloc_spec al := {|
    as_R := l_R; as_size_ok n := 0 <= n <= 2 ^ 62; as_cfg c := c = c0; as_leaky n := n <= 16; as_odd8 := false; as_base_ok := Pb |}.
  Next Obligation.
    iIntros (B B' K bo m HP) "(%K' & %HK & H)". iExists K'. iSplit; [done|]. iApply (LK_mono with "H").
    iIntros "(%L & %HL & H)". iExists L. iFrame. iPureIntro. by rewrite -HP.
  Qed.
  Next Obligation.
    iIntros (B K bo m) "(%K' & (%HK & _) & H)". iApply (LK_pure with "H").
    iIntros "H". iDestruct (as_facts _ S0 with "H") as %H. iPureIntro.
    eapply blocks_ok_perm; [|exact H]. by rewrite HK (assoc_L app).
  Qed.
  Next Obligation.
    iIntros (c B K bo m e n Φ Ψ Hn Hc) "[[_ Hp] (%K' & (%HK & %Hb) & H)] W". rewrite Hc. clear c Hc.
    iAssert (LK (P B K' bo m e)) with "[Hp H]" as "H". { iApply LK_sep. iFrame. }
    iPoseProof (locked_lift others (P B K' bo m e) True%I (al_allocate al n)
      (λ o, ∃ m' e', ⌜m <= m' <= m + room n ∧ (m' = m → e' = e) ∧ (m' = m ∨ grow_allowed c0 m')⌝ ∗ P ((o, n) :: B) K' bo m' e')%I
      (λ o, raw o (o + n))
      (λ x, ⌜x = RuntimeError ∧ ¬ grow_allowed c0 (m + room n)⌝ ∗ P B K' bo m e)%I (λ _, True)%I with "[$H]") as "L"; [apply true_nrm| | | |].
    - intros o. iIntros "(%m' & %e' & _ & H)". by iApply l_others.
    - intros x. iIntros "[_ H]". by iApply l_others.
    - iIntros "[H _]". iApply wpc_split. iSplit.
      + iApply (crash_al_allocate F HF c0 others True%I (B ++ Bf) (Ast K' bo m e) n with "[H] []"); [done| | |done].
        * iIntros "[H _]". iExists bo. iSplit; [done|]. by iApply acr_leaks.
        * iSplit; [done|]. iExact "H".
      + iApply (as_allocate _ S0 c0 (B ++ Bf) K' bo m e n with "H"); [done|done|]. iSplit.
        * iIntros (o m' e' Hm) "H R". iFrame "R". iExists m', e'. iSplit; [done|]. iExact "H".
        * iIntros (Hg) "H". iSplit; [|done]. iSplit; [done|]. iExact "H".
    - iApply (wpc_strong_mono with "L"). iSplit; [|iSplit; [|done]].
      + iIntros (o) "[H R]". iDestruct (LK_exist with "H") as (m') "H". iDestruct (LK_exist with "H") as (e') "H".
        iDestruct (LK_pure_sep with "H") as "[%Hm H]". iDestruct "W" as "[W _]".
        iDestruct (LK_sep with "H") as "[Hp H]".
        iApply ("W" with "[] [Hp H] R"); [done|]. iFrame "Hp". iSplit; [done|]. iExists K'. by iFrame.
      + iIntros (x) "[H _]". iDestruct (LK_pure_sep with "H") as "[[-> %Hg] H]". iDestruct "W" as "[_ W]".
        iDestruct (LK_sep with "H") as "[Hp H]".
        iApply ("W" with "[] [Hp H]"); [done|]. iFrame "Hp". iSplit; [done|]. iExists K'. by iFrame.
  Qed.
  Next Obligation.
    iIntros (c B K bo m e o n Φ Ψ) "[[%Hc Hp] (%K' & (%HK & %Hb) & H)] Hraw W". rewrite Hc. clear c Hc.
    iAssert (LK (P ((o, n) :: B) K' bo m e)) with "[Hp H]" as "H". { iApply LK_sep. iFrame. }
    iPoseProof (locked_lift others (P ((o, n) :: B) K' bo m e) (raw o (o + n)) (al_free al o)
      (λ _, ∃ K1, ⌜K1 = K' ∨ (n <= 16 ∧ K1 = (o, n) :: K')⌝ ∗ P B K1 bo m e)%I
      (λ _, True)%I (λ _, False)%I (λ _, True)%I with "[$H $Hraw]") as "L"; [apply raw_nrm| | | |].
    - intros a. iIntros "(%K1 & _ & H)". by iApply l_others.
    - intros x. iIntros "[]".
    - iIntros "[H R]". iApply wpc_split. iSplit.
      + iApply (crash_al_free F HF c0 others True%I (B ++ Bf) (Ast K' bo m e) o n with "[H] R []"); [| |done].
        * iIntros "[H _]". iExists bo. iSplit; [done|]. by iApply acr_leaks.
        * iSplit; [done|]. iExact "H".
      + iApply (as_free _ S0 c0 (B ++ Bf) K' bo m e o n with "H R").
        iIntros (K1 HK1) "H". iSplit; [|done]. iExists K1. iSplit; [done|]. iExact "H".
    - iApply (wpc_strong_mono with "L"). iSplit; [|iSplit; [|done]].
      + iIntros ([]) "[H _]". iDestruct (LK_exist with "H") as (K1) "H".
        iDestruct (LK_pure_sep with "H") as "[%HK1 H]".
        iDestruct (LK_sep with "H") as "[Hp H]". destruct HK1 as [->|[Hn ->]].
        * iApply ("W" $! K with "[] [Hp H]"); [by iLeft|]. iFrame "Hp". iSplit; [done|]. iExists K'. by iFrame.
        * iApply ("W" $! ((o, n) :: K) with "[] [Hp H]"); [by iRight|]. iFrame "Hp". iSplit; [done|]. iExists ((o, n) :: K'). iFrame "H".
          iPureIntro. split; [|done]. rewrite HK. apply Permutation_middle.
      + iIntros (a) "[H _]". iDestruct (LK_pure _ False with "H") as %[]. by iIntros "[]".
  Qed.
  Next Obligation.
    iIntros (c B K bo m e o n Φ Ψ Hin) "[[%Hc Hp] (%K' & (%HK & %Hb) & H)] W". rewrite Hc. clear c Hc.
    iAssert (LK (P B K' bo m e)) with "[Hp H]" as "H". { iApply LK_sep. iFrame. }
    iApply (l_quiet B K' bo m e _ n with "H"); [done|apply q_load| |].
    - intros Φ' Ψ'. iIntros "H W". iApply (as_block_size _ S0 with "H"); [apply elem_of_app; by left|]. iExact "W".
    - iIntros "H". iDestruct (LK_sep with "H") as "[Hp H]". iApply "W". iFrame "Hp". iSplit; [done|]. iExists K'. by iFrame.
  Qed.
  Next Obligation.
    iIntros (c B K bo m e Φ Ψ) "[[%Hc Hp] (%K' & (%HK & %Hb) & H)] W". rewrite Hc. clear c Hc.
    iAssert (LK (P B K' bo m e)) with "[Hp H]" as "H". { iApply LK_sep. iFrame. }
    iApply (l_quiet B K' bo m e _ bo with "H"); [done|apply q_load| |].
    - intros Φ' Ψ'. iIntros "H W". iApply (as_get_base _ S0 with "H"). iExact "W".
    - iIntros "H". iDestruct (LK_sep with "H") as "[Hp H]". iApply "W". iFrame "Hp". iSplit; [done|]. iExists K'. by iFrame.
  Qed.
  Next Obligation.
    iIntros (c B K bo m e v Φ Ψ Hv Hb2) "[[%Hc Hp] (%K' & (%HK & %Hb) & H)] W". rewrite Hc. clear c Hc.
    iAssert (LK (P B K' bo m e)) with "[Hp H]" as "H". { iApply LK_sep. iFrame. }
    iPoseProof (locked_lift others (P B K' bo m e) True%I (al_set_base al v)
      (λ _, P B K' v m e) (λ _, True)%I (λ _, False)%I (λ _, True)%I with "[$H]") as "L"; [apply true_nrm| | | |].
    - intros a. by apply l_others.
    - intros x. iIntros "[]".
    - iIntros "[H _]". iApply wpc_split. iSplit.
      + iDestruct "H" as "[Hp (%L & %HL & HR)]". iDestruct (sa_R_inv1 with "Hp HR") as "Hinv".
        iDestruct "Hinv" as "(Hp & (Hi & Hbo & Hba & Hbc) & Hc & %Hl)".
        assert (∀ x, Pb x → sa_inv c0 L m e x ⊢ others) as Hx.
        { iIntros (x Hx) "H". iDestruct (sa_R_inv2 with "H") as "[Hp HR]". iApply (l_others B K' x m e Hx). iFrame "Hp". iExists L. by iFrame. }
        iApply (bind_ret_r (RR := base_rep)). iApply (crash_store64 others sa_base v (λ x, Ret x) Hv). iExists bo. iFrame "Hbo". iSplit.
        * iIntros "Hbo". iApply (Hx bo Hb). by iFrame.
        * iIntros "Hbo". iApply crash_ret. iApply (Hx v Hb2). by iFrame.
      + iApply (as_set_base _ S0 c0 (B ++ Bf) K' bo m e v with "H"); [done|done|].
        iIntros "H". iSplit; [|done]. iExact "H".
    - iApply (wpc_strong_mono with "L"). iSplit; [|iSplit; [|done]].
      + iIntros ([]) "[H _]". iDestruct (LK_sep with "H") as "[Hp H]".
        iApply ("W" with "[Hp H]"). iFrame "Hp". iSplit; [done|]. iExists K'. by iFrame.
      + iIntros (a) "[H _]". iDestruct (LK_pure _ False with "H") as %[]. by iIntros "[]".
  Qed.
  Next Obligation.
    iIntros (c B K bo m e Φ Ψ) "[[%Hc Hp] (%K' & (%HK & %Hb) & H)] W". rewrite Hc. clear c Hc.
    iAssert (LK (P B K' bo m e)) with "[Hp H]" as "H". { iApply LK_sep. iFrame. }
    iApply (l_quiet B K' bo m e _ (sum_sz B + sum_sz K) with "H"); [done|apply q_load| |].
    - intros Φ' Ψ'. iIntros "H W". iApply (as_bytes_allocated _ S0 with "H"). iIntros "H".
      iSpecialize ("W" with "H"). 
      assert (sum_sz (B ++ Bf) + sum_sz K' = sum_sz B + sum_sz K) as ->; [|done].
      rewrite (sum_sz_perm _ _ HK) !sum_sz_app. lia.
    - iIntros "H". iDestruct (LK_sep with "H") as "[Hp H]". iApply "W". iFrame "Hp". iSplit; [done|]. iExists K'. by iFrame.
  Qed.
  Next Obligation. eexists. reflexivity. Qed.
  Next Obligation. done. Qed.
End spec.
