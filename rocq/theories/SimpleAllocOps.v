(** * SimpleAllocator: allocate, free, repair. *)
From Verif Require Export SimpleAllocProof.
From iris.proofmode Require Import tactics.
From iris.prelude Require Import options.
Open Scope Z_scope.
Open Scope prog_scope.

Lemma wpc_sa_allocate {A} C F n c L m e bo (k : Z → prog A) Φ Ψ :
  (length L <= F)%nat → 0 <= n <= 2 ^ 62 →
  sa_inv c L m e bo -∗
  ((sa_crash c L bo -∗ C) ∧
   (∀ L1 L2, ⌜L = L1 ++ L2⌝ -∗ sa_crash c (L1 ++ (ende L1 320, n) :: L2) bo -∗
      raw (ende L1 320 + 24) (ende L1 320 + 24 + n) -∗ C) ∧
   (∀ L1 L2 m' e',
      ⌜L = L1 ++ L2 ∧
       ((best_fit L1 L2 m (r8 n + 24) ∧ m' = m ∧ e' = e) ∨
        (no_fit L m (r8 n + 24) ∧ L2 = [] ∧ m' = round_page (ende L 320 + 24 + r8 n) ∧
         m < m' ∧ grow_allowed c m'))⌝ -∗
      sa_inv c (L1 ++ (ende L1 320, n) :: L2) m' e' bo -∗
      raw (ende L1 320 + 24) (ende L1 320 + 24 + n) -∗ wpc C (k (ende L1 320 + 24)) Φ Ψ) ∧
   (⌜no_fit L m (r8 n + 24) ∧ ¬ grow_allowed c (round_page (ende L 320 + 24 + r8 n))⌝ -∗
     sa_inv c L m e bo -∗ C ∧ Ψ RuntimeError)) -∗
  wpc C (x <- sa_allocate F n ;; k x) Φ Ψ.
Proof.
  intros HF Hn. iIntros "Hinv W".
  iDestruct (sa_inv_pure with "Hinv") as %(Hcfg & Hm & Hl).
  pose proof Hm as [Hm1 Hm2]. pose proof (r8_spec n) as [Hr8 Hr8'].
  pose proof (layout_end _ _ _ Hl) as Hend. pose proof (layout_ende_ge _ _ _ Hl) as Hend'.
  unfold sa_allocate, sa_hdr. rewrite round8_r8; [|lia].
  rewrite (u64_small (r8 n + 24)); [|lia]. wpn.
  iApply (wpc_sa_load_head with "Hinv"). iSplit; [by iDestruct "W" as "[W _]"|]. iIntros "Hinv". wpn.
  iApply (wpc_sa_load_tail' with "Hinv"). iSplit; [by iDestruct "W" as "[W _]"|]. iIntros "Hinv".
  destruct (decide (L = [])) as [->|Hne].
  - (* empty list *)
    rewrite (bool_decide_eq_true_2 (_ ∧ _)); [|done]. wpn.
    change (ende [] 320) with 320 in *.
    iDestruct "Hinv" as "(Hp & Hr & Hc & _)".
    assert (∀ m w e ba bc, layout 320 [] m → pool_gen c m w e -∗ sa_rest bo ba bc -∗ sa_core true [] m -∗ sa_crash c [] bo) as Clo.
    { iIntros (? ? ? ? ? ?) "? ? ?". iExists _, _, _, _, _. iFrame. iSplit; [by iApply sa_core_weaken|done]. }
    assert (∀ m w e ba bc x y z, layout 320 [(320, n)] m → pool_gen c m w e -∗ sa_rest bo ba bc -∗
       word sa_head 0 -∗ (∃ t, word sa_tail t) -∗ word 320 x -∗ word (320 + 8) y -∗ word (320 + 16) z -∗ raw (320 + 24) (320 + 24 + n) -∗ raw (320 + 24 + n) m -∗ sa_crash c [] bo) as Clo2.
    { iIntros (m' ? ? ? ? ? ? ? Hll) "Hp Hr Hh (%t & Ht) H0 H8 H16 G1 G2". iExists m', _, _, _, _. iFrame "Hp Hr".
      cbn [layout] in Hll.
      iSplit; [|iPureIntro; simpl; lia]. unfold sa_core. cbn [hdo sa_seg]. iFrame "Hh".
      iSplitL "Ht"; [iExists t; by iFrame|]. iSplitL; [|done].
      iApply (raw_split _ (320 + 24)); [lia|].
      iSplitL "H0 H8 H16"; [iApply raw_hdr; iExists _, _, _; iFrame|].
      iApply (raw_split _ (320 + 24 + n)); [lia|]. iFrame. }
    assert (∀ m w e ba bc t, layout 320 [(320, n)] m → pool_gen c m w e -∗ sa_rest bo ba bc -∗
       word sa_head 320 -∗ word sa_tail t -∗ word 320 0 -∗ word (320 + 8) 0 -∗ word (320 + 16) n -∗ raw (320 + 24 + n) m -∗ sa_crash c [(320, n)] bo) as Cln.
    { iIntros (m' ? ? ? ? ? Hll) "Hp Hr Hh Ht H0 H8 H16 G2". iExists m', _, _, _, _. iFrame "Hp Hr".
      iSplit; [|done]. unfold sa_core. cbn [hdo sa_seg]. iFrame.
      iSplitL "Ht"; [iExists t; by iFrame|]. iSplitR; [iApply raw_empty|].
      iExists 0. by iFrame. }
    (* the part after the expansion *)
    iAssert ((sa_crash c [] bo -∗ C) ∧
      (⌜no_fit [] m (r8 n + 24) ∧ ¬ grow_allowed c (round_page (320 + 24 + r8 n))⌝ -∗
          sa_inv c [] m e bo -∗ C ∧ Ψ RuntimeError) ∧
      ∀ m' e', ⌜size_ok m' ∧ 320 + 24 + r8 n <= m' ∧
         ((best_fit [] [] m (r8 n + 24) ∧ m' = m ∧ e' = e) ∨
          (no_fit [] m (r8 n + 24) ∧ (@nil (Z * Z)) = [] ∧ m' = round_page (320 + 24 + r8 n) ∧
           m < m' ∧ grow_allowed c m'))⌝ -∗
       pool_inv c m' e' -∗ sa_rest bo 0 320 -∗ sa_core true [] m' -∗
       wpc C (x <- (store64 sa_sizeof_data 0 ;;
                store64 (sa_sizeof_data + 8) 0 ;;
                store64 (sa_sizeof_data + 16) n ;;
                store64 sa_head sa_sizeof_data ;;
                store64 sa_tail sa_sizeof_data ;;
                add64 sa_bytes_alloc n ;;
                eff <- sa_effective_size sa_sizeof_data ;;
                add64 sa_bytes_comm (u64 (eff + 24)) ;;
                Ret (sa_sizeof_data + 24)) ;; k x) Φ Ψ)%I with "[W]" as "Hgo".
    { iSplit; [by iDestruct "W" as "[W _]"|].
      iSplit; [by iDestruct "W" as "(_ & _ & _ & W)"|].
      iIntros (m' e' (Hm' & Hfit & Hplace)) "Hp Hr Hc".
      destruct Hm' as [Hm'1 Hm'2].
      assert (layout 320 [(320, n)] m') as Hl' by (simpl; split_and!; [lia|done|lia|lia]).
      iDestruct "Hc" as "(Hh & (%t & Ht & _) & G & _)". cbn [hdo].
      iDestruct (raw_split _ (320 + 24) with "G") as "[Gh G]"; [lia|].
      iDestruct (raw_split _ (320 + 24 + n) with "G") as "[G1 G2]"; [lia|].
      iDestruct (raw_hdr with "Gh") as (x y z) "(H0 & H8 & H16)".
      unfold sa_sizeof_data. wpn.
      iApply wpc_store64; [done|]. iSplit.
      { iDestruct "W" as "[W _]". iApply "W". iApply (Clo2 with "Hp Hr Hh [Ht] H0 H8 H16 G1 G2"); [done|by iExists _]. }
      iFrame "H0". iIntros "H0". wpn.
      iApply wpc_store64; [done|]. iSplit.
      { iDestruct "W" as "[W _]". iApply "W". iApply (Clo2 with "Hp Hr Hh [Ht] H0 H8 H16 G1 G2"); [done|by iExists _]. }
      iFrame "H8". iIntros "H8". wpn.
      iApply wpc_store64; [unfold is_u64; lia|]. iSplit.
      { iDestruct "W" as "[W _]". iApply "W". iApply (Clo2 with "Hp Hr Hh [Ht] H0 H8 H16 G1 G2"); [done|by iExists _]. }
      iFrame "H16". iIntros "H16". wpn.
      iApply wpc_store64; [done|]. iSplit.
      { iDestruct "W" as "[W _]". iApply "W". iApply (Clo2 with "Hp Hr Hh [Ht] H0 H8 H16 G1 G2"); [done|by iExists _]. }
      iFrame "Hh". iIntros "Hh". wpn.
      iApply wpc_store64; [done|]. iSplit.
      { iDestruct "W" as "[_ [W _]]". iApply ("W" $! [] [] with "[//] [-G1] G1"). iApply (Cln with "Hp Hr Hh Ht H0 H8 H16 G2"); done. }
      iFrame "Ht". iIntros "Ht". wpn.
      iDestruct "Hr" as "(Hi & Hbo & Hba & Hbc)".
      iApply (wpc_add64 with "Hba"). iSplit.
      { iIntros (v) "Hba". iDestruct "W" as "[_ [W _]]". iApply ("W" $! [] [] with "[//] [-G1] G1").
        iApply (Cln with "Hp [Hi Hbo Hba Hbc] Hh Ht H0 H8 H16 G2"); [done|iFrame]. }
      iIntros "Hba". wpn. unfold sa_effective_size. wpn.
      iApply wpc_load64. iSplit.
      { iDestruct "W" as "[_ [W _]]". iApply ("W" $! [] [] with "[//] [-G1] G1").
        iApply (Cln with "Hp [Hi Hbo Hba Hbc] Hh Ht H0 H8 H16 G2"); [done|iFrame]. }
      iFrame "H16". iIntros "H16". wpn. rewrite round8_r8; [|lia].
      iApply (wpc_add64 with "Hbc"). iSplit.
      { iIntros (v) "Hbc". iDestruct "W" as "[_ [W _]]". iApply ("W" $! [] [] with "[//] [-G1] G1").
        iApply (Cln with "Hp [Hi Hbo Hba Hbc] Hh Ht H0 H8 H16 G2"); [done|iFrame]. }
      iIntros "Hbc". wpn.
      rewrite (u64_small (r8 n + 24)); [|lia]. rewrite (u64_small (0 + n)); [|lia].
      rewrite (u64_small (320 + _)); [|lia].
      iDestruct "W" as "[_ [_ [W _]]]". iApply ("W" $! [] [] m' e' with "[] [-G1] G1").
      { iPureIntro. split; [done|]. exact Hplace. }
      iFrame "Hp". iSplitL "Hi Hbo Hba Hbc".
      { iFrame. simpl. replace (n + 0) with (0 + n) by lia.
        replace (320 + (r8 n + 24 + 0)) with (320 + (r8 n + 24)) by lia. iFrame. }
      iSplit; [|done]. unfold sa_core. cbn [hdo sa_seg app]. change (ende [] 320) with 320.
      iFrame. iSplitL "Ht"; [by iExists _; iFrame|]. iSplitR; [iApply raw_empty|].
      iExists 0. by iFrame. }
    (* the size check *)
    iDestruct "Hp" as "(Hpm & Hpe & Hpx & Hpl & Hpf & H0 & %Hok)".
    iApply wpc_load64. iSplit.
    { iDestruct "Hgo" as "[W _]". iApply "W". iApply (Clo m m e with "[-Hr Hc] Hr Hc"); [done|]. by iFrame. }
    iFrame "H0". iIntros "H0".
    iAssert (pool_inv c m e) with "[Hpm Hpe Hpx Hpl Hpf H0]" as "Hp"; [by iFrame|].
    rewrite (u64_small (m - sa_sizeof_data)); [|unfold sa_sizeof_data; lia].
    change (m - sa_sizeof_data) with (m - 320).
    assert (gap [] [] m = m - 320) as Eg by done.
    case_bool_decide as Hfit; wpn.
    + rewrite (u64_small (r8 n + 24 + sa_sizeof_data)); [|unfold sa_sizeof_data; lia].
      replace (r8 n + 24 + sa_sizeof_data) with (320 + 24 + r8 n) by (unfold sa_sizeof_data; lia).
      assert (no_fit [] m (r8 n + 24)) as Hnf.
      { intros A0 B0 HAB. symmetry in HAB. apply app_nil in HAB as [-> ->]. lia. }
      destruct (round_page_spec (320 + 24 + r8 n)) as [Hrp1 Hrp2]; [lia|].
      iApply (wpc_expand with "Hp"); [lia|]. iSplit; [|iSplit; [|iSplit]].
      * iIntros (w _) "Hp". iDestruct "Hgo" as "[W _]". iApply "W". by iApply (Clo with "Hp Hr Hc").
      * iIntros ([Hlt Hga] e') "Hp HR". wpn. iDestruct "Hgo" as "[_ [_ W]]".
        iApply ("W" with "[] Hp Hr [Hc HR]"); [|by iApply (sa_core_grow with "Hc HR")].
        iPureIntro. split; [|split; [lia|]].
        { unfold size_ok, grow_allowed, cfg_ok in *. lia. }
        right. split_and!; done.
      * iIntros ([Hle _]). lia.
      * iIntros (Hfail) "Hp". iDestruct "Hgo" as "[_ [W _]]". iApply "W".
        { iPureIntro. split; [done|]. unfold grow_allowed. intros [Hg1 Hg2]. destruct Hfail as [[? ?]|[? ?]], Hg1; lia. }
        iFrame. done.
    + iDestruct "Hgo" as "[_ [_ W]]". iApply ("W" with "[] Hp Hr Hc").
      iPureIntro. split; [done|]. split; [lia|]. left. split_and!; [|done|done].
      split; [lia|]. intros A0 B0 HAB. symmetry in HAB. apply app_nil in HAB as [-> ->]. lia.
  - (* at least one block *)
    assert (hdo L 0 ≠ 0) as Hh0 by (intros HH; by apply (hdo_zero 320 _ _ Hl) in HH).
    rewrite (bool_decide_eq_false_2 (_ ∧ _)); [|tauto]. wpn.
    pose proof (layout_start_le _ _ _ Hl) as Hst. pose proof (layout_hdo_le _ _ _ Hl) as Hst'.
    rewrite (hdo_ne _ _ 0 Hne) in Hst, Hst'.
    unfold sa_sizeof_data. rewrite (u64_small (hdo L 0 - 320)); [|lia].
    iApply wpc_bind. iApply wpc_readonly; [apply readonly_scan|]. iSplit.
    { iDestruct "W" as "[W _]". iApply "W". by iApply sa_inv_crash. }
    iDestruct "Hinv" as "((Hpm & Hpe & Hpx & Hpl & Hpf & H0 & %Hok) & Hr & (Hh & Ht & G & Hs) & _)".
    iApply (wp_sa_scan _ L m F 0 320 (320, hdo L 0 - 320, 0) with "H0 Hs"); [done|done|lia|lia|].
    iIntros "H0 Hs".
    iAssert (sa_inv c L m e bo) with "[Hpm Hpe Hpx Hpl Hpf H0 Hr Hh Ht G Hs]" as "Hinv"; [by iFrame|].
    destruct (scan_cut (r8 n + 24) L m) as [Hsc1 Hsc2].
    rewrite (hdo_ne _ m 0 Hne) in Hsc1, Hsc2.
    set (r := scan_list _ _ _ _) in *. destruct r as [[coff csize] clink] eqn:Er. simpl in Hsc1, Hsc2.
    case_bool_decide as Hfit; wpn.
    + specialize (Hsc2 Hfit).
      destruct L as [|[p psz] L' _] using rev_ind; [done|]. clear Hne.
      pose proof (layout_in _ _ _ p psz Hl ltac:(apply elem_of_app; right; by left)) as (Hp1 & _ & Hp2 & Hp3).
      pose proof (r8_spec psz) as [Hrp _].
      assert (ende (L' ++ [(p, psz)]) 320 = p + 24 + r8 psz) as Eend by (unfold ende; by rewrite last_snoc).
      iApply (wpc_sa_load_tail' with "Hinv"). iSplit; [by iDestruct "W" as "[W _]"|]. iIntros "Hinv".
      rewrite lasto_app. change (lasto [(p, psz)] _) with p. unfold sa_effective_size. wpn.
      iApply (wpc_sa_load_size with "Hinv"). iSplit; [by iDestruct "W" as "[W _]"|]. iIntros "Hinv". wpn.
      rewrite (round8_r8 psz); [|lia]. rewrite u64_small; [|lia].
      replace (p + 24 + r8 psz + (r8 n + 24)) with (ende (L' ++ [(p, psz)]) 320 + 24 + r8 n) by lia.
      destruct (round_page_spec (ende (L' ++ [(p, psz)]) 320 + 24 + r8 n)) as [Hrq1 Hrq2]; [lia|].
      pose proof (Hsc2 _ [] (eq_sym (app_nil_r _))) as Hg. unfold gap in Hg. cbn [hdo] in Hg.
      iDestruct "Hinv" as "(Hp & Hr & Hc & _)".
      iApply (wpc_expand with "Hp"); [lia|]. iSplit; [|iSplit; [|iSplit]].
      * iIntros (w _) "Hp". iDestruct "W" as "[W _]". iApply "W". iExists _, _, _, _, _.
        iFrame "Hp Hr". iSplit; [by iApply sa_core_weaken|done].
      * iIntros ([Hlt Hga] e') "Hp HR". wpn.
        iDestruct (sa_inv_grow with "Hp HR Hr Hc") as "Hinv"; [done|].
        iApply (wpc_sa_load_tail' with "Hinv"). iSplit; [by iDestruct "W" as "[W _]"|]. iIntros "Hinv".
        rewrite lasto_app. change (lasto [(p, psz)] _) with p. wpn.
        iApply (wpc_sa_load_size with "Hinv"). iSplit; [by iDestruct "W" as "[W _]"|]. iIntros "Hinv". wpn.
        rewrite (round8_r8 psz); [|lia]. rewrite u64_small; [|lia]. rewrite -Eend.
        assert (lasto (L' ++ [(p, psz)]) 0 = p) as Elast by (by rewrite lasto_app).
        set (L0 := L' ++ [(p, psz)]) in *.
        pose proof (wpc_sa_link (A:=A) C c L0 [] (ende L0 320) n
          (round_page (ende L0 320 + 24 + r8 n)) e' bo k Φ Ψ) as HH.
        rewrite Elast app_nil_r in HH.
        iApply (HH with "Hinv"); [unfold L0; by destruct L'|done|lia|cbn [hdo]; lia|].
        iSplit; [by iDestruct "W" as "[W _]"|]. iSplit.
        { iIntros "H HR". iDestruct "W" as "[_ [W _]]". iApply ("W" $! _ [] with "[] H HR"). by rewrite app_nil_r. }
        iIntros "H HR". iDestruct "W" as "(_ & _ & W & _)". iApply ("W" $! _ [] with "[] H HR").
        iPureIntro. rewrite app_nil_r. split; [done|]. right. done.
      * iIntros ([Hle _]). lia.
      * iIntros (Hfail) "Hp". iDestruct "W" as "(_ & _ & _ & W)". iApply "W".
        { iPureIntro. split; [done|]. unfold grow_allowed. intros [Hg1 Hg2]. destruct Hfail as [[? ?]|[? ?]], Hg1; lia. }
        iFrame. done.
    + destruct Hsc1 as (L1 & L2 & -> & Hr & Hbf); [lia|]. injection Hr as -> -> ->.
      destruct Hbf as [Hbf1 Hbf2]. unfold gap in Hbf1.
      iApply (wpc_sa_link with "Hinv"); [done|done|lia|lia|].
      iSplit; [by iDestruct "W" as "[W _]"|]. iSplit.
      { iIntros "H HR". iDestruct "W" as "[_ [W _]]". by iApply ("W" with "[] H HR"). }
      iIntros "H HR". iDestruct "W" as "(_ & _ & W & _)". iApply ("W" with "[] H HR").
      iPureIntro. split; [done|]. left. done.
Qed.
