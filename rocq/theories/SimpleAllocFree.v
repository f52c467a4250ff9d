(** * SimpleAllocator: free, block_size, accounting, repair. *)
From Verif Require Export SimpleAllocOps.
From iris.proofmode Require Import tactics.
From iris.prelude Require Import options.
Open Scope Z_scope.
Open Scope prog_scope.

Lemma layout_remove L1 b n L2 m : layout 320 (L1 ++ (b, n) :: L2) m → layout 320 (L1 ++ L2) m.
Proof.
  intros Hl. apply layout_app in Hl as [Hl1 Hl2]. apply layout_app. split; [done|].
  simpl in Hl2. destruct Hl2 as (?&?&?&Hl2). pose proof (r8_spec n).
  destruct L2 as [|[b2 n2] L2]; simpl in *; [lia|]. destruct Hl2 as (?&?&?&?).
  split_and!; try done. lia.
Qed.

(** The list after the block has been unlinked. *)
Lemma sa_close_free st L1 b n L2 m q8 q16 p pv :
  layout 320 (L1 ++ (b, n) :: L2) m → (st = true → pv = lasto L1 0) →
  word (link_next L1) (hdo L2 0) -∗ word b p -∗ word (b + 8) q8 -∗ word (b + 16) q16 -∗
  raw (b + 24) (b + 24 + n) -∗ raw (b + 24 + n) (hdo L2 m) -∗
  word (link_prev L2) pv -∗ raw (graw L1) b -∗ sa_left true L1 -∗ sa_right true L2 m -∗
  sa_core st (L1 ++ L2) m.
Proof.
  intros Hl Hpv. iIntros "Hn H0 H8 H16 G2 G3 Hpv G1 HL HR".
  pose proof (layout_in _ _ _ b n Hl ltac:(apply elem_of_app; right; by left)) as (Hb1 & Hb2 & Hn & Hb3).
  iDestruct (raw_le with "G1") as %?. iDestruct (raw_le with "G3") as %?.
  iAssert (raw (graw L1) (hdo L2 m)) with "[H0 H8 H16 G1 G2 G3]" as "G".
  { iApply (raw_split _ b); [lia|]. iFrame "G1".
    iApply (raw_split _ (b + 24)); [lia|]. iSplitL "H0 H8 H16".
    { iApply raw_hdr. iExists _, _, _. iFrame. }
    iApply (raw_split _ (b + 24 + n)); [lia|]. iFrame. }
  iApply sa_open. iFrame "Hn G". destruct st.
  - iFrame. iExists _. by iFrame.
  - rewrite sa_left_weaken sa_right_weaken. iFrame. iExists _. by iFrame.
Qed.

Lemma wpc_sa_free {A} C c L1 b n L2 m e bo U (k : unit → prog A) Φ Ψ :
  (U ⊢ raw (b + 24) (b + 24 + n)) →
  sa_inv c (L1 ++ (b, n) :: L2) m e bo -∗ U -∗
  ((sa_crash c (L1 ++ (b, n) :: L2) bo -∗ U -∗ C) ∧
   (sa_crash c (L1 ++ L2) bo -∗ C) ∧
   (⌜m < b + 48⌝ -∗ sa_inv c (L1 ++ (b, n) :: L2) m e bo -∗ U -∗
      wpc C (k tt) Φ Ψ) ∧
   (⌜b + 48 <= m⌝ -∗ sa_inv c (L1 ++ L2) m e bo -∗ wpc C (k tt) Φ Ψ)) -∗
  wpc C (x <- sa_free (b + 24) ;; k x) Φ Ψ.
Proof.
  intros HU. iIntros "Hinv G2 W".
  iDestruct (sa_inv_pure with "Hinv") as %(Hcfg & Hm & Hl). pose proof Hm as [Hm1 Hm2].
  pose proof (layout_in _ _ _ b n Hl ltac:(apply elem_of_app; right; by left)) as (Hb1 & Hb2 & Hn & Hb3).
  pose proof (r8_spec n) as [Hr8 _].
  pose proof (layout_remove _ _ _ _ _ Hl) as Hl'.
  pose proof (sum_bounds _ _ _ Hl) as [Hsb1 Hsb2].
  rewrite sum_alloc_app sum_comm_app /= in Hsb1. rewrite sum_comm_app /= in Hsb2.
  pose proof (sum_bounds _ _ _ Hl') as [Hsa1 Hsa2].
  rewrite sum_alloc_app sum_comm_app in Hsa1. rewrite sum_comm_app in Hsa2.
  assert (Hcl : ∀ ba bc, pool_inv c m e -∗ sa_rest bo ba bc -∗
    sa_core true (L1 ++ (b, n) :: L2) m -∗ sa_crash c (L1 ++ (b, n) :: L2) bo).
  { iIntros (ba bc) "Hp Hr Hc". iExists m, m, e, ba, bc. iFrame. iSplit; [by iApply sa_core_weaken|done]. }
  iDestruct "Hinv" as "(Hp & Hr & Hc & _)".
  unfold sa_free, pool_size. wpn.
  iDestruct "Hp" as "(Hpm & Hpe & Hpx & Hpl & Hpf & H0 & %Hok)".
  iApply wpc_load64. iSplit.
  { iDestruct "W" as "[W _]". iApply ("W" with "[-G2] G2"). iApply (Hcl with "[-Hr Hc] Hr Hc"). by iFrame. }
  iFrame "H0". iIntros "H0".
  iAssert (pool_inv c m e) with "[Hpm Hpe Hpx Hpl Hpf H0]" as "Hp"; [by iFrame|].
  unfold sa_hdr, sa_sizeof_data. rewrite (u64_small (m - 24)); [|lia].
  case_bool_decide as Hc.
  { wpn. iDestruct "W" as "(_ & _ & W & _)". iApply ("W" with "[] [-G2] G2"); [iPureIntro; lia|]. by iFrame. }
  wpn. rewrite (u64_small (b + 24 - 24)); [|lia].
  replace (b + 24 - 24) with b by lia.
  assert (Hclw : ∀ ba bc,
    word (link_next L1) b -∗ word b (lasto L1 0) -∗ word (b + 8) (hdo L2 0) -∗ word (b + 16) n -∗
    raw (b + 24 + n) (hdo L2 m) -∗ word (link_prev L2) b -∗ raw (graw L1) b -∗ sa_left true L1 -∗
    sa_right true L2 m -∗ pool_inv c m e -∗ sa_rest bo ba bc -∗ sa_crash c (L1 ++ (b, n) :: L2) bo).
  { iIntros (ba bc) "Hn H0 H8 H16 G3 Hpv G1 HL HR Hp Hr". iApply (Hcl with "Hp Hr").
    iApply (sa_close_new with "Hn Hpv H0 H8 H16 G1 G3 HL HR"). done. }
  rewrite sa_open3.
  iDestruct "Hc" as "(Hn & (%p & H0 & %Ep) & H8 & H16 & G3 & (%pv & Hpv & %Epv) & G1 & HL & HR)".
  rewrite Ep; [|done]. rewrite Epv; [|done]. clear p pv Ep Epv.
  iApply wpc_load64. iSplit.
  { iDestruct "W" as "[W _]". iApply ("W" with "[-G2] G2"). iApply (Hclw with "Hn H0 H8 H16 G3 Hpv G1 HL HR Hp Hr"). }
  iFrame "H16". iIntros "H16". wpn.
  iDestruct "Hr" as "(Hi & Hbo & Hba & Hbc)".
  iApply (wpc_add64 with "Hba"). iSplit.
  { iIntros (v) "Hba". iDestruct "W" as "[W _]". iApply ("W" with "[-G2] G2").
    iApply (Hclw with "Hn H0 H8 H16 G3 Hpv G1 HL HR Hp"). iFrame. }
  iIntros "Hba". wpn. unfold sa_effective_size. wpn.
  iApply wpc_load64. iSplit.
  { iDestruct "W" as "[W _]". iApply ("W" with "[-G2] G2"). iApply (Hclw with "Hn H0 H8 H16 G3 Hpv G1 HL HR Hp"). iFrame. }
  iFrame "H16". iIntros "H16". wpn. rewrite round8_r8; [|lia].
  iApply (wpc_add64 with "Hbc"). iSplit.
  { iIntros (v) "Hbc". iDestruct "W" as "[W _]". iApply ("W" with "[-G2] G2").
    iApply (Hclw with "Hn H0 H8 H16 G3 Hpv G1 HL HR Hp"). iFrame. }
  iIntros "Hbc". wpn.
  rewrite (u64_small (_ + - n)); last first.
  { rewrite sum_alloc_app /=. lia. }
  rewrite (u64_small (_ + - (r8 n + 24))); last first.
  { rewrite sum_comm_app /=. lia. }
  replace (sum_alloc (L1 ++ (b, n) :: L2) + - n) with (sum_alloc (L1 ++ L2)) by (rewrite !sum_alloc_app /=; lia).
  replace (320 + sum_comm (L1 ++ (b, n) :: L2) + - (r8 n + 24)) with (320 + sum_comm (L1 ++ L2))
    by (rewrite !sum_comm_app /=; lia).
  iAssert (sa_rest bo (sum_alloc (L1 ++ L2)) (320 + sum_comm (L1 ++ L2))) with "[Hi Hbo Hba Hbc]" as "Hr"; [iFrame|].
  iDestruct (word_u64 with "H0") as %Hu1. iDestruct (word_u64 with "H8") as %Hu2.
  iApply wpc_load64. iSplit.
  { iDestruct "W" as "[W _]". iApply ("W" with "[-G2] G2"). iApply (Hclw with "Hn H0 H8 H16 G3 Hpv G1 HL HR Hp Hr"). }
  iFrame "H0". iIntros "H0". wpn.
  iApply wpc_load64. iSplit.
  { iDestruct "W" as "[W _]". iApply ("W" with "[-G2] G2"). iApply (Hclw with "Hn H0 H8 H16 G3 Hpv G1 HL HR Hp Hr"). }
  iFrame "H8". iIntros "H8". wpn.
  assert ((if bool_decide (lasto L1 0 ≠ 0) then store64 (lasto L1 0 + 8) (hdo L2 0)
           else store64 sa_head (hdo L2 0)) = store64 (link_next L1) (hdo L2 0)) as ->.
  { apply layout_app in Hl as [Hla _]. case_bool_decide as Hz.
    - unfold link_next, lasto in *. destruct (last L1) as [[p psz]|]; done.
    - apply (lasto_zero 320 L1 _ Hla) in Hz; [|lia]. by subst L1. }
  iApply wpc_store64; [done|]. iSplit.
  { iDestruct "W" as "[W _]". iApply ("W" with "[-G2] G2"). iApply (Hclw with "Hn H0 H8 H16 G3 Hpv G1 HL HR Hp Hr"). }
  iFrame "Hn". iIntros "Hn".
  assert ((if bool_decide (hdo L2 0 ≠ 0) then store64 (hdo L2 0) (lasto L1 0)
           else store64 sa_tail (lasto L1 0)) = store64 (link_prev L2) (lasto L1 0)) as ->.
  { apply layout_app in Hl as [_ Hla]. destruct L2 as [|[b2 n2] L2]; [done|].
    simpl in Hla. cbn [hdo link_prev]. rewrite bool_decide_eq_true_2; [done|]. pose proof (r8_spec n). lia. }
  iApply wpc_store64; [done|]. iSplit.
  { iDestruct "W" as "(_ & W & _)". iApply "W". iExists m, m, e, _, _. iFrame "Hp Hr". iSplit; [|done].
    rewrite HU. iApply (sa_close_free with "Hn H0 H8 H16 G2 G3 Hpv G1 HL HR"); done. }
  iFrame "Hpv". iIntros "Hpv". wpn.
  iDestruct "W" as "(_ & _ & _ & W)". iApply ("W" with "[]"); [iPureIntro; lia|].
  iFrame "Hp Hr". iSplit; [|done].
  rewrite HU. iApply (sa_close_free with "Hn H0 H8 H16 G2 G3 Hpv G1 HL HR"); done.
Qed.

(** ** Queries *)
Lemma wp_sa_block_size {A} c L1 b n L2 m e bo (k : Z → prog A) Φ Ψ :
  sa_inv c (L1 ++ (b, n) :: L2) m e bo -∗
  (sa_inv c (L1 ++ (b, n) :: L2) m e bo -∗ wp (k n) Φ Ψ) -∗
  wp (x <- sa_block_size (b + 24) ;; k x) Φ Ψ.
Proof.
  iIntros "Hinv W". iDestruct (sa_inv_pure with "Hinv") as %(Hcfg & [Hm1 _] & Hl).
  pose proof (layout_in _ _ _ b n Hl ltac:(apply elem_of_app; right; by left)) as (Hb1 & Hb2 & Hn & Hb3).
  pose proof (r8_spec n) as [Hr8 _].
  unfold sa_block_size, sa_hdr. rewrite u64_small; [|lia].
  replace (b + 24 - 24) with b by lia.
  iApply (wpc_sa_load_size with "Hinv"). iSplit; [by iIntros "_"|done].
Qed.
Lemma wp_sa_bytes_allocated {A} c L m e bo (k : Z → prog A) Φ Ψ :
  sa_inv c L m e bo -∗ (sa_inv c L m e bo -∗ wp (k (sum_alloc L)) Φ Ψ) -∗
  wp (x <- sa_bytes_allocated ;; k x) Φ Ψ.
Proof.
  iIntros "(Hp & (Hi & Hbo & Hba & Hbc) & Hc & %Hl) W".
  iApply (wp_load64 with "Hba"). iIntros "Hba". iApply "W". by iFrame.
Qed.
Lemma wp_sa_bytes_free {A} c L m e bo (k : Z → prog A) Φ Ψ :
  sa_inv c L m e bo -∗ (sa_inv c L m e bo -∗ wp (k (m - (320 + sum_comm L))) Φ Ψ) -∗
  wp (x <- sa_bytes_free ;; k x) Φ Ψ.
Proof.
  iIntros "(Hp & (Hi & Hbo & Hba & Hbc) & Hc & %Hl) W".
  iDestruct "Hp" as "(Hpm & Hpe & Hpx & Hpl & Hpf & H0 & %Hok)".
  unfold sa_bytes_free. wpn.
  iApply (wp_load64 with "H0"). iIntros "H0". wpn.
  iApply (wp_load64 with "Hbc"). iIntros "Hbc". wpn.
  pose proof (sum_bounds _ _ _ Hl) as [? ?]. pose proof Hok as (_ & [? _] & _).
  rewrite u64_small; [|lia]. iApply "W". by iFrame.
Qed.
Lemma wp_sa_get_base {A} c L m e bo (k : Z → prog A) Φ Ψ :
  sa_inv c L m e bo -∗ (sa_inv c L m e bo -∗ wp (k bo) Φ Ψ) -∗
  wp (x <- sa_get_base ;; k x) Φ Ψ.
Proof.
  iIntros "(Hp & (Hi & Hbo & Hba & Hbc) & Hc & %Hl) W".
  iApply (wp_load64 with "Hbo"). iIntros "Hbo". iApply "W". by iFrame.
Qed.
Lemma wp_sa_set_base {A} c L m e bo v (k : unit → prog A) Φ Ψ :
  is_u64 v →
  sa_inv c L m e bo -∗ (sa_inv c L m e v -∗ wp (k tt) Φ Ψ) -∗
  wp (x <- sa_set_base v ;; k x) Φ Ψ.
Proof.
  iIntros (?) "(Hp & (Hi & Hbo & Hba & Hbc) & Hc & %Hl) W".
  iApply (wp_store64 with "Hbo"); [done|]. iIntros "Hbo". iApply "W". by iFrame.
Qed.

(** ** Repair *)
Lemma wpc_sa_repair_loop {A} C L m : ∀ F prev ba bc start (k : Z * Z * Z → prog A) Φ Ψ,
  (length L <= F)%nat → layout start L m → 320 <= start → m <= 2 ^ 62 → is_u64 prev →
  0 <= ba → ba + sum_alloc L < 2 ^ 64 → 0 <= bc → bc + sum_comm L < 2 ^ 64 →
  sa_seg false prev L 0 m -∗
  ((sa_seg false prev L 0 m -∗ C) ∧
   (sa_seg true prev L 0 m -∗ wpc C (k (lasto L prev, ba + sum_alloc L, bc + sum_comm L)) Φ Ψ)) -∗
  wpc C (x <- sa_repair_loop F prev (hdo L 0) ba bc ;; k x) Φ Ψ.
Proof.
  induction L as [|[b n] L IH]; intros F prev ba bc start k Φ Ψ HF Hl Hs Hm Hp Hba0 Hba Hbc0 Hbc.
  - iIntros "_ W". destruct F; cbn [sa_repair_loop hdo]; (rewrite bool_decide_eq_true_2; [|done]); wpn;
      iDestruct "W" as "[_ W]"; rewrite /= !Z.add_0_r; by iApply "W".
  - destruct F as [|F]; [simpl in HF; lia|].
    simpl in Hl. destruct Hl as (Hb & Hb8 & Hn & Hl). pose proof (r8_spec n) as [Hr _].
    pose proof (layout_le _ _ _ Hl) as Hle.
    pose proof (sum_bounds _ _ _ Hl) as [Hsa Hsb]. simpl in Hba, Hbc.
    cbn [sa_repair_loop hdo]. rewrite (bool_decide_eq_false_2 (b = 0)); [|lia].
    simpl sa_seg. iIntros "((%p & H0 & _) & H8 & H16 & G & Hs) W". wpn.
    iApply wpc_store64; [done|]. iSplit.
    { iDestruct "W" as "[W _]". iApply "W". iFrame. iExists _. by iFrame. }
    iFrame "H0". iIntros "H0". wpn.
    iApply wpc_load64. iSplit.
    { iDestruct "W" as "[W _]". iApply "W". iFrame. iExists _. by iFrame. }
    iFrame "H16". iIntros "H16". wpn. unfold sa_effective_size. wpn.
    iApply wpc_load64. iSplit.
    { iDestruct "W" as "[W _]". iApply "W". iFrame. iExists _. by iFrame. }
    iFrame "H16". iIntros "H16". wpn. rewrite round8_r8; [|lia].
    iApply wpc_load64. iSplit.
    { iDestruct "W" as "[W _]". iApply "W". iFrame. iExists _. by iFrame. }
    iFrame "H8". iIntros "H8".
    unfold sa_hdr. rewrite (u64_small (ba + n)); [|lia]. rewrite (u64_small (bc + r8 n + 24)); [|lia].
    iApply (IH F b _ _ (b + 24 + r8 n) with "Hs"); [simpl in HF; lia|done|lia|lia|unfold is_u64; lia|lia|lia|lia|lia|].
    iSplit.
    { iIntros "Hs". iDestruct "W" as "[W _]". iApply "W". iFrame. iExists _. by iFrame. }
    iIntros "Hs". iDestruct "W" as "[_ W]".
    rewrite (lasto_cons (b, n)) /=.
    replace (ba + (n + sum_alloc L)) with (ba + n + sum_alloc L) by lia.
    replace (bc + (r8 n + 24 + sum_comm L)) with (bc + r8 n + 24 + sum_comm L) by lia.
    iApply "W". iFrame. iExists _. by iFrame.
Qed.

Lemma wpc_sa_repair {A} C F c L m e bo ba bc (k : unit → prog A) Φ Ψ :
  (length L <= F)%nat → layout 320 L m →
  pool_inv c m e -∗ sa_rest bo ba bc -∗ sa_core false L m -∗
  ((sa_crash c L bo -∗ C) ∧ (sa_inv c L m e bo -∗ wpc C (k tt) Φ Ψ)) -∗
  wpc C (x <- sa_repair F ;; k x) Φ Ψ.
Proof.
  intros HF Hl. iIntros "Hp (Hi & Hbo & Hba & Hbc) (Hh & (%t & Ht & _) & G & Hs) W".
  iAssert (⌜size_ok m⌝)%I as %[Hm1 Hm2].
  { iDestruct "Hp" as "(_ & _ & _ & _ & _ & _ & %Hx)". iPureIntro. tauto. }
  pose proof (sum_bounds _ _ _ Hl) as [Hsa Hsb].
  assert (Hcl : ∀ ba bc t, pool_inv c m e -∗ (∃ i, word sa_initialized i ∗ ⌜i ≠ 0⌝) -∗
    word sa_base bo -∗ word sa_bytes_alloc ba -∗ word sa_bytes_comm bc -∗
    word sa_head (hdo L 0) -∗ word sa_tail t -∗ raw 320 (hdo L m) -∗ sa_seg false 0 L 0 m -∗ sa_crash c L bo).
  { iIntros (???) "Hp Hi Hbo Hba Hbc Hh Ht G Hs". iExists m, m, e, _, _. iFrame. iSplit; [|done].
    iExists _. by iFrame. }
  unfold sa_repair. wpn.
  iApply wpc_load64. iSplit.
  { iDestruct "W" as "[W _]". iApply "W". iApply (Hcl with "Hp Hi Hbo Hba Hbc Hh Ht G Hs"). }
  iFrame "Hh". iIntros "Hh". wpn.
  unfold sa_sizeof_data.
  iApply (wpc_sa_repair_loop _ L m F 0 0 320 320 with "Hs"); [done|done|lia|lia|done|lia|lia|lia|lia|].
  iSplit.
  { iIntros "Hs". iDestruct "W" as "[W _]". iApply "W". iApply (Hcl with "Hp Hi Hbo Hba Hbc Hh Ht G Hs"). }
  iIntros "Hs". wpn.
  assert (is_u64 (lasto L 0)) as Hu1.
  { destruct L as [|[p psz] L' _] using rev_ind; [done|].
    rewrite /lasto last_snoc.
    assert ((p, psz) ∈ L' ++ [(p, psz)]) as Hin.
    { apply elem_of_app; right; by left. }
    eapply layout_in in Hin; [|exact Hl]. pose proof (r8_spec psz). unfold is_u64. lia. }
  iApply wpc_store64; [done|]. iSplit.
  { iDestruct "W" as "[W _]". iApply "W". iApply (Hcl with "Hp Hi Hbo Hba Hbc Hh Ht G [Hs]"). by iApply sa_seg_weaken. }
  iFrame "Ht". iIntros "Ht". wpn.
  iApply wpc_store64; [unfold is_u64; lia|]. iSplit.
  { iDestruct "W" as "[W _]". iApply "W". iApply (Hcl with "Hp Hi Hbo Hba Hbc Hh Ht G [Hs]"). by iApply sa_seg_weaken. }
  iFrame "Hba". iIntros "Hba". wpn.
  iApply wpc_store64; [unfold is_u64; lia|]. iSplit.
  { iDestruct "W" as "[W _]". iApply "W". iApply (Hcl with "Hp Hi Hbo Hba Hbc Hh Ht G [Hs]"). by iApply sa_seg_weaken. }
  iFrame "Hbc". iIntros "Hbc". iDestruct "W" as "[_ W]". iApply "W".
  iFrame. iSplit; [|done]. iExists _. by iFrame.
Qed.
