(** * LogarithmicAllocator: allocate and the small functions. *)
From Verif Require Export LogAllocProof.
From iris.proofmode Require Import tactics.
From iris.prelude Require Import options.
Open Scope Z_scope.
Open Scope prog_scope.
Local Arguments Z.pow : simpl never.
Local Arguments Z.mul : simpl never.
Local Arguments Z.add : simpl never.
Local Arguments bool_decide : simpl never.
Local Arguments u64 : simpl never.
Local Opaque la_create_free_block la_unlink la_merge_loop.

Lemma flist_pure k l : flist k l ⊢ ⌜Forall off_ok l⌝.
Proof. iIntros "(_ & _ & _ & %H)". done. Qed.
Lemma hd0_zero l : Forall off_ok l → hd0 l 0 = 0 ↔ l = [].
Proof.
  destruct l as [|o l]; [done|]. intros H. inversion H as [|? ? Ho _]; subst. unfold off_ok in Ho.
  sl. split; [lia|done].
Qed.

Lemma wp_search {A} F : ∀ k fl (kont : Z → prog A) Φ Ψ,
  4 <= k <= 58 → 58 - k <= Z.of_nat F →
  flists fl -∗
  (∀ k', ⌜k <= k' <= 58 ∧ (∀ j, k <= j < k' → fl j = []) ∧ (k' <= 57 → fl k' ≠ [])⌝ -∗
     flists fl -∗ wp (kont k') Φ Ψ) -∗
  wp (x <- la_search F k ;; kont x) Φ Ψ.
Proof.
  induction F as [|F IH]; iIntros (k fl kont Φ Ψ Hk HF) "FL W".
  - assert (k = 58) as -> by lia. cbn [la_search]. wpn.
    iDestruct (flists_acc_ro _ 4 with "FL") as "[(Hh & Ht & Hn) FL]"; [lia|].
    change (la_head 58) with (la_tail 4). iApply (wp_load64 with "Ht"). iIntros "Ht".
    rewrite bool_decide_eq_false_2; [|unfold la_max; lia]. wpn.
    iApply ("W" with "[]"); [iPureIntro; split; [lia|split; lia]|]. iApply "FL". iFrame.
  - cbn [la_search]. wpn.
    destruct (decide (k = 58)) as [->|].
    { iDestruct (flists_acc_ro _ 4 with "FL") as "[(Hh & Ht & Hn) FL]"; [lia|].
      change (la_head 58) with (la_tail 4). iApply (wp_load64 with "Ht"). iIntros "Ht".
      rewrite bool_decide_eq_false_2; [|unfold la_max; lia]. wpn.
      iApply ("W" with "[]"); [iPureIntro; split; [lia|split; lia]|]. iApply "FL". iFrame. }
    iDestruct (flists_acc_ro _ k with "FL") as "[(Hh & Ht & Hn & %Hl) FL]"; [lia|].
    iApply (wp_load64 with "Hh"). iIntros "Hh".
    iDestruct ("FL" with "[Hh Ht Hn]") as "FL"; [by iFrame|].
    destruct (bool_decide_reflect (hd0 (fl k) 0 = 0 ∧ k <= la_max)) as [[H0 _]|H0].
    + iApply (IH with "FL"); [lia|lia|]. iIntros (k' (H1 & H2 & H3)). iApply "W". iPureIntro.
      split; [lia|]. split; [|done]. intros j Hj. destruct (decide (j = k)) as [->|]; [by apply hd0_zero|].
      apply H2. lia.
    + wpn. iApply ("W" with "[] FL"). iPureIntro. split; [lia|]. split; [lia|]. intros _ E.
      apply H0. rewrite E. unfold la_max. split; [done|lia].
Qed.
Local Opaque la_search.

Lemma wp_split {A} F : ∀ L1 h so L2 fl need rest m (kont : unit → prog A) Φ Ψ,
  4 <= need <= so → so - need <= Z.of_nat F → m <= 2 ^ 56 →
  tiles la_start (L1 ++ (h, so, None) :: L2) m → fl_ok fl (L1 ++ (h, so, None) :: L2) →
  fl so = h :: rest → (∀ j, need <= j < so → fl j = []) →
  flists fl -∗ ([∗ list] t ∈ L1 ++ (h, so, None) :: L2, tres t) -∗
  (∀ L2' fl' rest', ⌜tiles la_start (L1 ++ (h, need, None) :: L2') m ∧ fl_ok fl' (L1 ++ (h, need, None) :: L2') ∧
     fl' need = h :: rest' ∧ used (L1 ++ L2') = used (L1 ++ L2) ∧ committed (L1 ++ L2') = committed (L1 ++ L2) ∧
     (merged (L1 ++ L2) → merged (L1 ++ L2'))⌝ -∗
     flists fl' -∗ ([∗ list] t ∈ L1 ++ (h, need, None) :: L2', tres t) -∗ wp (kont tt) Φ Ψ) -∗
  wp (x <- la_split F so need ;; kont x) Φ Ψ.
Proof.
  induction F as [|F IH]; intros L1 h so L2 fl need rest m kont Φ Ψ Hn HF Hm56 Ht Hfl Hso Hemp; iIntros "FL T W".
  - cbn [la_split]. rewrite bool_decide_eq_false_2; [|lia]. wpn.
    assert (so = need) as -> by lia. iApply ("W" with "[] FL T"). iPureIntro. split_and!; try done.
  - cbn [la_split]. destruct (bool_decide_reflect (so > need)) as [Hgt|Hgt].
    2:{ wpn. assert (so = need) as -> by lia. iApply ("W" with "[] FL T"). iPureIntro. split_and!; try done. }
    pose proof Ht as Ht0. apply tiles_mid in Ht as (H1 & Hok & H2). pose proof Hok as Hok0.
    destruct Hok as (Hk & Hmod & _).
    pose proof (tiles_le _ _ _ H1) as Hle1. pose proof (tiles_le _ _ _ H2) as Hle2.
    assert (la_start = 1168) as Hst by reflexivity.
    assert (2 ^ so = 2 * 2 ^ (so - 1)) as Hpow by (rewrite -pow_succ; [f_equal; lia|lia]).
    assert (16 <= 2 ^ (so - 1)) as H16 by (change 16 with (2 ^ 4); apply pow_le; lia).
    wpn. iDestruct (flists_acc_ro _ so with "FL") as "[(Hh & Htl & Hnd & %Hl) FL]"; [lia|].
    rewrite {1 2}Hso. cbn [hd0]. iApply (wp_load64 with "Hh"). iIntros "Hh".
    iDestruct ("FL" with "[Hh Htl Hnd]") as "FL". { unfold flist. rewrite Hso. sl. iFrame. iPureIntro. by rewrite -Hso. }
    rewrite size_for_order_ok; [|lia]. wpn. rewrite (u64_small (h + 2 ^ (so - 1))); [|lia].
    iApply (wp_unlink_tile L1 h so L2 with "FL T"); [done|done|].
    iIntros (fl1 p v (Hfl1 & Hp & Hfl1' & Hfl1k)) "FL T B1 B2 R".
    iDestruct (raw_split _ (h + 2 ^ (so - 1)) with "R") as "[R1 R2]"; [lia|]. wpn.
    iApply (wp_create_tile L1 h (so - 1) L2 with "FL T B1 B2 R1"); [lia|unfold off_ok; lia|done|].
    iIntros (fl2 (Hfl2e & Hfl2)) "FL T". wpn.
    iDestruct (raw_two with "R2") as "((%v1 & C1) & (%v2 & C2) & R2)"; [lia|].
    assert (L1 ++ (h, so - 1, None) :: L2 = (L1 ++ [(h, so - 1, None)]) ++ L2) as EL by (by rewrite -app_assoc).
    iEval (rewrite EL) in "T". rewrite EL in Hfl2.
    iApply (wp_create_tile (L1 ++ [(h, so - 1, None)]) (h + 2 ^ (so - 1)) (so - 1) L2 with "FL T C1 C2 [R2]");
      [lia|unfold off_ok; lia|done| |].
    { replace (h + 2 ^ (so - 1) + 2 ^ (so - 1)) with (h + 2 ^ so) by lia. iFrame. }
    iIntros (fl3 (Hfl3e & Hfl3)) "FL T".
    iEval (rewrite -app_assoc) in "T". rewrite -app_assoc in Hfl3. cbn [app] in Hfl3.
    assert (fl1 (so - 1) = []) as E1 by (rewrite Hfl1'; [apply Hemp; lia|lia]).
    assert (fl2 (so - 1) = [h]) as E2 by (rewrite Hfl2e fset_same E1; done).
    assert (fl3 (so - 1) = [h; h + 2 ^ (so - 1)]) as E3 by (rewrite Hfl3e fset_same E2; done).
    iApply (IH L1 h (so - 1) ((h + 2 ^ (so - 1), so - 1, None) :: L2) fl3 need [h + 2 ^ (so - 1)] m with "FL T"); [lia|lia|done| |done|done| |].
    + apply tiles_mid. split; [done|]. split.
      { split; [lia|]. split; [|done]. eapply mod_dvd_trans; [|exact Hmod]. lia. }
      cbn [tiles fst snd]. split; [done|]. split.
      { split; [lia|]. split; [|done]. apply Z.mod_divide; [lia|]. apply Z.divide_add_r; [|done].
        apply Z.mod_divide; [lia|]. eapply mod_dvd_trans; [|exact Hmod]. lia. }
      by replace (h + 2 ^ (so - 1) + 2 ^ (so - 1)) with (h + 2 ^ so) by lia.
    + intros j Hj. rewrite Hfl3e fset_ne; [|lia]. rewrite Hfl2e fset_ne; [|lia]. rewrite Hfl1'; [|lia]. apply Hemp. lia.
    + iIntros (L2' fl' rest' (Ha & Hb & Hc & Hd & He & Hf)). iApply "W". iPureIntro. split_and!; try done.
      * by rewrite Hd used_free.
      * by rewrite He committed_free.
      * intros Hmm. apply Hf.
        assert ((h + 2 ^ (so - 1)) mod 2 ^ (so - 1) = 0) as Hmodn.
        { apply Z.mod_divide; [lia|]. apply Z.divide_add_r; [|done].
          apply Z.mod_divide; [lia|]. eapply mod_dvd_trans; [|exact Hmod]. lia. }
        assert (buddy (h + 2 ^ (so - 1)) (so - 1) = h) as Hbud.
        { destruct (buddy_spec h (so - 1) ltac:(lia)) as [[_ E]|(E & _)].
          - eapply mod_dvd_trans; [|exact Hmod]. lia.
          - rewrite -E. apply buddy_invol.
          - replace (so - 1 + 1) with so in E by lia. lia. }
        apply merged_insert; [lia|done|done| |rewrite Hbud; lia].
        intros _. rewrite Hbud. intros Hin. apply elem_of_app in Hin as [Hin|Hin].
        -- pose proof (tiles_in _ _ _ _ H1 Hin) as (_ & _ & Hx). simpl in Hx. lia.
        -- pose proof (tiles_in _ _ _ _ H2 Hin) as (_ & Hx & _). simpl in Hx. lia.
Qed.
Local Opaque la_split.

(** The free space after a new block at the end of the pool. *)
Lemma wp_create_growing {A} F : ∀ j L fl a (kont : unit → prog A) Φ Ψ,
  4 <= j <= 12 → 12 - j < Z.of_nat F → a mod 4096 = 0 → la_start <= a → a <= 2 ^ 56 →
  tiles la_start L (a + 2 ^ j) → fl_ok fl L → (∃ k n, (a, k, Some n) ∈ L) →
  flists fl -∗ ([∗ list] t ∈ L, tres t) -∗ raw (a + 2 ^ j) (a + 4096) -∗
  (∀ L' fl', ⌜tiles la_start (L ++ L') (a + 4096) ∧ fl_ok fl' (L ++ L') ∧ used L' = [] ∧ committed L' = 0 ∧
     (merged L → merged (L ++ L'))⌝ -∗ flists fl' -∗ ([∗ list] t ∈ L ++ L', tres t) -∗ wp (kont tt) Φ Ψ) -∗
  wp (x <- la_create_growing F (a + 2 ^ j) (a + 4096) ;; kont x) Φ Ψ.
Proof.
  induction F as [|F IH]; intros j L fl a kont Φ Ψ Hj HF Ha Hst Ha56 Ht Hfl Hused; iIntros "FL T R W"; [lia|].
  cbn [la_create_growing].
  assert (2 ^ j <= 2 ^ 12) as Hp12 by (apply pow_le; lia). change (2 ^ 12) with 4096 in Hp12.
  destruct (bool_decide_reflect (a + 2 ^ j < a + 4096)) as [Hlt|Hlt].
  - assert (j < 12) as Hj12. { destruct (decide (j < 12)); [done|]. assert (j = 12) as -> by lia. change (2 ^ 12) with 4096 in Hlt. lia. }
    assert (2 ^ (j + 1) <= 2 ^ 12) as Hp12' by (apply pow_le; lia). change (2 ^ 12) with 4096 in Hp12'.
    pose proof (pow_succ j ltac:(lia)) as Hps.
    assert (16 <= 2 ^ j) as H16 by (change 16 with (2 ^ 4); apply pow_le; lia).
    assert (la_start = 1168) as Hst' by reflexivity.
    assert (a mod 2 ^ (j + 1) = 0) as Ham. { eapply mod_dvd_trans; [|change 4096 with (2 ^ 12) in Ha; exact Ha]. lia. }
    assert (order_alignment_of_size (a + 2 ^ j) = j) as ->.
    { pose proof (Z.div_mod a (2 ^ (j + 1)) ltac:(lia)) as E. rewrite Ham in E.
      replace a with (a / 2 ^ (j + 1) * 2 ^ (j + 1)) at 1 by lia.
      apply alignment_spec; [apply Z.div_pos; lia|lia|]. lia. }
    rewrite size_for_order_ok; [|lia]. wpn.
    rewrite (u64_small (a + 2 ^ j + 2 ^ j)); [|lia].
    rewrite bool_decide_eq_false_2; [|lia]. wpn.
    replace (a + 2 ^ j + 2 ^ j) with (a + 2 ^ (j + 1)) by lia.
    iDestruct (raw_two with "R") as "((%v1 & C1) & (%v2 & C2) & R)"; [lia|].
    iDestruct (raw_split _ (a + 2 ^ (j + 1)) with "R") as "[R1 R2]"; [lia|].
    iApply (wp_create_tile L (a + 2 ^ j) j [] with "FL [T] C1 C2 [R1]"); [lia|unfold off_ok; lia|by rewrite app_nil_r|by rewrite app_nil_r| |].
    { by replace (a + 2 ^ j + 2 ^ j) with (a + 2 ^ (j + 1)) by lia. }
    iIntros (fl1 (_ & Hfl1)) "FL T".
    assert (a mod 2 ^ j = 0) as Hamj by (eapply mod_dvd_trans; [|exact Ham]; lia).
    assert ((a + 2 ^ j) mod 2 ^ j = 0) as Hmodn.
    { apply Z.mod_divide; [lia|]. apply Z.divide_add_r; [|done]. by apply Z.mod_divide; [lia|]. }
    assert (buddy (a + 2 ^ j) j = a) as Hbud.
    { destruct (buddy_spec a j ltac:(lia) Hamj) as [[_ E]|(E & _)]; [|lia]. rewrite -E. apply buddy_invol. }
    assert (tiles la_start (L ++ [(a + 2 ^ j, j, None)]) (a + 2 ^ (j + 1))) as Ht1.
    { apply tiles_app. exists (a + 2 ^ j). split; [done|]. cbn [tiles fst snd]. split; [done|]. split; [|lia].
      split; [lia|]. done. }
    iApply (IH (j + 1) (L ++ [(a + 2 ^ j, j, None)]) fl1 a with "FL T R2"); [lia|lia|done|done|done|done|done| |].
    { destruct Hused as (k & n & Hin). exists k, n. rewrite elem_of_app. by left. }
    iIntros (L' fl' (H1 & H2 & H3 & H4 & H5)) "FL T".
    rewrite -app_assoc in H1 H2 H5. iEval (rewrite -app_assoc) in "T". cbn [app] in H1, H2, H5. cbn [app].
    iApply ("W" $! ((a + 2 ^ j, j, None) :: L') fl' with "[] FL T").
    iPureIntro. split; [done|]. split; [done|]. split; [done|]. split; [cbn [committed fst snd]; lia|].
    intros Hmm. apply H5. apply merged_insert; [lia|done|by rewrite app_nil_r| |rewrite Hbud; lia].
    rewrite Hbud app_nil_r. intros _ Hin. destruct Hused as (k & n & Hin').
    pose proof (tiles_inj _ _ _ _ _ Ht Hin Hin' eq_refl). congruence.
  - assert (2 ^ j = 4096) as Hj' by lia. wpn. iApply ("W" $! [] fl with "[] FL").
    + iPureIntro. rewrite app_nil_r -Hj'. split_and!; try done.
    + by rewrite app_nil_r.
Qed.
Local Opaque la_create_growing.

(** Taking the first block of a list. *)
Lemma wp_la_take L1 h k L2 fl rest n bo m ba bc Φ Ψ :
  4 <= k <= 30 → 1 <= n → 2 ^ (k - 1) < n + 8 <= 2 ^ k → m <= 2 ^ 56 →
  tiles la_start (L1 ++ (h, k, None) :: L2) m → fl_ok fl (L1 ++ (h, k, None) :: L2) → fl k = h :: rest →
  0 <= ba <= m → 0 <= bc <= m →
  sa_rest bo ba bc -∗ flists fl -∗ ([∗ list] t ∈ L1 ++ (h, k, None) :: L2, tres t) -∗
  (∀ fl', ⌜fl_ok fl' (L1 ++ (h, k, Some n) :: L2) ∧ tiles la_start (L1 ++ (h, k, Some n) :: L2) m⌝ -∗
     sa_rest bo (ba + n) (bc + 2 ^ k) -∗ flists fl' -∗
     ([∗ list] t ∈ L1 ++ (h, k, Some n) :: L2, tres t) -∗ raw (h + 8) (h + 8 + n) -∗ Φ (h + 8)) -∗
  wp (la_take n k) Φ Ψ.
Proof.
  iIntros (Hk Hn Hnk Hm56 Ht Hfl Hlk Hba Hbc) "(Ri & Rb & Ra & Rc) FL T W".
  apply tiles_mid in Ht as (H1 & Hok & H2). destruct Hok as (_ & Hmod & _).
  pose proof (tiles_le _ _ _ H1) as Hle1. pose proof (tiles_le _ _ _ H2) as Hle2.
  assert (la_start = 1168) as Hst by reflexivity.
  assert (2 ^ k <= 2 ^ 30) as Hk2 by (apply pow_le; lia).
  assert (16 <= 2 ^ k) as H16 by (change 16 with (2 ^ 4); apply pow_le; lia).
  iDestruct (flists_acc _ k with "FL") as "[(Hh & Htl & Hnd & %Hl) FL]"; [lia|].
  rewrite {1 2 3}Hlk. rewrite Hlk in Hl. sl. iDestruct "Hnd" as "(C1 & C2 & Hnd)".
  inversion Hl as [|? ? Hhok Hl']; subst.
  assert (is_u64 (hd0 rest 0)) as Hu.
  { destruct rest as [|y l2]; sl; [done|]. inversion Hl' as [|? ? Hy _]; subst. unfold is_u64, off_ok in *. lia. }
  rewrite big_sepL_app big_sepL_cons. iDestruct "T" as "(T1 & R & T2)". unfold tres at 2. sl.
  unfold la_take. wpn. iApply (wp_load64 with "Hh"). iIntros "Hh". wpn.
  iApply (wp_load64 with "C2"). iIntros "C2". wpn.
  iApply (wp_store64 with "Hh"); [done|]. iIntros "Hh". wpn.
  iApply (wp_load64 with "C2"). iIntros "C2".
  iAssert ((flist k rest -∗ wp (add64 sa_bytes_alloc n ;; os <- size_for_order k ;; add64 sa_bytes_comm os ;;
              store64 h (Z.lor n (2 ^ 63)) ;; Ret (u64 (h + 8))) Φ Ψ) )%I
    with "[W Ri Rb Ra Rc C1 C2 R T1 T2 FL]" as "W".
  { iIntros "Fk". wpn. iApply (wpc_add64 with "Ra"). iSplit; [by iIntros|]. iIntros "Ra". wpn.
    rewrite size_for_order_ok; [|lia]. wpn.
    iApply (wpc_add64 with "Rc"). iSplit; [by iIntros|]. iIntros "Rc". wpn.
    rewrite (u64_small (ba + n)); [|lia]. rewrite (u64_small (bc + 2 ^ k)); [|lia].
    rewrite ab_lor; [|lia].
    iApply (wp_store64 with "C1"); [unfold is_u64; lia|]. iIntros "C1". iApply wp_ret.
    rewrite (u64_small (h + 8)); [|lia].
    iDestruct (words_raw1 (h + 8) (h + 2 ^ k) with "C2 [R]") as "R"; [lia|by replace (h + 8 + 8) with (h + 16) by lia|].
    iDestruct (raw_split _ (h + 8 + n) with "R") as "[U R]"; [lia|].
    iApply ("W" $! (fset fl k rest) with "[] [Ri Rb Ra Rc] [FL Fk] [T1 T2 C1 R] U").
    - iPureIntro. split.
      + apply fl_ok_used. apply (fl_ok_remove fl L1 h k L2 [] rest); done.
      + apply tiles_mid. split; [done|]. split; [|done]. split; [lia|]. split; [done|lia].
    - iFrame.
    - by iApply "FL".
    - rewrite big_sepL_app big_sepL_cons. iFrame "T1 T2". unfold tres. sl. iFrame. }
  destruct rest as [|y rest].
  - sl. rewrite (bool_decide_eq_false_2 (0 ≠ 0)); [|tauto]. wpn.
    iApply (wp_store64 with "Htl"); [done|]. iIntros "Htl". wpn. iApply "W". iFrame. iPureIntro. done.
  - sl. inversion Hl' as [|? ? Hy Hl'']; subst.
    rewrite (bool_decide_eq_true_2 (y ≠ 0)); [|unfold off_ok in Hy; lia]. wpn.
    iDestruct "Hnd" as "(D1 & D2 & Hnd)".
    assert (u64 (Z.shiftl k 57) = k * 2 ^ 57 + 0) as ->.
    { rewrite -(fb_lor k 0); [|lia|lia]. by rewrite Z.lor_0_r. }
    iApply (wp_store64 with "D1"); [apply hdr_u64; lia|]. iIntros "D1". wpn. iApply "W". iFrame. iPureIntro. done.
Qed.
Local Opaque la_take.

Lemma unlink_end_done F k s b : s <= b → la_unlink_end F k s b = Ret tt.
Proof. intros H. destruct F; cbn [la_unlink_end]; rewrite bool_decide_eq_false_2 //; lia. Qed.
Lemma wp_la_allocate c L fl bo m e n Φ Ψ :
  1 <= n <= 4088 → c_lim c <= 2 ^ 56 → m <= 2 ^ 56 →
  pool_inv c m e -∗ la_R L fl bo m -∗
  ((∀ o k L1 L2 fl' m' e',
      ⌜used (L1 ++ L2) = used L ∧ (merged L → merged (L1 ++ (o, k, Some n) :: L2)) ∧ (m' = m → e' = e) ∧
       (m' = m ∨ (m' = (m + 4096)%Z ∧ grow_allowed c m' ∧ ∀ o' k', (o', k', None) ∈ L → k' < k))⌝ -∗
      pool_inv c m' e' -∗ la_R (L1 ++ (o, k, Some n) :: L2) fl' bo m' -∗ raw (o + 8) (o + 8 + n) -∗ Φ (o + 8)) ∧
   (⌜¬ grow_allowed c (m + 4096) ∧ ∀ o' k', (o', k', None) ∈ L → (2 ^ k' < n + 8)%Z⌝ -∗
      pool_inv c m e -∗ la_R L fl bo m -∗ Ψ RuntimeError)) -∗
  wp (la_allocate n) Φ Ψ.
Proof.
  iIntros (Hn Hlim Hm56) "P (R & FL & T & %H) W". destruct H as [Ht Hfl].
  iDestruct (pool_inv_pure with "P") as %[Hcfg Hsz]. unfold size_ok in Hsz.
  pose proof (used_bounds _ _ _ Ht ltac:(by unfold la_start)) as (Hu1 & Hu2 & Hu3).
  assert (la_start = 1168) as Hst by reflexivity.
  destruct (order_exists (n + 8) ltac:(lia)) as (k & Hok & Hk & Hnk).
  unfold la_allocate. rewrite (u64_small (n + 8)); [|lia]. rewrite Hok.
  wpn. iApply (wp_search with "FL"); [lia|lia|]. iIntros (so (Hso & Hemp & Hne)) "FL".
  destruct (bool_decide_reflect (so < la_max)) as [Hlt|Hlt].
  - unfold la_max in Hlt. destruct (fl so) as [|h rest] eqn:Ehd; [exfalso; by apply Hne; [lia|]|].
    assert ((h, so, None) ∈ L) as Hin.
    { apply free_of_in. rewrite -Hfl; [|lia]. rewrite Ehd. by left. }
    apply elem_of_list_split in Hin as (L1 & L2 & ->).
    wpn. iApply (wp_split 64 L1 h so L2 fl k rest m with "FL T"); [lia|lia|done|done|done|done|done|].
    iIntros (L2' fl' rest' (Ht' & Hfl' & Hk' & HU & HC & HM)) "FL T".
    rewrite used_free committed_free in Hu1 Hu2 Hu3 |- *.
    iApply (wp_la_take L1 h k L2' fl' rest' n bo m with "R FL T"); [lia|lia|done|done|done|done|done|lia|lia|].
    iIntros (fl2 (Hfl2 & Ht2)) "R FL T U".
    iDestruct "W" as "[W _]". iApply ("W" $! h k L1 L2' fl2 m e with "[] P [R FL T] U").
    + iPureIntro. split; [done|]. split; [|split; [done|by left]]. intros Hmm.
      eapply merged_sub; [|apply HM].
      * intros ??. rewrite !elem_of_app elem_of_cons. intros [?|[?|?]]; [tauto|done|tauto].
      * eapply merged_sub; [|exact Hmm]. intros ??. rewrite !elem_of_app elem_of_cons. tauto.
    + unfold la_R. rewrite (sum_sz_perm _ _ (used_mid L1 h k n L2')) committed_mid HU HC.
      change (sum_sz ((h, n) :: used (L1 ++ L2))) with (n + sum_sz (used (L1 ++ L2))).
      rewrite (Z.add_comm n). replace (la_start + (2 ^ k + committed (L1 ++ L2))) with (la_start + committed (L1 ++ L2) + 2 ^ k) by lia.
      iFrame. done.
  - unfold la_max in Hlt.
    assert (∀ o' k', (o', k', None) ∈ L → k' < k) as Hnone.
    { intros o' k' Hin. pose proof (tiles_in _ _ _ _ Ht Hin) as ((Hkk & _) & _).
      destruct (decide (k' < k)); [done|]. exfalso.
      assert (fl k' = []) as E by (apply Hemp; lia). apply free_of_in in Hin. rewrite -Hfl in Hin; [|lia].
      rewrite E in Hin. by apply elem_of_nil in Hin. }
    assert (2 ^ k <= 2 ^ 12) as Hp12 by (apply pow_le; lia). change (2 ^ 12) with 4096 in Hp12.
    assert (16 <= 2 ^ k) as H16 by (change 16 with (2 ^ 4); apply pow_le; lia).
    assert (m mod 2 ^ k = 0) as Hmm. { eapply mod_dvd_trans; [|change 4096 with (2 ^ 12) in Hsz; exact (proj2 Hsz)]. lia. }
    unfold la_grow, pool_size. wpn. iApply (wp_pool_word with "P"). iIntros "P".
    rewrite size_for_order_ok; [|lia]. wpn.
    rewrite (u64_small (2 ^ k - 1)); [|lia]. rewrite (ldiff_aligned m k); [|lia|done].
    replace (m - m) with 0 by lia. change (largest_order_within_size (u64 0)) with 0.
    cbn [la_end_scan]. rewrite bool_decide_eq_false_2; [|unfold la_min; lia]. wpn.
    rewrite !(bool_decide_eq_true_2 (m >= m)); [|lia].
    rewrite (u64_small (m + 2 ^ k)); [|lia].
    assert (round_page (m + 2 ^ k) = m + 4096) as Hrp.
    { destruct (round_page_spec (m + 2 ^ k)) as [Hr1 Hr2]; [lia|].
      destruct Hsz as [_ Hm4]. set (x := round_page _) in *.
      destruct (decide (x = m + 4096)); [done|]. exfalso.
      destruct (decide (x < m + 4096)).
      - apply (mult_gap m x 12); [lia|done|done|change (2 ^ 12) with 4096; lia].
      - apply (mult_gap (m + 4096) x 12); [lia| |done|change (2 ^ 12) with 4096; lia].
        change (2 ^ 12) with 4096. rewrite -(Z.mul_1_l 4096) Z.mod_add //. }
    iApply (wpc_expand with "P"); [lia|]. rewrite Hrp. iSplit; [auto|]. iSplit; [|iSplit].
    + iIntros "%Hg" (e') "P New". destruct Hg as [_ Hg].
      rewrite (unlink_end_done _ _ m m); [|lia]. wpn.
      rewrite ab_lor; [|lia].
      iDestruct (raw_words1 with "New") as "[[%v Hv] New]"; [lia|].
      iApply (wp_store64 with "Hv"); [unfold is_u64; lia|]. iIntros "Hv".
      rewrite (bool_decide_eq_false_2 (m > m)); [|lia]. wpn.
      iApply (wp_pool_word with "P"). iIntros "P". wpn.
      unfold la_create_free_blocks.
      rewrite (u64_small (m + 4096 - (m + 2 ^ k))); [|lia].
      rewrite (u64_small (m + 2 ^ k + (m + 4096 - (m + 2 ^ k)))); [|lia].
      replace (m + 2 ^ k + (m + 4096 - (m + 2 ^ k))) with (m + 4096) by lia.
      iDestruct (raw_split _ (m + 2 ^ k) with "New") as "[New Rest]"; [lia|].
      iDestruct (raw_split _ (m + 8 + n) with "New") as "[U New]"; [lia|].
      iApply (wp_create_growing 128 k (L ++ [(m, k, Some n)]) fl m with "FL [T Hv New] Rest");
        [lia|lia|tauto|lia|lia| | | | |].
      { apply tiles_mid. split; [done|]. split; [split; [lia|split; [done|lia]]|]. done. }
      { apply fl_ok_used. by rewrite app_nil_r. }
      { exists k, n. rewrite elem_of_app elem_of_list_singleton. by right. }
      { rewrite big_sepL_app big_sepL_singleton. iFrame "T". unfold tres. sl. iFrame. }
      iIntros (L' fl' (H1 & H2 & H3 & H4 & H5)) "FL T". wpn.
      iDestruct "R" as "(Ri & Rb & Ra & Rc)".
      iApply (wpc_add64 with "Ra"). iSplit; [by iIntros|]. iIntros "Ra". wpn.
      iApply (wpc_add64 with "Rc"). iSplit; [by iIntros|]. iIntros "Rc". wpn. iApply wp_ret.
      rewrite (u64_small (m + 8)); [|lia].
      rewrite (u64_small (sum_sz _ + n)); [|lia]. rewrite (u64_small (la_start + _ + _)); [|lia].
      rewrite -app_assoc in H1 H2 H5. iEval (rewrite -app_assoc) in "T". cbn [app] in H1, H2, H5. cbn [app].
      iDestruct "W" as "[W _]". iApply ("W" $! m k L L' fl' (m + 4096) e' with "[] P [Ri Rb Ra Rc FL T] U").
      * iPureIntro. split; [by rewrite used_app H3 app_nil_r|]. split; [|split; [lia|right; done]].
        intros Hmer. apply H5. eapply merged_sub; [|exact Hmer].
        intros ??. rewrite elem_of_app elem_of_list_singleton. intros [?|?]; done.
      * unfold la_R. rewrite (sum_sz_perm _ _ (used_mid L m k n L')) committed_mid used_app committed_app H3 H4 app_nil_r.
        change (sum_sz ((m, n) :: used L)) with (n + sum_sz (used L)).
        rewrite (Z.add_comm n). replace (la_start + (2 ^ k + (committed L + 0))) with (la_start + committed L + 2 ^ k) by lia.
        iFrame. done.
    + iIntros "%Hg P". lia.
    + iIntros "%Hg P". iSplit; [done|]. iDestruct "W" as "[_ W]". iApply ("W" with "[] P [R FL T]").
      * iPureIntro. split.
        { unfold grow_allowed. intros [[?|?] ?]; lia. }
        intros o' k' Hin. pose proof (tiles_in _ _ _ _ Ht Hin) as ((Hkk & _) & _).
        specialize (Hnone _ _ Hin). assert (2 ^ k' <= 2 ^ (k - 1)) by (apply pow_le; lia). lia.
      * iFrame. done.
Qed.

(** ** The small functions *)
Lemma wp_la_block_size c L fl bo m e o k n Φ Ψ : (o, k, Some n) ∈ L → m <= 2 ^ 56 →
  pool_inv c m e -∗ la_R L fl bo m -∗ (pool_inv c m e -∗ la_R L fl bo m -∗ Φ n) -∗
  wp (la_block_size (o + 8)) Φ Ψ.
Proof.
  iIntros (Hin Hm56) "P (R & FL & T & %H) W". destruct H as [Ht Hfl].
  pose proof (tiles_in _ _ _ _ Ht Hin) as (Hok & Hs & He). destruct Hok as (Hk & Hmod & Hn & Hk30 & Hnk). simpl in Hs, He.
  assert (la_start = 1168) as Hst by reflexivity. assert (0 < 2 ^ k) by (apply Z.pow_pos_nonneg; lia).
  unfold la_block_size. rewrite (u64_small (o + 8 - 8)); [|lia]. replace (o + 8 - 8) with o by lia.
  apply elem_of_list_lookup in Hin as [i Hi].
  iDestruct (big_sepL_lookup_acc with "T") as "[HR T]"; [exact Hi|]. unfold tres at 1. sl. iDestruct "HR" as "[H R']".
  wpn. iApply (wp_load64 with "H"). iIntros "H". wpn. iApply wp_ret. rewrite ab_size_eq; [|lia].
  iApply ("W" with "P"). iFrame "R FL". iSplit; [|done]. iApply "T". iFrame.
Qed.
