(** * LogarithmicAllocator: repair, and the constructor. *)
From Verif Require Export LogAllocSpec.
From iris.proofmode Require Import tactics.
From iris.prelude Require Import options.
Open Scope Z_scope.
Open Scope prog_scope.
Local Arguments Z.pow : simpl never.
Local Arguments Z.mul : simpl never.
Local Arguments Z.add : simpl never.
Local Arguments bool_decide : simpl never.
Local Arguments u64 : simpl never.
Local Opaque la_create_free_block la_unlink la_merge_loop.

(** ** Clearing the lists *)
Lemma wp_clear_words {A} n : ∀ a (kont : unit → prog A) Φ Ψ,
  raw a (a + 8 * Z.of_nat n) -∗
  (([∗ list] k ∈ seq 0 n, word (a + 8 * Z.of_nat k) 0) -∗ wp (kont tt) Φ Ψ) -∗
  wp (x <- clear_words n a ;; kont x) Φ Ψ.
Proof.
  induction n as [|n IH]; intros a kont Φ Ψ; iIntros "R W"; cbn [clear_words].
  - wpn. by iApply "W".
  - wpn. iDestruct (raw_words1 with "R") as "[[%v H] R]"; [lia|].
    iApply (wp_store64 with "H"); [done|]. iIntros "H". wpn.
    iApply (IH with "[R]").
    { by replace (a + 8 + 8 * Z.of_nat n) with (a + 8 * Z.of_nat (Datatypes.S n)) by lia. }
    iIntros "HL". iApply "W". cbn [seq]. rewrite big_sepL_cons. change (Z.of_nat 0) with 0.
    replace (a + 8 * 0) with a by lia. iFrame "H".
    rewrite -(fmap_S_seq 0 n). rewrite big_sepL_fmap. iApply (big_sepL_mono with "HL").
    intros j k _. simpl. replace (a + 8 * Z.of_nat (Datatypes.S k)) with (a + 8 + 8 * Z.of_nat k) by lia. done.
Qed.
Local Opaque clear_words.

Lemma seqZ_seq (P : Z → hPropI) (n : nat) s : ([∗ list] k ∈ seqZ s (Z.of_nat n), P k) ⊣⊢ [∗ list] k ∈ seq 0 n, P (s + Z.of_nat k).
Proof.
  unfold seqZ. rewrite Nat2Z.id big_sepL_fmap. apply big_sepL_proper. intros ? k _. by rewrite Z.add_comm.
Qed.
Lemma words_seq (a : Z) (n : nat) :
  ([∗ list] k ∈ seq 0 n, ∃ v, word (a + 8 * Z.of_nat k) v) ⊢ raw a (a + 8 * Z.of_nat n).
Proof.
  revert a. induction n as [|n IH]; intros a.
  - iIntros "_". change (Z.of_nat 0) with 0. replace (a + 8 * 0) with a by lia. by iApply raw_empty.
  - cbn [seq]. rewrite big_sepL_cons. iIntros "[[%v H] HL]". change (Z.of_nat 0) with 0. replace (a + 8 * 0) with a by lia.
    iApply (words_raw1 with "H"); [lia|].
    replace (a + 8 * Z.of_nat (Datatypes.S n)) with (a + 8 + 8 * Z.of_nat n) by lia. iApply IH.
    rewrite -(fmap_S_seq 0 n) big_sepL_fmap. iApply (big_sepL_mono with "HL").
    intros j k _. simpl. replace (a + 8 * Z.of_nat (Datatypes.S k)) with (a + 8 + 8 * Z.of_nat k) by lia. done.
Qed.

(** ** Free blocks without their lists *)
Definition fnode (k o : Z) : hPropI := (∃ p v, ⌜0 <= p < 2 ^ 57 ∧ off_ok o⌝ ∗ word o (k * 2 ^ 57 + p) ∗ word (o + 8) v)%I.
Lemma nodes_fnodes k l : ∀ p z, 0 <= p < 2 ^ 57 → Forall off_ok l → nodes k p l z ⊢ [∗ list] o ∈ l, fnode k o.
Proof.
  induction l as [|o l IH]; intros p z Hp Hl; [auto|]. inversion Hl as [|? ? Ho Hl']; subst.
  cbn [nodes]. rewrite big_sepL_cons. iIntros "(H1 & H2 & Hn)". iSplitL "H1 H2".
  - iExists p, _. iFrame. done.
  - iApply (IH with "Hn"); [|done]. unfold off_ok in Ho. lia.
Qed.
Lemma lists_tiles_gen (X : Z → Z → hPropI) ks L : NoDup ks → (∀ t, t ∈ L → t.1.2 ∈ ks) →
  ([∗ list] k ∈ ks, [∗ list] o ∈ free_of k L, X k o) ⊢
  [∗ list] t ∈ L, match t.2 with None => X t.1.2 t.1.1 | Some _ => emp end.
Proof.
  intros Hnd. induction L as [|[[o k] a] L IH]; intros Hk; [auto|]. rewrite big_sepL_cons. cbn [fst snd].
  assert (∀ t, t ∈ L → t.1.2 ∈ ks) as Hk' by (intros t ?; apply Hk; by right).
  destruct a as [n|].
  - iIntros "H". iSplit; [done|]. iApply IH; [done|]. iApply (big_sepL_mono with "H"). intros ? j _. by rewrite free_of_cons_ne; [|right].
  - assert (k ∈ ks) as Hkk by exact (Hk _ ltac:(by left)). clear Hk.
    apply elem_of_list_split in Hkk as (k1 & k2 & ->).
    apply NoDup_app in Hnd as (_ & Hd & Hnd2). apply NoDup_cons in Hnd2 as [Hnk _].
    rewrite big_sepL_app big_sepL_cons. rewrite free_of_cons_same big_sepL_cons.
    iIntros "(H1 & [$ H3] & H2)". iApply IH; [done|]. rewrite big_sepL_app big_sepL_cons. iFrame "H3". iSplitL "H1".
    + iApply (big_sepL_mono with "H1"). intros i j Hj. apply elem_of_list_lookup_2 in Hj. rewrite free_of_cons_ne; [done|].
      left. intros ->. apply (Hd k Hj). by left.
    + iApply (big_sepL_mono with "H2"). intros i j Hj. apply elem_of_list_lookup_2 in Hj. rewrite free_of_cons_ne; [done|].
      left. by intros ->.
Qed.
Lemma lists_tiles (X : Z → Z → hPropI) L : (∀ t, t ∈ L → 4 <= t.1.2 <= 57) →
  ([∗ list] k ∈ seqZ 4 54, [∗ list] o ∈ free_of k L, X k o) ⊢
  [∗ list] t ∈ L, match t.2 with None => X t.1.2 t.1.1 | Some _ => emp end.
Proof.
  intros Hk. apply lists_tiles_gen; [apply NoDup_seqZ|]. intros t Hin. apply elem_of_seqZ. specialize (Hk t Hin). lia.
Qed.
(** A block that repair has not visited yet. *)
Definition stale (t : tile) : hPropI :=
  match t.2 with
  | None => fnode t.1.2 t.1.1 ∗ raw (t.1.1 + 16) (t.1.1 + 2 ^ t.1.2)
  | Some n => word t.1.1 (2 ^ 63 + n) ∗ raw (t.1.1 + 8 + n) (t.1.1 + 2 ^ t.1.2)
  end%I.
Lemma flists_open fl L m : tiles la_start L m → fl_ok fl L →
  flists fl -∗ ([∗ list] t ∈ L, tres t) -∗
  raw 304 728 ∗ raw 736 1160 ∗ flist 57 [] ∗ [∗ list] t ∈ L, stale t.
Proof.
  iIntros (Ht Hfl) "FL T".
  assert (∀ k, 31 < k <= 57 → free_of k L = []) as Ebig.
  { intros k Hk. destruct (free_of k L) as [|o l] eqn:E; [done|].
    assert (o ∈ free_of k L) as Hin by (rewrite E; by left). apply free_of_in in Hin.
    pose proof (tiles_in _ _ _ _ Ht Hin) as ((Hk' & _) & _). lia. }
  assert (fl 57 = []) as E57.
  { apply Permutation_nil. rewrite (Hfl 57); [|lia]. by rewrite Ebig. }
  unfold flists. rewrite (seqZ_split 57); [|lia]. change (57 - 57) with 0. change (seqZ (57 + 1) 0) with (@nil Z).
  rewrite big_sepL_app big_sepL_singleton E57. iDestruct "FL" as "[FL $]". change (57 - 4) with (Z.of_nat 53).
  iAssert (([∗ list] k ∈ seqZ 4 (Z.of_nat 53), ∃ v, word (la_head k) v) ∗ ([∗ list] k ∈ seqZ 4 (Z.of_nat 53), ∃ v, word (la_tail k) v) ∗
    ([∗ list] k ∈ seqZ 4 (Z.of_nat 53), [∗ list] o ∈ free_of k L, fnode k o))%I with "[FL]" as "(H & Tl & N)".
  { rewrite -!big_sepL_sep. iApply (big_sepL_mono with "FL"). intros i k Hi. apply lookup_seqZ in Hi.
    iIntros "(Hh & Ht & Hn & %Hl)". iSplitL "Hh"; [by iExists _|]. iSplitL "Ht"; [by iExists _|].
    rewrite -(Hfl k); [|lia]. iApply (nodes_fnodes with "Hn"); [lia|done]. }
  rewrite (seqZ_seq (λ k, ∃ v, word (la_head k) v)%I) (seqZ_seq (λ k, ∃ v, word (la_tail k) v)%I).
  iSplitL "H".
  { iApply (words_seq 304 53). iApply (big_sepL_mono with "H"). intros j k _. unfold la_head, la_min.
    by replace (304 + 8 * (4 + Z.of_nat k - 4)) with (304 + 8 * Z.of_nat k) by lia. }
  iSplitL "Tl".
  { iApply (words_seq 736 53). iApply (big_sepL_mono with "Tl"). intros j k _. unfold la_tail, la_min.
    by replace (736 + 8 * (4 + Z.of_nat k - 4)) with (736 + 8 * Z.of_nat k) by lia. }
  iAssert ([∗ list] t ∈ L, match t.2 with None => fnode t.1.2 t.1.1 | Some _ => emp end)%I with "[N]" as "N".
  { iApply (lists_tiles fnode L).
    - intros t Hin. pose proof (tiles_in _ _ _ _ Ht Hin) as (Hok & _). destruct t as [[o k] a]. destruct Hok as (Hk & _). cbn [fst snd]. lia.
    - rewrite (seqZ_split 57); [|lia]. change (57 - 57) with 0. change (seqZ (57 + 1) 0) with (@nil Z).
      rewrite big_sepL_app big_sepL_singleton Ebig; [|lia]. change (57 - 4) with (Z.of_nat 53). by iFrame "N". }
  iCombine "N T" as "T". rewrite -big_sepL_sep. iApply (big_sepL_mono with "T").
  intros j [[o k] [n|]] _; unfold tres, stale; cbn [fst snd]; iIntros "[H1 H2]"; iFrame.
Qed.

(** The empty lists after clearing. *)
Lemma flists_clear :
  ([∗ list] k ∈ seq 0 53, word (304 + 8 * Z.of_nat k) 0) -∗
  ([∗ list] k ∈ seq 0 53, word (736 + 8 * Z.of_nat k) 0) -∗ flist 57 [] -∗ flists (λ _, []).
Proof.
  iIntros "H T F". unfold flists. rewrite (seqZ_split 57); [|lia]. change (57 - 57) with 0. change (seqZ (57 + 1) 0) with (@nil Z).
  rewrite big_sepL_app big_sepL_singleton. iFrame "F". change (57 - 4) with (Z.of_nat 53).
  rewrite (seqZ_seq (λ k, flist k [])). iCombine "H T" as "H". rewrite -big_sepL_sep.
  iApply (big_sepL_mono with "H"). intros j k _. unfold flist. cbn [hd0 last0 nodes]. unfold la_head, la_tail, la_min.
  replace (304 + 8 * (4 + Z.of_nat k - 4)) with (304 + 8 * Z.of_nat k) by lia.
  replace (736 + 8 * (4 + Z.of_nat k - 4)) with (736 + 8 * Z.of_nat k) by lia.
  iIntros "[$ $]". iSplit; [done|]. iPureIntro. constructor.
Qed.

(** ** The walk over all blocks *)
Lemma wp_repair_loop {A} L2 : ∀ F L1 fl m c e bo (kont : Z * Z → prog A) Φ Ψ, m < 2 ^ 32 →
  (length L2 <= F)%nat → tiles la_start L1 bo → tiles bo L2 m → fl_ok fl L1 →
  pool_inv c m e -∗ flists fl -∗ ([∗ list] t ∈ L1, tres t) -∗ ([∗ list] t ∈ L2, stale t) -∗
  (∀ fl', ⌜fl_ok fl' (L1 ++ L2)⌝ -∗ pool_inv c m e -∗ flists fl' -∗ ([∗ list] t ∈ L1 ++ L2, tres t) -∗
     wp (kont (sum_sz (used (L1 ++ L2)), la_start + committed (L1 ++ L2))) Φ Ψ) -∗
  wp (x <- la_repair_loop F bo (sum_sz (used L1)) (la_start + committed L1) ;; kont x) Φ Ψ.
Proof.
  induction L2 as [|[[o k] a] L2 IH]; intros F L1 fl m c e bo kont Φ Ψ Hm56 HF Ht1 Ht2 Hfl; iIntros "P FL T1 T2 W".
  - cbn [tiles] in Ht2. subst bo. destruct F; cbn [la_repair_loop]; wpn; iApply (wp_pool_word with "P"); iIntros "P";
      (rewrite bool_decide_eq_false_2; [|lia]); wpn; rewrite app_nil_r; by iApply ("W" with "[//] P FL T1").
  - destruct F as [|F]; [simpl in HF; lia|]. cbn [length] in HF. cbn [la_repair_loop].
    destruct Ht2 as (Ho & Hok & Ht2). cbn [fst snd] in Ho, Ht2. subst o.
    pose proof (tile_pos _ Hok) as H16. cbn [fst snd] in H16.
    pose proof (tiles_le _ _ _ Ht1) as Hle1. pose proof (tiles_le _ _ _ Ht2) as Hle2.
    assert (la_start = 1168) as Hst by reflexivity.
    assert (tiles la_start (L1 ++ (bo, k, a) :: L2) m) as Htall by (apply tiles_mid; done).
    pose proof (used_bounds _ _ _ Htall ltac:(lia)) as (Hu1 & Hu2 & Hu3).
    rewrite used_app sum_sz_app in Hu1 Hu2. rewrite committed_app in Hu3 Hu2.
    pose proof (used_bounds _ _ _ Ht1 ltac:(lia)) as (Hv1 & Hv2 & Hv3).
    pose proof (used_bounds _ _ _ Ht2 ltac:(lia)) as (Hw1 & Hw2 & Hw3).
    wpn. iApply (wp_pool_word with "P"). iIntros "P".
    rewrite (bool_decide_eq_true_2 (bo < m)); [|lia].
    rewrite big_sepL_cons. iDestruct "T2" as "[S T2]".
    destruct a as [n|]; unfold stale; cbn [fst snd].
    + destruct Hok as (Hk & Hmod & Hn & Hk30 & Hnk).
      assert (2 ^ k <= 2 ^ 30) as Hk2 by (apply pow_le; lia).
      iDestruct "S" as "[Hh Hs]". wpn. iApply (wp_load64 with "Hh"). iIntros "Hh".
      rewrite ab_allocated; [|lia]. rewrite ab_size_eq; [|lia]. rewrite (u64_small (n + 8)); [|lia].
      rewrite (order_for_size_spec (n + 8) k); [|lia|lia]. rewrite size_for_order_ok; [|lia]. wpn.
      change (used ((bo, k, Some n) :: L2)) with ((bo, n) :: used L2) in *.
      change (sum_sz ((bo, n) :: used L2)) with (n + sum_sz (used L2)) in *.
      cbn [committed fst snd] in Hu2, Hu3.
      rewrite (u64_small (bo + 2 ^ k)); [|lia]. rewrite (u64_small (sum_sz _ + n)); [|lia].
      rewrite (u64_small (la_start + committed L1 + 2 ^ k)); [|lia].
      replace (sum_sz (used L1) + n) with (sum_sz (used (L1 ++ [(bo, k, Some n)]))).
      2:{ rewrite used_app sum_sz_app. change (sum_sz (used [(bo, k, Some n)])) with (n + 0). lia. }
      replace (la_start + committed L1 + 2 ^ k) with (la_start + committed (L1 ++ [(bo, k, Some n)])).
      2:{ rewrite committed_app. cbn [committed fst snd]. lia. }
      iApply (IH F (L1 ++ [(bo, k, Some n)]) fl m with "P FL [T1 Hh Hs] T2"); [done|lia| |done| | |].
      * apply tiles_app. exists bo. split; [done|]. cbn [tiles fst snd]. split; [done|]. split; [|done]. split; [lia|]. split; [done|]. lia.
      * rewrite -(app_nil_r L1) in Hfl. by apply fl_ok_used.
      * rewrite big_sepL_app big_sepL_singleton. iFrame "T1". unfold tres. cbn [fst snd]. iFrame.
      * iIntros (fl') "%Hfl' P FL T". rewrite -(app_assoc L1) in Hfl' |- *. cbn [app] in *. by iApply ("W" with "[//] P FL T").
    + destruct Hok as (Hk & Hmod & _).
      iDestruct "S" as "[(%p & %v & [%Hp %Hoff] & Hh & Hn) Hs]". wpn. iApply (wp_load64 with "Hh"). iIntros "Hh".
      rewrite fb_allocated_eq; [|done|lia]. rewrite fb_order_eq; [|done|lia]. wpn.
      iApply (wp_create_tile L1 bo k [] with "FL [T1] Hh Hn Hs"); [lia|done|by rewrite app_nil_r|by rewrite app_nil_r|].
      iIntros (fl1 (_ & Hfl1)) "FL T1". wpn.
      assert (tiles la_start (L1 ++ [(bo, k, None)]) (bo + 2 ^ k)) as Ht1'.
      { apply tiles_app. exists bo. split; [done|]. cbn [tiles fst snd]. split; [done|]. split; [|done]. split; [lia|]. done. }
      change (used ((bo, k, None) :: L2)) with (used L2) in *. cbn [committed fst snd] in Hu2, Hu3.
      assert (k <= 30) as Hk30.
      { destruct (decide (k <= 30)); [done|]. assert (k = 31) as -> by lia. exfalso.
        pose proof (Z.div_mod bo (2 ^ 31) ltac:(lia)). assert (0 < bo / 2 ^ 31) by (apply Z.div_str_pos; lia). lia. }
      rewrite size_for_order_ok; [|lia]. wpn. rewrite (u64_small (bo + 2 ^ k)); [|lia].
      replace (used L1) with (used (L1 ++ [(bo, k, None)])) by (by rewrite used_app app_nil_r).
      replace (committed L1) with (committed (L1 ++ [(bo, k, None)])) by (rewrite committed_app; cbn [committed fst snd]; lia).
      iApply (IH F (L1 ++ [(bo, k, None)]) fl1 m with "P FL T1 T2"); [done|lia|done|done|done|].
      iIntros (fl') "%Hfl' P FL T". rewrite -(app_assoc L1) in Hfl' |- *. cbn [app] in *. by iApply ("W" with "[//] P FL T").
Qed.
Local Opaque la_repair_loop.

Lemma wp_la_repair {A} F c L fl bo m e (kont : unit → prog A) Φ Ψ :
  m < 2 ^ 32 → 2 ^ 28 <= Z.of_nat F →
  pool_inv c m e -∗ la_R L fl bo m -∗
  (∀ fl', pool_inv c m e -∗ la_R L fl' bo m -∗ wp (kont tt) Φ Ψ) -∗
  wp (x <- la_repair F ;; kont x) Φ Ψ.
Proof.
  iIntros (Hm HF) "P (R & FL & T & %H) W". destruct H as [Ht Hfl].
  pose proof (tiles_le _ _ _ Ht) as Hle. assert (la_start = 1168) as Hst by reflexivity.
  pose proof (used_bounds _ _ _ Ht ltac:(lia)) as (Hu1 & Hu2 & Hu3).
  iDestruct (flists_open _ _ _ Ht Hfl with "FL T") as "(H1 & H2 & H57 & T)".
  unfold la_repair. wpn.
  iApply (wp_clear_words 53 304 with "H1"). iIntros "H1". wpn.
  iApply (wp_clear_words 53 736 with "H2"). iIntros "H2". wpn.
  iDestruct (flists_clear with "H1 H2 H57") as "FL".
  iApply (wp_repair_loop L F [] (λ _, []) m with "P FL [] T"); [lia|lia|done|done|by intros ? ?|done|].
  iIntros (fl') "%Hfl' P FL T". cbn [app] in *. wpn.
  iDestruct "R" as "(Ri & Rb & Ra & Rc)".
  iApply (wp_store64 with "Ra"); [unfold is_u64; lia|]. iIntros "Ra". wpn.
  iApply (wp_store64 with "Rc"); [unfold is_u64; lia|]. iIntros "Rc". wpn.
  iApply ("W" with "P"). iFrame. done.
Qed.
Local Opaque la_repair.

(** ** The constructor *)
Lemma wp_grow_one {A} F L fl a j e (kont : unit → prog A) Φ Ψ :
  order_alignment_of_size a = j → 4 <= j <= 30 → a + 2 ^ j <= e → e <= 2 ^ 56 → 0 < a → fl_ok fl L →
  flists fl -∗ ([∗ list] t ∈ L, tres t) -∗ raw a e -∗
  (∀ fl', ⌜fl_ok fl' (L ++ [(a, j, None)])⌝ -∗ flists fl' -∗ ([∗ list] t ∈ L ++ [(a, j, None)], tres t) -∗
     raw (a + 2 ^ j) e -∗ wp (x <- la_create_growing F (a + 2 ^ j) e ;; kont x) Φ Ψ) -∗
  wp (x <- la_create_growing (Datatypes.S F) a e ;; kont x) Φ Ψ.
Proof.
  iIntros (Ha Hj Hle He Ha0 Hfl) "FL T R W". cbn [la_create_growing].
  assert (16 <= 2 ^ j) as H16 by (change 16 with (2 ^ 4); apply pow_le; lia).
  rewrite (bool_decide_eq_true_2 (a < e)); [|lia]. rewrite Ha. rewrite size_for_order_ok; [|lia]. wpn.
  rewrite (u64_small (a + 2 ^ j)); [|lia]. rewrite (bool_decide_eq_false_2 (a + 2 ^ j > e)); [|lia]. wpn.
  iDestruct (raw_two with "R") as "((%v1 & C1) & (%v2 & C2) & R)"; [lia|].
  iDestruct (raw_split _ (a + 2 ^ j) with "R") as "[R1 R2]"; [lia|].
  iApply (wp_create_tile L a j [] with "FL [T] C1 C2 R1"); [lia|unfold off_ok; lia|by rewrite app_nil_r|by rewrite app_nil_r|].
  iIntros (fl1 (_ & Hfl1)) "FL T". wpn. by iApply ("W" with "[//] FL T R2").
Qed.
Lemma flists_clear_all :
  ([∗ list] k ∈ seq 0 54, word (304 + 8 * Z.of_nat k) 0) -∗
  ([∗ list] k ∈ seq 0 54, word (736 + 8 * Z.of_nat k) 0) -∗ flists (λ _, []).
Proof.
  iIntros "H T". unfold flists. change 54 with (Z.of_nat 54).
  rewrite (seqZ_seq (λ k, flist k [])). iCombine "H T" as "H". rewrite -big_sepL_sep.
  iApply (big_sepL_mono with "H"). intros j k _. unfold flist. cbn [hd0 last0 nodes]. unfold la_head, la_tail, la_min.
  replace (304 + 8 * (4 + Z.of_nat k - 4)) with (304 + 8 * Z.of_nat k) by lia.
  replace (736 + 8 * (4 + Z.of_nat k - 4)) with (736 + 8 * Z.of_nat k) by lia.
  iIntros "[$ $]". iSplit; [done|]. iPureIntro. constructor.
Qed.
(** Of [n + d] words, the last [d] are handed back. *)
Lemma words_tail a n d v : ([∗ list] k ∈ seq 0 (n + d), word (a + 8 * Z.of_nat k) v) ⊢
  ([∗ list] k ∈ seq 0 n, word (a + 8 * Z.of_nat k) v) ∗ raw (a + 8 * Z.of_nat n) (a + 8 * Z.of_nat (n + d)).
Proof.
  rewrite seq_app big_sepL_app. iIntros "[$ H]".
  replace (a + 8 * Z.of_nat (n + d)) with (a + 8 * Z.of_nat n + 8 * Z.of_nat d) by lia. iApply words_seq.
  change (0 + n)%nat with n. rewrite -{1}(Nat.add_0_r n) -fmap_add_seq big_sepL_fmap. iApply (big_sepL_mono with "H").
  intros ? k _. replace (a + 8 * Z.of_nat (n + k)) with (a + 8 * Z.of_nat n + 8 * Z.of_nat k) by lia. iIntros "H". by iExists _.
Qed.

(** The blocks of a new pool. *)
Definition la_new : list tile :=
  [(1168, 4, None); (1184, 5, None); (1216, 6, None); (1280, 8, None); (1536, 9, None); (2048, 11, None)].
Lemma la_new_tiles : tiles la_start la_new 4096.
Proof. unfold la_new, la_start. cbn [tiles fst snd]. repeat (split; [reflexivity|]; split; [split; [lia|]; split; [reflexivity|done]|]). reflexivity. Qed.
Lemma la_new_merged : merged la_new.
Proof.
  intros o k Hin _ Hin'. unfold la_new in Hin.
  repeat (apply elem_of_cons in Hin as [[= -> ->]|Hin];
    [unfold la_new in Hin'; vm_compute buddy in Hin';
     repeat (apply elem_of_cons in Hin' as [Hin'|Hin']; [discriminate Hin'|]); by apply elem_of_nil in Hin'|]).
  by apply elem_of_nil in Hin.
Qed.

Lemma wp_create_new {A} F (kont : unit → prog A) Φ Ψ :
  flists (λ _, []) -∗ raw 1168 4096 -∗
  (∀ fl, flists fl -∗ ([∗ list] t ∈ la_new, tres t) -∗ ⌜fl_ok fl la_new⌝ -∗ wp (kont tt) Φ Ψ) -∗
  wp (x <- la_create_growing (6 + F) 1168 4096 ;; kont x) Φ Ψ.
Proof.
  iIntros "FL R W". cbn [Nat.add].
  iApply (wp_grow_one _ [] (λ _, []) 1168 4 with "FL [] R"); [reflexivity|lia|lia|lia|lia|by intros ? ?|done|].
  cbn [app]. change (1168 + 2 ^ 4) with 1184. iIntros (fl1 Hf) "FL T R".
  iApply (wp_grow_one _ _ fl1 1184 5 with "FL T R"); [reflexivity|lia|lia|lia|lia|done|].
  cbn [app]. change (1184 + 2 ^ 5) with 1216. clear Hf. iIntros (fl2 Hf) "FL T R".
  iApply (wp_grow_one _ _ fl2 1216 6 with "FL T R"); [reflexivity|lia|lia|lia|lia|done|].
  cbn [app]. change (1216 + 2 ^ 6) with 1280. clear Hf. iIntros (fl3 Hf) "FL T R".
  iApply (wp_grow_one _ _ fl3 1280 8 with "FL T R"); [reflexivity|lia|lia|lia|lia|done|].
  cbn [app]. change (1280 + 2 ^ 8) with 1536. clear Hf. iIntros (fl4 Hf) "FL T R".
  iApply (wp_grow_one _ _ fl4 1536 9 with "FL T R"); [reflexivity|lia|lia|lia|lia|done|].
  cbn [app]. change (1536 + 2 ^ 9) with 2048. clear Hf. iIntros (fl5 Hf) "FL T R".
  iApply (wp_grow_one F _ fl5 2048 11 with "FL T R"); [reflexivity|lia|lia|lia|lia|done|].
  cbn [app]. change (2048 + 2 ^ 11) with 4096. clear Hf. iIntros (fl6 Hf) "FL T R".
  destruct F; cbn [la_create_growing]; (rewrite (bool_decide_eq_false_2 (4096 < 4096)); [|lia]); wpn;
    by iApply ("W" with "FL T").
Qed.
Lemma create_new_eq : la_create_free_blocks la_start (u64 (4096 - la_start)) = la_create_growing (6 + 122) 1168 4096.
Proof. reflexivity. Qed.
Local Opaque la_create_free_blocks la_create_growing.

(** The header of a pool before the constructor has run. *)
Definition la_fresh (m : Z) : hPropI :=
  (⌜m = 4096⌝ ∗ word sa_initialized 0 ∗ raw sa_base (sa_base + 8) ∗ raw sa_bytes_alloc (sa_bytes_alloc + 8) ∗
   raw sa_bytes_comm (sa_bytes_comm + 8) ∗ raw 304 4096)%I.
Lemma wp_la_init {A} c m e (kont : unit → prog A) Φ Ψ :
  pool_inv c m e -∗ la_fresh m -∗
  (∀ fl, pool_inv c m e -∗ la_R la_new fl 0 m -∗ wp (kont tt) Φ Ψ) -∗
  wp (x <- la_init_body ;; kont x) Φ Ψ.
Proof.
  iIntros "P (-> & Hi & Hb & Ha & Hc & R) W". unfold la_init_body. wpn.
  iApply (wp_load64 with "Hi"). iIntros "Hi". rewrite (bool_decide_eq_false_2 (0 ≠ 0)); [|lia]. wpn.
  iApply (wp_store64 with "Hi"); [done|]. iIntros "Hi". wpn.
  iDestruct (raw_word with "Hb") as (v1) "Hb"; [lia|]. iApply (wp_store64 with "Hb"); [done|]. iIntros "Hb". wpn.
  iDestruct (raw_word with "Ha") as (v2) "Ha"; [lia|]. iApply (wp_store64 with "Ha"); [done|]. iIntros "Ha". wpn.
  iDestruct (raw_word with "Hc") as (v3) "Hc"; [lia|]. iApply (wp_store64 with "Hc"); [done|]. iIntros "Hc". wpn.
  iDestruct (raw_split _ 784 with "R") as "[R1 R]"; [lia|].
  iApply (wp_clear_words 60 304 with "R1"). iIntros "H1". wpn.
  iDestruct (words_tail 304 54 6 with "H1") as "[H1 R1]".
  iDestruct (raw_split _ 1216 with "R") as "[R2 R]"; [lia|].
  iApply (wp_clear_words 60 736 with "[R1 R2]").
  { iApply (raw_split _ 784); [lia|]. iFrame "R2". iExact "R1". }
  iIntros "H2". wpn. iDestruct (words_tail 736 54 6 with "H2") as "[H2 R1]".
  iDestruct (flists_clear_all with "H1 H2") as "FL".
  iAssert (raw 1168 4096) with "[R R1]" as "R".
  { iApply (raw_split _ 1216); [lia|]. iFrame "R". iExact "R1". }
  iApply (wp_pool_word with "P"). iIntros "P". wpn. rewrite create_new_eq.
  iApply (wp_create_new 122 with "FL R"). iIntros (fl) "FL T %Hf".
  iApply ("W" with "P"). unfold la_R, la_core. iFrame "FL T".
  iSplit; [|iPureIntro; split; [apply la_new_tiles|done]].
  unfold sa_rest. iSplitL "Hi"; [iExists 1; by iFrame|]. change (sum_sz (used la_new)) with 0. change (la_start + committed la_new) with 1168.
  iFrame.
Qed.
Local Opaque la_init_body.
