(** * LogarithmicAllocator::verify (C58) *)
From Verif Require Export LogSpec LogGame.
From iris.proofmode Require Import tactics.
From iris.prelude Require Import options.
Open Scope Z_scope.
Open Scope prog_scope.
Local Arguments Z.pow : simpl never.
Local Arguments Z.mul : simpl never.
Local Arguments Z.add : simpl never.
Local Arguments bool_decide : simpl never.
Local Arguments u64 : simpl never.
Local Opaque la_create_free_block la_unlink la_merge_loop la_repair la_init_body la_create_free_blocks la_allocate la_free.

(** ** It finds nothing wrong *)
Lemma land_mask x k : 0 <= k → Z.land x (2 ^ k - 1) = x mod 2 ^ k.
Proof. intros. rewrite -(Z.land_ones x k); [|done]. f_equal. rewrite Z.ones_equiv. lia. Qed.
Lemma next_order_boundary_aligned x k : 0 <= k <= 30 → x mod 2 ^ k = 0 → next_order_boundary x k = Ret x.
Proof.
  intros Hk Hx. unfold next_order_boundary. rewrite size_for_order_ok //. cbv beta iota zeta delta [bind].
  assert (1 <= 2 ^ k <= 2 ^ 30) by (split; [change 1 with (2 ^ 0)|]; apply pow_le; lia).
  rewrite (u64_small (2 ^ k - 1)); [|lia]. rewrite land_mask; [|lia]. rewrite Hx.
  rewrite (bool_decide_eq_false_2 (0 ≠ 0)); [done|tauto].
Qed.
Lemma hd0_in l : hd0 l 0 = 0 ∨ hd0 l 0 ∈ l.
Proof. destruct l; [by left|right]. cbn [hd0]. by left. Qed.
Lemma last0_in l : ∀ p, last0 p l = p ∨ last0 p l ∈ l.
Proof.
  induction l as [|x l IH]; intros p; [by left|]. cbn [last0]. destruct (IH x) as [->|H]; right; [by left|by right].
Qed.
Lemma free_acc L fl s e o k : tiles s L e → (o, k, None) ∈ L → fl_ok fl L →
  flists fl -∗
  ∃ p v, word o (k * 2 ^ 57 + p) ∗ word (o + 8) v ∗ ⌜0 <= p < 2 ^ 57 ∧ p mod 2 ^ k = 0 ∧ v mod 2 ^ k = 0⌝ ∗
    (word o (k * 2 ^ 57 + p) -∗ word (o + 8) v -∗ flists fl).
Proof.
  iIntros (Ht Hin Hfl) "F". pose proof (tiles_in _ _ _ _ Ht Hin) as ((Hk & _) & _). cbn [fst snd] in Hk.
  assert (o ∈ fl k) as Hin' by (rewrite Hfl; [by apply free_of_in|lia]).
  assert (∀ x, x ∈ fl k → x mod 2 ^ k = 0) as Hal.
  { intros x. rewrite Hfl; [|lia]. rewrite free_of_in. intros Hx. by pose proof (tiles_in _ _ _ _ Ht Hx) as ((_ & ? & _) & _). }
  iDestruct (flists_acc_ro _ k with "F") as "[(Hh & Ht & Hn & %Hl) F]"; [lia|].
  apply elem_of_list_split in Hin' as (l1 & l2 & Hl12). rewrite Hl12 in Hl, Hal |- *.
  rewrite nodes_app. sl. iDestruct "Hn" as "(Hn1 & H1 & H2 & Hn2)".
  pose proof Hl as Hl'. apply Forall_app in Hl' as [Hl1 _]. pose proof (last0_ok _ Hl1).
  iExists _, _. iFrame "H1 H2". iSplit.
  { iPureIntro. split; [done|]. assert (2 ^ k ≠ 0) by (pose proof (Z.pow_pos_nonneg 2 k ltac:(lia) ltac:(lia)); lia). split.
    - destruct (last0_in l1 0) as [->|Hx]; [by apply Z.mod_0_l|]. apply Hal. set_solver.
    - destruct (hd0_in l2) as [->|Hx]; [by apply Z.mod_0_l|]. apply Hal. set_solver. }
  iIntros "H1 H2". iApply "F". unfold flist. rewrite nodes_app. sl. iFrame. done.
Qed.
Local Opaque next_order_boundary.

Lemma wp_verify_blocks {A} L2 : ∀ F L1 fl m c e bo (kont : Z * Z → prog A) Φ Ψ, m < 2 ^ 32 →
  (length L2 <= F)%nat → tiles la_start L1 bo → tiles bo L2 m → fl_ok fl (L1 ++ L2) →
  pool_inv c m e -∗ flists fl -∗ ([∗ list] t ∈ L1 ++ L2, tres t) -∗
  (pool_inv c m e -∗ flists fl -∗ ([∗ list] t ∈ L1 ++ L2, tres t) -∗
     wp (kont (sum_sz (used (L1 ++ L2)), la_start + committed (L1 ++ L2))) Φ Ψ) -∗
  wp (x <- la_verify_blocks F bo (sum_sz (used L1)) (la_start + committed L1) ;; kont x) Φ Ψ.
Proof.
  induction L2 as [|[[o k] a] L2 IH]; intros F L1 fl m c e bo kont Φ Ψ Hm56 HF Ht1 Ht2 Hfl; iIntros "P FL T W".
  - cbn [tiles] in Ht2. subst bo. destruct F; cbn [la_verify_blocks]; wpn; iApply (wp_pool_word with "P"); iIntros "P";
      (rewrite bool_decide_eq_false_2; [|lia]); wpn; rewrite app_nil_r; by iApply ("W" with "P FL T").
  - destruct F as [|F]; [simpl in HF; lia|]. cbn [length] in HF. cbn [la_verify_blocks].
    destruct Ht2 as (Ho & Hok & Ht2). cbn [fst snd] in Ho, Ht2. subst o.
    pose proof (tile_pos _ Hok) as H16. cbn [fst snd] in H16.
    pose proof (tiles_le _ _ _ Ht1) as Hle1. pose proof (tiles_le _ _ _ Ht2) as Hle2.
    assert (la_start = 1168) as Hst by reflexivity.
    assert (tiles la_start (L1 ++ (bo, k, a) :: L2) m) as Htall by (apply tiles_mid; done).
    assert ((bo, k, a) ∈ L1 ++ (bo, k, a) :: L2) as Hin by (apply elem_of_app; right; by left).
    assert (tiles la_start (L1 ++ [(bo, k, a)]) (bo + 2 ^ k)) as Ht1'.
    { apply tiles_app. exists bo. split; [done|]. cbn [tiles fst snd]. split; [done|]. split; [|done]. exact Hok. }
    assert (L1 ++ (bo, k, a) :: L2 = (L1 ++ [(bo, k, a)]) ++ L2) as EL by (by rewrite -app_assoc).
    pose proof (used_bounds _ _ _ Htall ltac:(lia)) as (Hu1 & Hu2 & Hu3).
    rewrite used_app sum_sz_app in Hu1 Hu2. rewrite committed_app in Hu3 Hu2.
    pose proof (used_bounds _ _ _ Ht1 ltac:(lia)) as (Hv1 & Hv2 & Hv3).
    pose proof (used_bounds _ _ _ Ht2 ltac:(lia)) as (Hw1 & Hw2 & Hw3).
    wpn. iApply (wp_pool_word with "P"). iIntros "P".
    rewrite (bool_decide_eq_true_2 (bo < m)); [|lia].
    destruct a as [n|].
    + destruct Hok as (Hk & Hmod & Hn & Hk30 & Hnk).
      assert (2 ^ k <= 2 ^ 30) as Hk2 by (apply pow_le; lia).
      iEval (rewrite big_sepL_app big_sepL_cons) in "T". iDestruct "T" as "(T1 & [Hh Hs] & T2)". cbn [fst snd].
      wpn. iApply (wp_load64 with "Hh"). iIntros "Hh".
      rewrite ab_allocated; [|lia]. rewrite ab_size_eq; [|lia]. rewrite (u64_small (n + 8)); [|lia].
      rewrite (order_for_size_spec (n + 8) k); [|lia|lia]. rewrite size_for_order_ok; [|lia]. wpn.
      change (used ((bo, k, Some n) :: L2)) with ((bo, n) :: used L2) in *.
      change (sum_sz ((bo, n) :: used L2)) with (n + sum_sz (used L2)) in *.
      cbn [committed fst snd] in Hu2, Hu3.
      rewrite (u64_small (bo + 2 ^ k)); [|lia]. rewrite (u64_small (sum_sz _ + n)); [|lia].
      rewrite (u64_small (la_start + committed L1 + 2 ^ k)); [|lia].
      rewrite (bool_decide_eq_false_2 (bo + 2 ^ k <= bo)); [|lia].
      replace (sum_sz (used L1) + n) with (sum_sz (used (L1 ++ [(bo, k, Some n)]))).
      2:{ rewrite used_app sum_sz_app. change (sum_sz (used [(bo, k, Some n)])) with (n + 0). lia. }
      replace (la_start + committed L1 + 2 ^ k) with (la_start + committed (L1 ++ [(bo, k, Some n)])).
      2:{ rewrite committed_app. cbn [committed fst snd]. lia. }
      rewrite EL in Hfl |- *.
      iApply (IH F (L1 ++ [(bo, k, Some n)]) fl m with "P FL [T1 T2 Hh Hs]"); [done|lia|exact Ht1'|exact Ht2|exact Hfl| |].
      2:{ rewrite -EL. iExact "W". }
      rewrite !big_sepL_app big_sepL_singleton. iFrame "T1 T2". unfold tres. cbn [fst snd]. iFrame.
    + destruct Hok as (Hk & Hmod & _).
      iDestruct (free_acc _ _ _ _ _ _ Htall Hin Hfl with "FL") as (p v) "(Hh & Hn & [%Hp [%Hpm %Hvm]] & FL)".
      wpn. iApply (wp_load64 with "Hh"). iIntros "Hh".
      assert (k <= 30) as Hk30.
      { destruct (decide (k <= 30)); [done|]. assert (k = 31) as -> by lia. exfalso.
        pose proof (Z.div_mod bo (2 ^ 31) ltac:(lia)). assert (0 < bo / 2 ^ 31) by (apply Z.div_str_pos; lia). lia. }
      rewrite fb_allocated_eq; [|done|lia]. rewrite fb_order_eq; [|done|lia]. rewrite fb_prev_eq; [|done].
      rewrite (bool_decide_eq_false_2 (k < la_min ∨ k > la_max)); [|unfold la_min, la_max; lia].
      rewrite next_order_boundary_aligned; [|lia|done]. wpn.
      rewrite (bool_decide_eq_false_2 (p ≠ p)); [|tauto]. wpn.
      iApply (wp_load64 with "Hn"). iIntros "Hn".
      rewrite next_order_boundary_aligned; [|lia|done]. wpn.
      rewrite (bool_decide_eq_false_2 (v ≠ v)); [|tauto]. rewrite size_for_order_ok; [|lia]. wpn.
      rewrite (u64_small (bo + 2 ^ k)); [|lia].
      rewrite (bool_decide_eq_false_2 (bo + 2 ^ k <= bo)); [|lia].
      iDestruct ("FL" with "Hh Hn") as "FL".
      replace (used L1) with (used (L1 ++ [(bo, k, None)])) by (by rewrite used_app app_nil_r).
      replace (committed L1) with (committed (L1 ++ [(bo, k, None)])) by (rewrite committed_app; cbn [committed fst snd]; lia).
      rewrite EL in Hfl |- *.
      by iApply (IH F (L1 ++ [(bo, k, None)]) fl m with "P FL T"); [done|lia|done|done|done|].
Qed.
Local Opaque la_verify_blocks.

Lemma wp_verify_list {A} l : ∀ F k p (kont : Z → prog A) Φ Ψ, 4 <= k <= 57 → 0 <= p < 2 ^ 57 → (length l <= F)%nat →
  Forall off_ok l →
  nodes k p l 0 -∗ (nodes k p l 0 -∗ wp (kont (last0 p l)) Φ Ψ) -∗
  wp (x <- la_verify_list F k (hd0 l 0) p ;; kont x) Φ Ψ.
Proof.
  induction l as [|o l IH]; intros F k p kont Φ Ψ Hk Hp HF Hl; iIntros "N W".
  - sl. destruct F; cbn [la_verify_list]; (rewrite (bool_decide_eq_true_2 (0 = 0)); [|done]); wpn; by iApply "W".
  - sl. inversion Hl as [|? ? Ho Hl']; subst. destruct F as [|F]; [simpl in HF; lia|]. cbn [length] in HF.
    cbn [la_verify_list]. rewrite (bool_decide_eq_false_2 (o = 0)); [|unfold off_ok in Ho; lia].
    iDestruct "N" as "(H1 & H2 & N)". wpn. iApply (wp_load64 with "H1"). iIntros "H1".
    rewrite fb_order_eq; [|done|lia]. rewrite fb_allocated_eq; [|done|lia]. rewrite fb_prev_eq; [|done].
    rewrite (bool_decide_eq_false_2 (k ≠ k)); [|tauto]. rewrite (bool_decide_eq_false_2 (p ≠ p)); [|tauto].
    wpn. iApply (wp_load64 with "H2"). iIntros "H2".
    iApply (IH with "N"); [done|unfold off_ok in Ho; lia|lia|done|]. iIntros "N". iApply "W". iFrame.
Qed.
Local Opaque la_verify_list.
Lemma wp_verify_lists {A} n : ∀ F k fl (kont : unit → prog A) Φ Ψ, 4 <= k → k + Z.of_nat n <= 58 →
  (∀ j, 4 <= j <= 57 → (length (fl j) <= F)%nat) →
  flists fl -∗ (flists fl -∗ wp (kont tt) Φ Ψ) -∗ wp (x <- la_verify_lists F n k ;; kont x) Φ Ψ.
Proof.
  induction n as [|n IH]; intros F k fl kont Φ Ψ Hk Hn HF; iIntros "FL W"; cbn [la_verify_lists].
  - wpn. by iApply "W".
  - iDestruct (flists_acc_ro _ k with "FL") as "[(Hh & Ht & N & %Hl) FL]"; [lia|].
    wpn. iApply (wp_load64 with "Hh"). iIntros "Hh". wpn.
    iApply (wp_verify_list with "N"); [lia|lia|apply HF; lia|done|]. iIntros "N". wpn.
    iApply (wp_load64 with "Ht"). iIntros "Ht".
    rewrite (bool_decide_eq_false_2 (last0 0 (fl k) ≠ last0 0 (fl k))); [|tauto].
    iDestruct ("FL" with "[Hh Ht N]") as "FL"; [by iFrame|].
    iApply (IH with "FL"); [lia|lia|done|done].
Qed.
Local Opaque la_verify_lists.

Lemma free_of_length k L : (length (free_of k L) <= length L)%nat.
Proof.
  induction L as [|[[o j] a] L IH]; [done|]. destruct (decide (j = k ∧ a = None)) as [[-> ->]|Hne].
  - rewrite free_of_cons_same. simpl. lia.
  - rewrite free_of_cons_ne; [simpl; lia|]. destruct a; [by right|]. left. intros ->. by apply Hne.
Qed.
Lemma wp_la_verify {A} F c L fl bo m e (kont : unit → prog A) Φ Ψ :
  m < 2 ^ 32 → 2 ^ 28 <= Z.of_nat F →
  pool_inv c m e -∗ la_R L fl bo m -∗
  (pool_inv c m e -∗ la_R L fl bo m -∗ wp (kont tt) Φ Ψ) -∗
  wp (x <- la_verify F ;; kont x) Φ Ψ.
Proof.
  iIntros (Hm HF) "P (R & FL & T & %H) W". destruct H as [Ht Hfl].
  pose proof (tiles_le _ _ _ Ht) as Hle. assert (la_start = 1168) as Hst by reflexivity.
  unfold la_verify. wpn.
  iApply (wp_verify_blocks L F [] fl m with "P FL T"); [lia|lia|done|done|done|].
  cbn [app]. iIntros "P FL T". iDestruct "R" as "(Ri & Rb & Ra & Rc)". wpn.
  iApply (wp_load64 with "Ra"). iIntros "Ra".
  rewrite (bool_decide_eq_false_2 (sum_sz (used L) ≠ sum_sz (used L))); [|tauto]. wpn.
  iApply (wp_load64 with "Rc"). iIntros "Rc".
  rewrite (bool_decide_eq_false_2 (la_start + committed L ≠ la_start + committed L)); [|tauto].
  iApply (wp_verify_lists 53 with "FL"); [unfold la_min; lia|unfold la_min; lia| |].
  { intros j Hj. rewrite (Hfl j Hj). pose proof (free_of_length j L). lia. }
  iIntros "FL". iApply ("W" with "P"). iFrame. done.
Qed.
Local Opaque la_verify.

Lemma readonly_boundary x k : readonly (next_order_boundary x k).
Proof.
  Local Transparent next_order_boundary. unfold next_order_boundary. Local Opaque next_order_boundary.
  apply readonly_bind; [apply readonly_size_for_order|]. intros os. done.
Qed.
Lemma readonly_throw {A} e : readonly (@Throw A e).
Proof. exact I. Qed.
Lemma readonly_ret {A} (a : A) : readonly (Ret a).
Proof. exact I. Qed.
Lemma readonly_nofuel {A} : readonly (@NoFuel A).
Proof. exact I. Qed.
Lemma readonly_if {A} (b : bool) (p q : prog A) : readonly p → readonly q → readonly (if b then p else q).
Proof. destruct b; intros H1 H2; [exact H1|exact H2]. Qed.
Local Opaque readonly.
Ltac rd := repeat first
  [ apply readonly_throw | apply readonly_ret | apply readonly_nofuel | apply readonly_load64
  | apply readonly_size_for_order | apply readonly_boundary
  | match goal with H : ∀ _, _ |- readonly _ => apply H end
  | apply readonly_bind; [|intros ?] | apply readonly_if ].
Lemma readonly_verify_blocks F : ∀ o ba bc, readonly (la_verify_blocks F o ba bc).
Proof.
  Local Transparent la_verify_blocks.
  induction F as [|F IH]; intros o ba bc; cbn [la_verify_blocks]; cbv zeta; rd.
Qed.
Lemma readonly_verify_list F : ∀ k o p, readonly (la_verify_list F k o p).
Proof.
  Local Transparent la_verify_list.
  induction F as [|F IH]; intros k o p; cbn [la_verify_list]; rd.
Qed.
Local Opaque la_verify_blocks la_verify_list.
Lemma readonly_verify_lists F n : ∀ k, readonly (la_verify_lists F n k).
Proof.
  Local Transparent la_verify_lists.
  induction n as [|n IH]; intros k; cbn [la_verify_lists]; rd. apply readonly_verify_list.
Qed.
Local Opaque la_verify_lists.
Lemma readonly_verify F : readonly (la_verify F).
Proof.
  Local Transparent la_verify. unfold la_verify. Local Opaque la_verify.
  apply readonly_bind; [apply readonly_verify_blocks|]. intros [ba bc]. rd. apply readonly_verify_lists.
Qed.

Lemma LInv_verifies F st : 2 ^ 28 <= Z.of_nat F → LInv st → log_verifies F st.
Proof.
  intros HF. destruct st as [W d t B bo]. intros (Hok & _ & Hsz & Hd & L & fl & HB & Hme & HR). cbn [l_w l_b l_base l_dirty l_tidy] in *. subst B.
  intros H32 i [pr Hi]. cbn [l_b l_w l_dirty] in *.
  pose proof (la_locked d F L fl bo _ (λ (_ : unit) m, True)%I (λ _ _, False)%I W i pr (la_verify F) HR Hok Hi HF Hd) as H.
  feed specialize H.
  { intros fl1 e. iIntros "P HR X". iApply bind_ret_r. iApply (wp_la_verify with "P HR"); [done|done|]. iIntros "P HR".
    iApply wp_ret. iExists _, _. by iFrame "P". }
  assert (d = false → ∀ u W', run_by W i (under_lock d (la_repair F) (la_verify F)) = WDone u W' →
    w_mem W' = w_mem W ∧ w_fsize W' = w_fsize W) as Hro.
  { intros -> u W' Hr. unfold run_by, under_lock in Hr. rewrite Hi run_bind in Hr.
    destruct (run_lock _ W pr HR (Hok _ _ Hi)) as [e' Hl]. rewrite Hl in Hr.
    rewrite run_bind in Hr. cbn [run] in Hr.
    match type of Hr with context [run (la_verify F) ?s0] => pose proof (readonly_run _ s0 (readonly_verify F)) as Hq end.
    destruct (run (la_verify F) _) as [u' s| | |] eqn:E; try done. injection Hr as _ <-. by subst s. }
  destruct (run_by _ _ _) as [u W'|x W'| |]; try done.
  - intros Hd'. by apply (Hro Hd' u).
  - destruct H as [H _]. by apply file_holds_false in H.
Qed.

(** ** What it finds *)
Lemma load_inv {A} W pr a (k : Z → prog A) v s' :
  run (x <- load64 a ;; k x) (view W pr) = Done v s' → run (k (w_word W a)) (view W pr) = Done v s'.
Proof.
  rewrite run_bind run_load64. destruct (valid _ _ _); [|done]. cbv beta iota. intros H. exact H.
Qed.
Lemma of_bytes_word W a : of_bytes W → 0 <= w_word W a < 2 ^ 64.
Proof.
  intros Hb. unfold w_word. assert (∀ n x, bytes_ok (w_read W x n)) as H.
  { induction n as [|n IH]; intros x; [constructor|]. specialize (Hb x). specialize (IH (x + 1)). unfold w_read in *. cbn [read_bytes] in *.
    inversion Hb; subst. by constructor. }
  pose proof (le_val_range _ (H 8%nat a)) as Hr.
  replace (length (w_read W a 8)) with 8%nat in Hr by (unfold w_read; by rewrite read_bytes_length). exact Hr.
Qed.
Lemma size_inv {A} k (kont : Z → prog A) s v s' : 0 <= k <= 30 →
  run (x <- size_for_order k ;; kont x) s = Done v s' → run (kont (2 ^ k)) s = Done v s'.
Proof. intros Hk. rewrite size_for_order_ok //. Qed.
Lemma boundary_inv {A} x k (kont : Z → prog A) s v s' :
  run (p <- next_order_boundary x k ;; kont p) s = Done v s' → ∃ p, run (kont p) s = Done v s'.
Proof.
  rewrite run_bind. pose proof (readonly_run _ s (readonly_boundary x k)) as Hq.
  destruct (run (next_order_boundary x k) s) as [p s1| | |]; try done. subst s1. by exists p.
Qed.
Lemma throw_inv {A} (b : bool) (p : prog A) s v s' :
  run (if b then Throw RuntimeError else p) s = Done v s' → b = false ∧ run p s = Done v s'.
Proof. by destruct b. Qed.
Lemma log2_up_spec' x : 9 <= x → ∃ k, Z.log2_up x = k ∧ 4 <= k ∧ 2 ^ (k - 1) < x <= 2 ^ k.
Proof.
  intros Hx. exists (Z.log2_up x). split; [done|]. pose proof (Z.log2_up_spec x ltac:(lia)) as H.
  rewrite -Z.sub_1_r in H. split; [|done].
  pose proof (Z.log2_up_le_mono 9 x Hx) as Hm. change (Z.log2_up 9) with 4 in Hm. done.
Qed.
Lemma pow_le_31 k : 2 ^ k < 2 ^ 31 → k <= 30.
Proof. intros H. destruct (decide (k <= 30)); [done|]. pose proof (Z.pow_le_mono_r 2 31 k ltac:(lia) ltac:(lia)). lia. Qed.
Lemma blocks_from_le W T : ∀ o e, blocks_from W o T e → o <= e.
Proof. induction T as [|[[x len] a] T IH]; intros o e; cbn [blocks_from]; [lia|]. intros (_ & ? & _ & H%IH). lia. Qed.
Lemma verify_blocks_inv W pr (Hb : of_bytes W) T : ∀ F o ba bc a c s',
  w_size W <= 2 ^ 31 → blocks_from W o T (w_size W) → 1168 <= o → 0 <= ba <= o → 0 <= bc <= o →
  run (la_verify_blocks F o ba bc) (view W pr) = Done (a, c) s' →
  s' = view W pr ∧ a = ba + sizes_of T ∧ c = bc + lengths_of T.
Proof.
  Local Transparent la_verify_blocks. Local Opaque size_for_order.
  induction T as [|[[x len] y] T IH]; intros F o ba bc a c s' Hs HT Ho Hba Hbc Hr.
  - cbn [blocks_from] in HT. destruct F; cbn [la_verify_blocks] in Hr; apply load_inv in Hr; fold (w_size W) in Hr;
      (rewrite (bool_decide_eq_false_2 (o < w_size W)) in Hr; [|lia]); injection Hr as <- <- <-; unfold sizes_of, lengths_of; cbn [foldr]; (split; [reflexivity|lia]).
  - destruct HT as (-> & Hlen & Hh & HT). pose proof (blocks_from_le _ _ _ _ HT) as Hle.
    destruct F; cbn [la_verify_blocks] in Hr; apply load_inv in Hr; fold (w_size W) in Hr;
      (rewrite (bool_decide_eq_true_2 (o < w_size W)) in Hr; [|lia]); [done|].
    apply load_inv in Hr. pose proof (of_bytes_word W o Hb) as Hw.
    destruct y as [n|].
    + destruct Hh as [Hh Hl]. rewrite Hh in Hr, Hw.
      assert (1 <= n) as Hn.
      { destruct (decide (1 <= n)); [done|]. unfold pow2_ceiling in Hl.
        pose proof (Z.log2_up_le_mono (n + 8) 8 ltac:(lia)) as Hm. change (Z.log2_up 8) with 3 in Hm.
        pose proof (Z.pow_le_mono_r 2 _ _ ltac:(lia) Hm). lia. }
      destruct (log2_up_spec' (n + 8) ltac:(lia)) as (k & Ek & Hk & Hnk). unfold pow2_ceiling in Hl. rewrite Ek in Hl. subst len.
      assert (k <= 30) by (apply pow_le_31; lia). assert (2 ^ k <= 2 ^ 30) by (apply pow_le; lia).
      rewrite ab_allocated in Hr; [|lia]. rewrite ab_size_eq in Hr; [|lia]. rewrite (u64_small (n + 8)) in Hr; [|lia].
      rewrite (order_for_size_spec (n + 8) k) in Hr; [|lia|lia]. apply size_inv in Hr; [|lia]. cbv zeta in Hr.
      rewrite (u64_small (o + 2 ^ k)) in Hr; [|lia]. apply throw_inv in Hr as [_ Hr].
      rewrite (u64_small (ba + n)) in Hr; [|lia]. rewrite (u64_small (bc + 2 ^ k)) in Hr; [|lia].
      apply IH in Hr as (-> & -> & ->); [|done|done|lia|lia|lia].
      unfold sizes_of, lengths_of; cbn [foldr]; (split; [reflexivity|lia]).
    + destruct Hh as [Hh Hl].
      pose proof (Z.div_mod (w_word W o) (2 ^ 57) ltac:(lia)) as Hdm. pose proof (Z.mod_pos_bound (w_word W o) (2 ^ 57) ltac:(lia)) as Hmb.
      set (k := w_word W o / 2 ^ 57) in *. set (p := w_word W o mod 2 ^ 57) in *.
      assert (w_word W o = k * 2 ^ 57 + p) as E by lia. assert (0 <= k < 64) as Hk by lia. clear Hdm. rewrite E in Hr.
      assert (k <= 30) by (apply pow_le_31; lia).
      rewrite fb_allocated_eq in Hr; [|done|done]. rewrite fb_order_eq in Hr; [|done|done].
      apply throw_inv in Hr as [_ Hr]. apply boundary_inv in Hr as [x Hr]. apply throw_inv in Hr as [_ Hr]. apply load_inv in Hr.
      apply boundary_inv in Hr as [y Hr]. apply throw_inv in Hr as [_ Hr]. apply size_inv in Hr; [|lia]. cbv zeta in Hr.
      rewrite (u64_small (o + 2 ^ k)) in Hr; [|lia]. apply throw_inv in Hr as [_ Hr]. rewrite -Hl in Hr.
      apply IH in Hr as (-> & -> & ->); [|done|done|lia|lia|lia].
      unfold sizes_of, lengths_of; cbn [foldr]; (split; [reflexivity|lia]).
Qed.
Lemma header_inv w k p : 0 <= w < 2 ^ 64 → fb_order w = k → fb_allocated w = false → fb_prev w = p → w = k * 2 ^ 57 + p.
Proof.
  intros Hw <- Ha <-. 
  pose proof (Z.div_mod w (2 ^ 57) ltac:(lia)) as Hdm. pose proof (Z.mod_pos_bound w (2 ^ 57) ltac:(lia)) as Hmb.
  set (k := w / 2 ^ 57) in *. set (p := w mod 2 ^ 57) in *. assert (w = k * 2 ^ 57 + p) as E by lia. clear Hdm.
  assert (0 <= k < 64) as Hk.
  { assert (0 <= k < 128) by lia. split; [lia|]. destruct (decide (k < 64)); [done|]. exfalso.
    assert (w = 2 ^ 63 + (w - 2 ^ 63)) as Hx by lia. rewrite Hx ab_allocated in Ha; [done|lia]. }
  rewrite E fb_order_eq // fb_prev_eq //.
Qed.
Definition linked (W : world) (k p : Z) (l : list Z) : Prop :=
  ∀ j o, l !! j = Some o →
    w_word W o = k * 2 ^ 57 + match j with O => p | S j' => default 0 (l !! j') end ∧
    w_word W (o + 8) = default 0 (l !! Datatypes.S j).
Lemma verify_list_inv W pr (Hb : of_bytes W) F : ∀ k o p r s',
  run (la_verify_list F k o p) (view W pr) = Done r s' →
  s' = view W pr ∧ ∃ l, o = default 0 (head l) ∧ r = default p (last l) ∧ linked W k p l.
Proof.
  Local Transparent la_verify_list.
  induction F as [|F IH]; intros k o p r s' Hr; cbn [la_verify_list] in Hr; destruct (bool_decide_reflect (o = 0)) as [->|Hne].
  - injection Hr as <- <-. split; [done|]. exists []. split; [done|]. split; [done|]. intros j x Hj. done.
  - done.
  - injection Hr as <- <-. split; [done|]. exists []. split; [done|]. split; [done|]. intros j x Hj. done.
  - apply load_inv in Hr. apply throw_inv in Hr as [H1 Hr]. apply throw_inv in Hr as [H2 Hr]. apply throw_inv in Hr as [H3 Hr].
    apply load_inv in Hr. apply bool_decide_eq_false in H1. apply bool_decide_eq_false in H3.
    apply IH in Hr as (-> & l & Hhd & -> & Hl). split; [done|]. exists (o :: l). split; [done|]. split.
    { destruct l as [|y l]; [done|]. rewrite last_cons_cons. by destruct (last (y :: l)) eqn:El; [|by apply last_None in El]. }
    intros [|j] x Hj; cbn [lookup list_lookup] in Hj |- *.
    + injection Hj as <-. split.
      * apply header_inv; [by apply of_bytes_word|lia|done|lia].
      * rewrite Hhd. by destruct l.
    + destruct (Hl j x Hj) as [Hx1 Hx2]. split; [|exact Hx2]. rewrite Hx1. by destruct j.
Qed.
Local Opaque la_verify_list.
Lemma verify_lists_inv W pr (Hb : of_bytes W) F n : ∀ k u s',
  run (la_verify_lists F n k) (view W pr) = Done u s' →
  ∀ j, k <= j < k + Z.of_nat n → ∃ l, free_list W j l.
Proof.
  Local Transparent la_verify_lists.
  induction n as [|n IH]; intros k u s' Hr j Hj; [lia|]. cbn [la_verify_lists] in Hr. apply load_inv in Hr.
  rewrite run_bind in Hr. destruct (run (la_verify_list F k (w_word W (la_head k)) 0) (view W pr)) as [r s1| | |] eqn:E; try done.
  apply (verify_list_inv _ _ Hb) in E as (-> & l & Hhd & -> & Hl). apply load_inv in Hr. apply throw_inv in Hr as [H1 Hr].
  apply bool_decide_eq_false in H1. destruct (decide (j = k)) as [->|Hne].
  - exists l. split; [exact Hhd|]. split; [|exact Hl]. unfold la_tail, la_min in H1. destruct (decide (w_word W (736 + 8 * (k - 4)) = default 0 (last l))); [done|tauto].
  - apply (IH _ _ _ Hr). lia.
Qed.
Local Opaque la_verify_lists.

Lemma verify_sound W i F T W' :
  of_bytes W → w_size W <= 2 ^ 31 → pool_blocks W T → run_by W i (la_verify F) = WDone tt W' →
  w_word W 288 = sizes_of T ∧ w_word W 296 = 1168 + lengths_of T ∧ (∀ k, 4 <= k <= 56 → ∃ l, free_list W k l).
Proof.
  intros Hb Hs HT Hr. unfold run_by in Hr. destruct (w_procs W !! i) as [pr|]; [|done].
  destruct (run (la_verify F) (view W pr)) as [u s| | |] eqn:E; try done. clear Hr.
  Local Transparent la_verify. unfold la_verify in E. Local Opaque la_verify.
  rewrite run_bind in E. destruct (run (la_verify_blocks F la_start 0 la_start) (view W pr)) as [[a c] s1| | |] eqn:Ebl; try done.
  apply (verify_blocks_inv _ _ Hb T) in Ebl as (-> & -> & ->); [|done|done|unfold la_start; lia|unfold la_start; lia|unfold la_start; lia].
  cbv beta iota in E. apply load_inv in E. apply throw_inv in E as [H1 E]. apply bool_decide_eq_false in H1.
  apply load_inv in E. apply throw_inv in E as [H2 E]. apply bool_decide_eq_false in H2.
  pose proof (verify_lists_inv _ _ Hb _ _ _ _ _ E) as Hl. unfold sa_bytes_alloc in H1. unfold sa_bytes_comm in H2. unfold la_start in H2.
  split; [lia|]. split; [lia|]. intros k Hk. apply Hl. unfold la_min. lia.
Qed.
