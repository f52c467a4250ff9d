(** * LogarithmicAllocator: from the separation logic proofs to histories. *)
From Verif Require Export LogRepair LogCrash SimpleGame LogSpec.
From iris.proofmode Require Import tactics.
From iris.prelude Require Import options.
Open Scope Z_scope.
Open Scope prog_scope.
Local Arguments Z.pow : simpl never.
Local Arguments Z.mul : simpl never.
Local Arguments Z.add : simpl never.
Local Arguments bool_decide : simpl never.
Local Arguments u64 : simpl never.
Local Opaque la_create_free_block la_unlink la_merge_loop la_repair la_init_body la_create_free_blocks la_allocate la_free.

(** ** The data of the live blocks *)
Definition conts (f : Z * Z → list Z) (B : blocks) : hPropI := ([∗ list] x ∈ B, pts x.1 (f x))%I.
Definition gW (W : world) (x : Z * Z) : list Z := w_read W x.1 (Z.to_nat x.2).
Definition bmap (B : blocks) : gmap Z Z := list_to_map B.

Lemma conts_perm f B B' : B ≡ₚ B' → conts f B ⊢ conts f B'.
Proof. intros H. unfold conts. by rewrite H. Qed.
Lemma raws_perm' B B' : B ≡ₚ B' → raws B ⊢ raws B'.
Proof. intros H. unfold raws. by rewrite H. Qed.
Lemma conts_raws f B : (∀ x, x ∈ B → Z.of_nat (length (f x)) = x.2) → conts f B ⊢ raws B.
Proof.
  intros Hf. unfold conts, raws. apply big_sepL_mono. intros i x Hx. apply elem_of_list_lookup_2 in Hx.
  apply pts_raw. rewrite Hf //.
Qed.
Lemma gW_length W x : 0 <= x.2 → Z.of_nat (length (gW W x)) = x.2.
Proof. intros. unfold gW. rewrite w_read_length. lia. Qed.
Lemma file_holds_raws B : ∀ R W,
  file_holds (λ m, R m ∗ raws B)%I W → file_holds (λ m, R m ∗ conts (gW W) B)%I W.
Proof.
  unfold raws, conts.
  induction B as [|[b n] L IH]; intros R W H; [done|].
  assert (file_holds (λ m, raw b (b + n) ∗
     (R m ∗ [∗ list] x ∈ L, raw x.1 (x.1 + x.2)))%I W) as H2.
  { eapply file_holds_mono; [|exact H]. intros m. simpl. iIntros "($ & $ & $)". }
  apply file_holds_raw in H2.
  assert (file_holds (λ m, (R m ∗ pts b (gW W (b, n))) ∗
     [∗ list] x ∈ L, raw x.1 (x.1 + x.2))%I W) as H3.
  { eapply file_holds_mono; [|exact H2]. intros m.
    replace (b + n - b) with n by lia. iIntros "($ & $ & $)". }
  apply IH in H3. eapply file_holds_mono; [|exact H3]. intros m. simpl. iIntros "(($ & $) & $)".
Qed.
Lemma conts_same R B W W' x : 0 <= x.2 →
  file_holds (λ m, R m ∗ conts (gW W) B)%I W' → x ∈ B → gW W' x = gW W x.
Proof.
  intros H0 H Hx. pose proof (gW_length W x H0) as Hlen.
  apply elem_of_list_lookup in Hx as [i Hx].
  assert (w_read W' x.1 (length (gW W x)) = gW W x) as HH.
  { eapply (file_holds_pts (λ m, True)%I). eapply file_holds_mono; [|exact H].
    intros m. unfold conts. iIntros "[_ H]". rewrite big_sepL_lookup; [|exact Hx]. iFrame. }
  unfold gW at 1. rewrite -HH. f_equal. lia.
Qed.

(** ** The map of live blocks *)
Lemma bmap_lookup L m o n : tiles la_start L m → bmap (shift8 (used L)) !! o = Some n ↔ ∃ k, (o - 8, k, Some n) ∈ L.
Proof.
  intros Ht. unfold bmap. rewrite -shift8_in -elem_of_list_to_map; [done|].
  rewrite shift8_fst. apply NoDup_fmap_2; [intros ??; lia|]. by eapply used_nodup.
Qed.
Lemma shift8_nodup L m : tiles la_start L m → NoDup ((shift8 (used L)).*1).
Proof. intros Ht. rewrite shift8_fst. apply NoDup_fmap_2; [intros ??; lia|]. by eapply used_nodup. Qed.
Lemma bmap_perm B B' : NoDup (B.*1) → B ≡ₚ B' → bmap B = bmap B'.
Proof. intros Hn HP. by apply list_to_map_proper. Qed.
Lemma shift8_mid L1 o k n L2 : shift8 (used (L1 ++ (o, k, Some n) :: L2)) ≡ₚ (o + 8, n) :: shift8 (used (L1 ++ L2)).
Proof. unfold shift8. by rewrite (used_mid L1 o k n L2). Qed.
Lemma bmap_mid L1 o k n L2 m : tiles la_start (L1 ++ (o, k, Some n) :: L2) m →
  bmap (shift8 (used (L1 ++ (o, k, Some n) :: L2))) = <[o + 8 := n]> (bmap (shift8 (used (L1 ++ L2)))) ∧
  bmap (shift8 (used (L1 ++ L2))) !! (o + 8) = None.
Proof.
  intros Ht. pose proof (shift8_nodup _ _ Ht) as Hn. split; [by rewrite (bmap_perm _ _ Hn (shift8_mid _ _ _ _ _))|].
  rewrite (shift8_mid L1 o k n L2) in Hn. cbn [fmap list_fmap] in Hn. apply NoDup_cons in Hn as [Hn _].
  by apply not_elem_of_list_to_map_1.
Qed.
Lemma bmap_pos L m o n : tiles la_start L m → bmap (shift8 (used L)) !! o = Some n → 1 <= n ∧ (o, n) ∈ shift8 (used L).
Proof.
  intros Ht Ho. pose proof Ho as Ho'. apply (bmap_lookup _ _ _ _ Ht) in Ho as [k Hin]. split; [|apply shift8_in; eauto].
  pose proof (tiles_in _ _ _ _ Ht Hin) as ((_ & _ & ? & _) & _). done.
Qed.
Lemma tile_len k n : 4 <= k → 2 ^ (k - 1) < n + 8 <= 2 ^ k → pow2_ceiling (n + 8) = 2 ^ k.
Proof.
  intros Hk Hn. unfold pow2_ceiling. f_equal. apply Z.log2_up_unique; [lia|]. rewrite -Z.sub_1_r. done.
Qed.
Lemma bmap_sums s L e : tiles s L e →
  sum_sizes (bmap (shift8 (used L))) = sum_sz (used L) ∧ sum_lengths (bmap (shift8 (used L))) = committed L.
Proof.
  revert s. induction L as [|[[o k] a] L IH]; intros s; [done|]. intros Ht0. pose proof Ht0 as (Ho & Hok & Ht). cbn [fst snd] in *. subst o.
  destruct (IH _ Ht) as [IH1 IH2]. destruct a as [n|]; [|done].
  change (used ((s, k, Some n) :: L)) with ((s, n) :: used L). 
  change (bmap (shift8 ((s, n) :: used L))) with (<[s + 8 := n]> (bmap (shift8 (used L)))).
  assert (bmap (shift8 (used L)) !! (s + 8) = None) as Hni.
  { apply not_elem_of_list_to_map_1. rewrite shift8_fst. pose proof (used_nodup _ _ _ Ht0) as Hnd.
    change (used ((s, k, Some n) :: L)) with ((s, n) :: used L) in Hnd. cbn [fmap list_fmap fst] in Hnd. apply NoDup_cons in Hnd as [Hnd _].
    intros (y & Hy & Hin)%elem_of_list_fmap. assert (y = s) as -> by lia. done. }
  split.
  - unfold sum_sizes. rewrite map_fold_insert_L; [|intros; lia|done]. fold (sum_sizes (bmap (shift8 (used L)))). rewrite IH1.
    change (sum_sz ((s, n) :: used L)) with (n + sum_sz (used L)). done.
  - unfold sum_lengths. rewrite map_fold_insert_L; [|intros; lia|done]. fold (sum_lengths (bmap (shift8 (used L)))). rewrite IH2.
    cbn [committed fst snd]. destruct Hok as (Hk & _ & Hn & _ & Hn'). rewrite (tile_len k n); [done|lia|done].
Qed.

(** ** Operations under the lock *)
Lemma la_locked {A} d F L fl bo X R' Rx W i pr (op : prog A) :
  file_holds (λ m, la_St d L fl bo m ∗ X)%I W → world_ok W → w_procs W !! i = Some pr →
  2 ^ 28 <= Z.of_nat F → (d = true → w_size W < 2 ^ 32) →
  (∀ fl e, pool_inv (Cfg (p_max pr) (w_lim W)) (w_size W) e -∗ la_R L fl bo (w_size W) -∗ X -∗
     wp op (λ a, ∃ m' e', pool_inv (Cfg (p_max pr) (w_lim W)) m' e' ∗ R' a m')
         (λ x, ∃ m' e', pool_inv (Cfg (p_max pr) (w_lim W)) m' e' ∗ Rx x m')) →
  match run_by W i (under_lock d (la_repair F) op) with
  | WDone a W' => file_holds (R' a) W' ∧ same_env W i pr W'
  | WExn x W' => file_holds (Rx x) W' ∧ same_env W i pr W'
  | WBad | WNoProc => False
  end.
Proof.
  intros HR Hok Hi HF Hd Hop. unfold under_lock. apply (run_by_lock_wp _ R' Rx _ _ _ _ HR Hok Hi).
  intros e. iIntros "(P & HR & X)". destruct d.
  - iApply (wp_la_repair_D with "P HR"); [by apply Hd|done|]. iIntros (fl') "P HR". iApply (Hop with "P HR X").
  - wpn. iApply (Hop with "P HR X").
Qed.
Lemma file_holds_false W : file_holds (λ _, False)%I W → False.
Proof. intros [m H]. eapply (holds_pure False). eapply holds_mono; [|exact H]. iIntros "[_ []]". Qed.

Definition LInv (st : lstate) : Prop :=
  world_ok (l_w st) ∧ w_lim (l_w st) <= 2 ^ 56 ∧ w_size (l_w st) <= 2 ^ 56 ∧
  (l_dirty st = true → w_size (l_w st) < 2 ^ 32) ∧
  ∃ L fl, l_b st = bmap (shift8 (used L)) ∧ (l_tidy st = true → merged L) ∧
    file_holds (λ m, la_St (l_dirty st) L fl (l_base st) m ∗ raws (shift8 (used L)))%I (l_w st).

Lemma file_holds_D d L fl bo (X : Z → hPropI) W :
  file_holds (λ m, la_St d L fl bo m ∗ X m)%I W → file_holds (λ m, la_D L bo m ∗ X m)%I W.
Proof. intros H. eapply file_holds_mono; [|exact H]. intros m. iIntros "[H $]". by iApply la_St_D. Qed.
Lemma file_tiles_D L bo (X : Z → hPropI) W :
  file_holds (λ m, la_D L bo m ∗ X m)%I W → tiles la_start L (w_size W).
Proof.
  intros H. apply file_holds_facts in H as (_ & _ & H). eapply holds_pure.
  eapply holds_mono; [|exact H]. iIntros "(_ & (_ & _ & %Ht) & _)". done.
Qed.
Lemma file_tiles_S d L fl bo (X : Z → hPropI) W :
  file_holds (λ m, la_St d L fl bo m ∗ X m)%I W → tiles la_start L (w_size W).
Proof. intros H. eapply file_tiles_D, file_holds_D. exact H. Qed.
Lemma file_holds_tiles L fl bo (X : Z → hPropI) W :
  file_holds (λ m, la_R L fl bo m ∗ X m)%I W → tiles la_start L (w_size W).
Proof. exact (file_tiles_S false L fl bo X W). Qed.

(** Deaths *)
Lemma dies_by_lock_inv {A} R Rc W i pr (p : prog A) :
  file_holds R W → world_ok W → w_procs W !! i = Some pr →
  (∀ e, pool_inv (Cfg (p_max pr) (w_lim W)) (w_size W) e ∗ R (w_size W) ⊢
     crash (∃ m e, pool_inv (Cfg (p_max pr) (w_lim W)) m e ∗ Rc m) p) →
  ∀ W', dies_in W i (sa_lock ;; p)%prog W' →
    (file_holds R W' ∨ file_holds Rc W') ∧ world_ok W' ∧ w_lim W' = w_lim W ∧
    w_procs W' = delete i (w_procs W).
Proof.
  intros HR Hok Hi Hwp. pose proof (Hok i pr Hi) as Hpr.
  destruct (run_lock R W pr HR Hpr) as [e' Hlock].
  pose proof (file_holds_facts R W HR) as (Hs & Hle & Hb).
  set (s1 := mk_pst (w_mem W) (w_fsize W) (w_size W) e' (p_max pr) (w_lim W)) in *.
  assert (holds (pool_inv (Cfg (p_max pr) (w_lim W)) (w_size W) e' ∗ R (w_size W)) s1) as Hs1.
  { apply file_holds_view; [done|]. apply Hpr. }
  eapply (holds_mono _ _ _ (Hwp e')) in Hs1. apply wpc_adequacy in Hs1 as [_ Hcr].
  intros W' (pr' & s & Hi' & Hc & ->). simplify_eq.
  split_and!; [|intros j q; simpl; rewrite lookup_delete_Some; intros [_ Hj]; by eapply Hok|done|done].
  apply crash_bind in Hc as [Hc|([] & s2 & Hr & Hc)].
  - left. apply (crash_lock R) in Hc as [Hm Hf]; [|done|done].
    destruct HR as [m HR]. exists m. unfold base_view, die in *; simpl. by rewrite Hm Hf.
  - right. rewrite Hlock in Hr. injection Hr as <-. apply Hcr in Hc.
    apply holds_exist in Hc as [m Hc]. apply holds_exist in Hc as [e Hc].
    eapply (file_holds_leave Rc (Cfg (p_max pr) (w_lim W)) m e W i s eq_refl) in Hc as (Hfh & _).
    destruct Hfh as [m' Hfh]. exists m'. exact Hfh.
Qed.
Lemma la_dies {A} d F L fl bo X Rc W i (op : prog A) :
  file_holds (λ m, la_St d L fl bo m ∗ X)%I W → world_ok W →
  2 ^ 28 <= Z.of_nat F → w_size W < 2 ^ 32 →
  (∀ m, la_D L bo m ∗ X ⊢ Rc m) →
  (∀ fl c e, pool_inv c (w_size W) e -∗ la_R L fl bo (w_size W) -∗ X -∗ crash (pool_inv c (w_size W) e ∗ Rc (w_size W)) op) →
  ∀ W', dies_in W i (under_lock d (la_repair F) op) W' →
    file_holds Rc W' ∧ world_ok W' ∧ w_lim W' = w_lim W ∧ w_size W' = w_size W.
Proof.
  intros HR Hok HF H32 HRc Hop W' Hdie. pose proof Hdie as (pr & ? & Hi & _ & _). unfold under_lock in Hdie.
  apply file_holds_at in HR. cbv beta in HR.
  pose proof (λ H, dies_by_lock_inv _ (λ m, ⌜m = w_size W⌝ ∗ Rc m)%I W i pr _ HR Hok Hi H W' Hdie) as HH. feed specialize HH.
  { intros e. iIntros "(P & _ & HR & X)". destruct d.
    - iApply crash_seq. iSplit.
      + iDestruct (crash_la_repair F with "P HR") as "H"; [done|done|]. iApply (crash_weaken with "H"). iIntros "[P HR]".
        iExists _, _. iFrame "P". iSplit; [done|]. iApply HRc. iFrame.
      + iApply bind_ret_r. iApply (wp_la_repair_D with "P HR"); [done|done|]. iIntros (fl') "P HR". iApply wp_ret.
        iDestruct (Hop with "P HR X") as "H". iApply (crash_weaken with "H"). iIntros "[P HR]". iExists _, _. iFrame "P HR". done.
    - wpn. iDestruct (Hop with "P HR X") as "H". iApply (crash_weaken with "H"). iIntros "[P HR]". iExists _, _. iFrame "P HR". done. }
  destruct HH as (HH & Hok' & Hlim' & _).
  assert (file_holds (λ m, ⌜m = w_size W⌝ ∗ Rc m)%I W') as H2.
  { destruct HH as [HH|HH]; [|exact HH]. eapply file_holds_mono; [|exact HH]. intros m. iIntros "(-> & HR & X)". iSplit; [done|].
    iApply HRc. iFrame "X". iApply (la_St_D with "HR"). }
  apply file_holds_pure_m in H2 as [Hm H2]. done.
Qed.
Lemma step_lalloc W d L fl bo F i pr n :
  file_holds (λ m, la_St d L fl bo m ∗ raws (shift8 (used L)))%I W → world_ok W → w_procs W !! i = Some pr →
  2 ^ 28 <= Z.of_nat F → (d = true → w_size W < 2 ^ 32) → w_lim W <= 2 ^ 56 → w_size W <= 2 ^ 56 → 1 <= n <= 4088 →
  match run_by W i (under_lock d (la_repair F) (la_allocate n)) with
  | WDone o W' =>
      ∃ k L1 L2 fl', used (L1 ++ L2) = used L ∧ (merged L → merged (L1 ++ (o - 8, k, Some n) :: L2)) ∧
        (w_size W' = w_size W ∨ (w_size W' = w_size W + 4096 ∧ grow_allowed (Cfg (p_max pr) (w_lim W)) (w_size W') ∧
           ∀ o' k', (o', k', None) ∈ L → k' < k)) ∧
        file_holds (λ m, la_R (L1 ++ (o - 8, k, Some n) :: L2) fl' bo m ∗ conts (gW W) (shift8 (used L)) ∗ raw o (o + n))%I W' ∧
        same_env W i pr W'
  | WExn e W' =>
      e = RuntimeError ∧ ¬ grow_allowed (Cfg (p_max pr) (w_lim W)) (w_size W + 4096) ∧
      (∀ o' k', (o', k', None) ∈ L → (2 ^ k' < n + 8)%Z) ∧ w_size W' = w_size W ∧
      (∃ fl', file_holds (λ m, la_R L fl' bo m ∗ conts (gW W) (shift8 (used L)))%I W') ∧ same_env W i pr W'
  | WBad | WNoProc => False
  end.
Proof.
  intros HR Hok Hi HF Hd Hlim Hsz Hn. apply file_holds_raws in HR.
  set (R' := λ (o m : Z), (∃ k L1 L2 fl', ⌜used (L1 ++ L2) = used L ∧ (merged L → merged (L1 ++ (o - 8, k, Some n) :: L2)) ∧
        (m = w_size W ∨ (m = (w_size W + 4096)%Z ∧ grow_allowed (Cfg (p_max pr) (w_lim W)) m ∧
           ∀ o' k', (o', k', None) ∈ L → k' < k))⌝ ∗ la_R (L1 ++ (o - 8, k, Some n) :: L2) fl' bo m ∗ conts (gW W) (shift8 (used L)) ∗ raw o (o + n))%I).
  set (Rx := λ (x : exn) (m : Z), (∃ fl', ⌜x = RuntimeError ∧ ¬ grow_allowed (Cfg (p_max pr) (w_lim W)) (w_size W + 4096) ∧
     (∀ o' k', (o', k', None) ∈ L → (2 ^ k' < n + 8)%Z) ∧ m = w_size W⌝ ∗ la_R L fl' bo m ∗ conts (gW W) (shift8 (used L)))%I).
  pose proof (la_locked d F L fl bo _ R' Rx W i pr (la_allocate n) HR Hok Hi HF Hd) as H. feed specialize H.
  { intros fl1 e. iIntros "P HR X". iApply (wp_la_allocate with "P HR"); [done|done|done|]. iSplit.
    - iIntros (o k L1 L2 fl' m' e' (HU & Hme & He & Hm')) "P HR U". iExists m', e'. iFrame "P".
      iExists k, L1, L2, fl'. replace (o + 8 - 8) with o by lia. iFrame. done.
    - iIntros ([Hg Hno]) "P HR". iExists _, _. iFrame "P". iExists fl1. iFrame. done. }
  destruct (run_by _ _ _) as [o W'|x W'| |]; try done.
  - destruct H as [H Henv]. apply file_holds_at in H. unfold R' in H.
    assert (file_holds (λ m, ∃ k L1 L2 fl', ⌜used (L1 ++ L2) = used L ∧ (merged L → merged (L1 ++ (o - 8, k, Some n) :: L2)) ∧
        (w_size W' = w_size W ∨ (w_size W' = (w_size W + 4096)%Z ∧ grow_allowed (Cfg (p_max pr) (w_lim W)) (w_size W') ∧
           ∀ o' k', (o', k', None) ∈ L → k' < k))⌝ ∗ la_R (L1 ++ (o - 8, k, Some n) :: L2) fl' bo m ∗ conts (gW W) (shift8 (used L)) ∗ raw o (o + n))%I W') as H2.
    { eapply file_holds_mono; [|exact H]. intros m. iIntros "[-> $]". }
    apply file_holds_exist in H2 as [k H2]. apply file_holds_exist in H2 as [L1 H2]. apply file_holds_exist in H2 as [L2 H2].
    apply file_holds_exist in H2 as [fl' H2]. apply file_holds_pure in H2 as [(HU & Hme & Hm') H2].
    exists k, L1, L2, fl'. done.
  - destruct H as [H Henv]. apply file_holds_exist in H as [fl' H].
    apply (file_holds_pure_m (λ m, x = RuntimeError ∧ ¬ grow_allowed (Cfg (p_max pr) (w_lim W)) (w_size W + 4096) ∧
     (∀ o' k', (o', k', None) ∈ L → (2 ^ k' < n + 8)%Z) ∧ m = w_size W)) in H as [(-> & Hg & Hno & Hm) H].
    split; [done|]. split; [done|]. split; [done|]. split; [done|]. split; [by exists fl'|done].
Qed.

Lemma step_lfree W d L1 o k n L2 fl bo F i pr :
  let L := L1 ++ (o - 8, k, Some n) :: L2 in
  file_holds (λ m, la_St d L fl bo m ∗ raws (shift8 (used L)))%I W → world_ok W → w_procs W !! i = Some pr →
  2 ^ 28 <= Z.of_nat F → (d = true → w_size W < 2 ^ 32) → w_size W <= 2 ^ 56 →
  match run_by W i (under_lock d (la_repair F) (la_free o)) with
  | WDone _ W' =>
      ∃ L' fl', used L' = used (L1 ++ L2) ∧ (merged L → merged L') ∧ fb_allocated (w_word W' (o - 8)) = false ∧ w_size W' = w_size W ∧
        file_holds (λ m, la_R L' fl' bo m ∗ conts (gW W) (shift8 (used L')))%I W' ∧ same_env W i pr W'
  | WExn _ _ | WBad | WNoProc => False
  end.
Proof.
  intros L HR Hok Hi HF Hd Hsz. apply file_holds_raws in HR as HR'. pose proof (file_tiles_S _ _ _ _ _ _ HR) as Ht.
  assert (1 <= n) as Hn. { apply tiles_mid in Ht as (_ & (_ & _ & ? & _) & _). done. }
  set (R' := λ (_ : unit) (m : Z), (∃ L' fl' w, ⌜used L' = used (L1 ++ L2) ∧ (merged L → merged L') ∧ fb_allocated w = false ∧ m = w_size W⌝ ∗
    (word (o - 8) w ∗ (word (o - 8) w -∗ la_R L' fl' bo m) ∗ conts (gW W) (shift8 (used L'))))%I).
  pose proof (la_locked d F L fl bo _ R' (λ _ _, False)%I W i pr (la_free o) HR' Hok Hi HF Hd) as H. feed specialize H.
  { intros fl1 e. iIntros "P HR X". rewrite (conts_perm _ _ _ (shift8_mid L1 (o - 8) k n L2)).
    replace (o - 8 + 8) with o by lia. unfold conts. rewrite big_sepL_cons. cbn [fst snd]. iDestruct "X" as "[Xo X]".
    iAssert (wp (la_free (o - 8 + 8)) (λ a, ∃ m' e', pool_inv (Cfg (p_max pr) (w_lim W)) m' e' ∗ R' a m')
         (λ x, ∃ m' e', pool_inv (Cfg (p_max pr) (w_lim W)) m' e' ∗ False))%I with "[-]" as "H"; [|by replace (o - 8 + 8) with o by lia].
    iApply (wp_la_free with "P HR [Xo]"); [done| |].
    { replace (o - 8 + 8) with o by lia. iApply (pts_raw with "Xo"). rewrite (gW_length W (o, n)); [done|]. cbn [fst snd]. lia. }
    iIntros (L' fl' w (HU & Hme & Hw)) "P Hw HR". iExists _, _. iFrame "P". iExists L', fl', w. iFrame "Hw HR".
    rewrite HU. iFrame "X". done. }
  destruct (run_by _ _ _) as [u W'|x W'| |]; try done.
  - destruct H as [H Henv]. apply file_holds_exist in H as [L' H]. apply file_holds_exist in H as [fl' H]. apply file_holds_exist in H as [w H].
    apply (file_holds_pure_m (λ m, used L' = used (L1 ++ L2) ∧ (merged L → merged L') ∧ fb_allocated w = false ∧ m = w_size W)) in H as [(HU & Hme & Hw & Hm) H].
    pose proof (file_holds_word _ _ _ _ H) as [Hww _]. exists L', fl'. rewrite Hww. split; [done|]. split; [done|]. split; [done|]. split; [done|]. split; [|done].
    eapply file_holds_mono; [|exact H]. intros m. iIntros "(Hw & HR & $)". by iApply "HR".
  - destruct H as [H _]. by apply file_holds_false in H.
Qed.

Lemma step_lwrite W d L fl bo F i pr o n B k bs :
  shift8 (used L) ≡ₚ (o, n) :: B →
  file_holds (λ m, la_St d L fl bo m ∗ raws (shift8 (used L)))%I W → world_ok W → w_procs W !! i = Some pr →
  2 ^ 28 <= Z.of_nat F → (d = true → w_size W < 2 ^ 32) →
  0 <= k → k + Z.of_nat (length bs) <= n → bytes_ok bs →
  match run_by W i (under_lock d (la_repair F) (store_bytes (o + k) bs)) with
  | WDone _ W' =>
      ∃ fl', same_env W i pr W' ∧ w_size W' = w_size W ∧
      file_holds (λ m, la_R L fl' bo m ∗ conts (gW W) B ∗ pts o (splice (gW W (o, n)) (Z.to_nat k) bs))%I W'
  | WExn _ _ | WBad | WNoProc => False
  end.
Proof.
  intros HB HR Hok Hi HF Hd Hk Hkn Hbs. apply file_holds_raws in HR.
  pose proof (gW_length W (o, n) ltac:(cbn [snd]; lia)) as Hlen. cbn [snd] in Hlen.
  pose proof (la_locked d F L fl bo _ (λ (_ : unit) m, ∃ fl', ⌜m = w_size W⌝ ∗ la_R L fl' bo m ∗ conts (gW W) B ∗
        pts o (splice (gW W (o, n)) (Z.to_nat k) bs))%I (λ _ _, False)%I W i pr (store_bytes (o + k) bs) HR Hok Hi HF Hd) as H. feed specialize H.
  { intros fl1 e. iIntros "P HR X". rewrite (conts_perm _ _ _ HB). unfold conts. rewrite big_sepL_cons. cbn [fst snd]. iDestruct "X" as "[Xo X]".
    set (old := gW W (o, n)) in *.
    assert (old = take (Z.to_nat k) old ++ take (length bs) (drop (Z.to_nat k) old) ++
               drop (Z.to_nat k + length bs) old) as Hsp.
    { rewrite -drop_drop take_drop take_drop //. }
    rewrite {1}Hsp. rewrite pts_app pts_app. iDestruct "Xo" as "(H1 & H2 & H3)".
    rewrite take_length Nat.min_l; [|lia].
    replace (o + Z.of_nat (Z.to_nat k)) with (o + k) by lia.
    rewrite take_length drop_length Nat.min_l; [|lia].
    iApply (wp_store_bytes with "H2"); [rewrite take_length drop_length; lia|done|].
    iIntros "H2". iExists _, _. iFrame "P". iExists fl1. iFrame "HR X". iSplit; [done|].
    unfold splice. rewrite pts_app pts_app. rewrite take_length Nat.min_l; [|lia].
    replace (o + Z.of_nat (Z.to_nat k)) with (o + k) by lia. iFrame. }
  destruct (run_by _ _ _) as [u W'|x W'| |]; try done.
  - destruct H as [H Henv]. apply file_holds_exist in H as [fl' H]. apply file_holds_pure_m in H as [Hm H]. by exists fl'.
  - destruct H as [H _]. by apply file_holds_false in H.
Qed.

Lemma step_lbase W d L fl bo F i pr v :
  file_holds (λ m, la_St d L fl bo m ∗ raws (shift8 (used L)))%I W → world_ok W → w_procs W !! i = Some pr →
  2 ^ 28 <= Z.of_nat F → (d = true → w_size W < 2 ^ 32) → is_u64 v →
  match run_by W i (under_lock d (la_repair F) (la_set_base v)) with
  | WDone _ W' =>
      ∃ fl', same_env W i pr W' ∧ w_size W' = w_size W ∧
      file_holds (λ m, la_R L fl' v m ∗ conts (gW W) (shift8 (used L)))%I W'
  | WExn _ _ | WBad | WNoProc => False
  end.
Proof.
  intros HR Hok Hi HF Hd Hv. apply file_holds_raws in HR.
  pose proof (la_locked d F L fl bo _ (λ (_ : unit) m, ∃ fl', ⌜m = w_size W⌝ ∗ la_R L fl' v m ∗ conts (gW W) (shift8 (used L)))%I
    (λ _ _, False)%I W i pr (la_set_base v) HR Hok Hi HF Hd) as H. feed specialize H.
  { intros fl1 e. iIntros "P ((Ri & Rb & Ra & Rc) & HR) X". iApply bind_ret_r. iApply (wp_store64 with "Rb"); [done|]. iIntros "Rb".
    iApply wp_ret. iExists _, _. iFrame "P". iExists fl1. iFrame. done. }
  destruct (run_by _ _ _) as [u W'|x W'| |]; try done.
  - destruct H as [H Henv]. apply file_holds_exist in H as [fl' H]. apply file_holds_pure_m in H as [Hm H]. by exists fl'.
  - destruct H as [H _]. by apply file_holds_false in H.
Qed.
Lemma step_lnothing W d L fl bo F i pr :
  file_holds (λ m, la_St d L fl bo m ∗ raws (shift8 (used L)))%I W → world_ok W → w_procs W !! i = Some pr →
  2 ^ 28 <= Z.of_nat F → (d = true → w_size W < 2 ^ 32) →
  match run_by W i (under_lock d (la_repair F) (Ret tt)) with
  | WDone _ W' =>
      ∃ fl', same_env W i pr W' ∧ w_size W' = w_size W ∧
      file_holds (λ m, la_R L fl' bo m ∗ conts (gW W) (shift8 (used L)))%I W'
  | WExn _ _ | WBad | WNoProc => False
  end.
Proof.
  intros HR Hok Hi HF Hd. apply file_holds_raws in HR.
  pose proof (la_locked d F L fl bo _ (λ (_ : unit) m, ∃ fl', ⌜m = w_size W⌝ ∗ la_R L fl' bo m ∗ conts (gW W) (shift8 (used L)))%I
    (λ _ _, False)%I W i pr (Ret tt) HR Hok Hi HF Hd) as H. feed specialize H.
  { intros fl1 e. iIntros "P HR X". iApply wp_ret. iExists _, _. iFrame "P". iExists fl1. by iFrame. }
  destruct (run_by _ _ _) as [u W'|x W'| |]; try done.
  - destruct H as [H Henv]. apply file_holds_exist in H as [fl' H]. apply file_holds_pure_m in H as [Hm H]. by exists fl'.
  - destruct H as [H _]. by apply file_holds_false in H.
Qed.

Lemma file_holds_or (R1 R2 : Z → hPropI) W : file_holds (λ m, R1 m ∨ R2 m)%I W → file_holds R1 W ∨ file_holds R2 W.
Proof.
  intros H. assert (file_holds (λ m, ∃ b : bool, if b then R1 m else R2 m)%I W) as H2.
  { eapply file_holds_mono; [|exact H]. intros m. iIntros "[H|H]"; [by iExists true|by iExists false]. }
  apply file_holds_exist in H2 as [[] H2]; [by left|by right].
Qed.
Lemma step_ldiefree W d L1 o k n L2 fl bo F i W' :
  let L := L1 ++ (o - 8, k, Some n) :: L2 in
  file_holds (λ m, la_St d L fl bo m ∗ raws (shift8 (used L)))%I W → world_ok W →
  2 ^ 28 <= Z.of_nat F → w_size W < 2 ^ 32 →
  dies_in W i (under_lock d (la_repair F) (la_free o)) W' →
  world_ok W' ∧ w_lim W' = w_lim W ∧ w_size W' = w_size W ∧
  (file_holds (λ m, la_D L bo m ∗ conts (gW W) (shift8 (used L)))%I W' ∨
   ∃ L', used L' = used (L1 ++ L2) ∧ file_holds (λ m, la_D L' bo m ∗ conts (gW W) (shift8 (used L')))%I W').
Proof.
  intros L HR Hok HF H32 Hdie. apply file_holds_raws in HR as HR'. pose proof (file_tiles_S _ _ _ _ _ _ HR) as Ht.
  assert (1 <= n) as Hn. { apply tiles_mid in Ht as (_ & (_ & _ & ? & _) & _). done. }
  set (Rc := λ m : Z, ((la_D L bo m ∗ conts (gW W) (shift8 (used L))) ∨
    ∃ L', ⌜used L' = used (L1 ++ L2)⌝ ∗ la_D L' bo m ∗ conts (gW W) (shift8 (used L')))%I).
  destruct (fun Ha Hb => la_dies d F L fl bo _ Rc W i (la_free o) HR' Hok HF H32 Ha Hb W' Hdie) as (H & Hok' & Hlim' & Hw').
  - intros m. iIntros "H". iLeft. iExact "H".
  - intros fl1 c e. iIntros "P HR X". rewrite {1}/L. rewrite (conts_perm _ _ _ (shift8_mid L1 (o - 8) k n L2)).
    unfold conts. rewrite big_sepL_cons. cbn [fst snd]. iDestruct "X" as "[Xo X]".
    iDestruct (crash_la_free (pts (o - 8 + 8) (gW W (o - 8 + 8, n)))
      (pool_inv c (w_size W) e ∗ ((la_D L bo (w_size W) ∗ pts (o - 8 + 8) (gW W (o - 8 + 8, n))) ∨
         ∃ L', ⌜used L' = used (L1 ++ L2)⌝ ∗ la_D L' bo (w_size W)))%I with "P HR Xo") as "H".
    + lia.
    + apply pts_raw. rewrite gW_length; [|cbn [snd]; lia]. cbn [snd]. lia.
    + iIntros "($ & HD & X)". iLeft. iFrame.
    + intros L' HL'. iIntros "[$ H]". iRight. iExists L'. by iFrame.
    + replace (o - 8 + 8) with o by lia. iApply (crash_weaken with "H"). iIntros "[$ [[HD Xo]|(%L' & %HL' & HD)]]".
      * iLeft. iFrame "HD". iApply (conts_perm (gW W) ((o, n) :: shift8 (used (L1 ++ L2)))).
        { rewrite (shift8_mid L1 (o - 8) k n L2). by replace (o - 8 + 8) with o by lia. }
        unfold conts. rewrite big_sepL_cons. iFrame.
      * iRight. iExists L'. iSplit; [done|]. iFrame "HD". by rewrite HL'.
  - split; [done|]. split; [done|]. split; [done|]. apply file_holds_or in H as [H|H]; [by left|right].
    apply file_holds_exist in H as [L' H]. apply file_holds_pure in H as [HL' H]. by exists L'.
Qed.
Lemma step_ldiebase W d L fl bo F i v W' :
  file_holds (λ m, la_St d L fl bo m ∗ raws (shift8 (used L)))%I W → world_ok W →
  2 ^ 28 <= Z.of_nat F → w_size W < 2 ^ 32 → is_u64 v →
  dies_in W i (under_lock d (la_repair F) (la_set_base v)) W' →
  world_ok W' ∧ w_lim W' = w_lim W ∧ w_size W' = w_size W ∧
  (file_holds (λ m, la_D L bo m ∗ conts (gW W) (shift8 (used L)))%I W' ∨
   file_holds (λ m, la_D L v m ∗ conts (gW W) (shift8 (used L)))%I W').
Proof.
  intros HR Hok HF H32 Hv Hdie. apply file_holds_raws in HR as HR'.
  destruct (fun Ha Hb => la_dies d F L fl bo _ (λ m, (la_D L bo m ∗ conts (gW W) (shift8 (used L))) ∨ (la_D L v m ∗ conts (gW W) (shift8 (used L))))%I
    W i (la_set_base v) HR' Hok HF H32 Ha Hb W' Hdie) as (H & Hok' & Hlim' & Hw').
  - intros m. iIntros "H". by iLeft.
  - intros fl1 c e. iIntros "P (R & HR) X". iDestruct "R" as "(Ri & Rb & Ra & Rc)". iApply bind_ret_r. iApply wpc_store64; [done|]. iSplit.
    + iFrame "P". iLeft. iFrame "X". iApply (la_R_D _ fl1). iFrame.
    + iFrame "Rb". iIntros "Rb". iApply crash_ret. iFrame "P". iRight. iFrame "X". iApply (la_R_D _ fl1). iFrame.
  - split; [done|]. split; [done|]. split; [done|]. by apply file_holds_or in H.
Qed.
Lemma step_ldielocked W d L fl bo F i W' :
  file_holds (λ m, la_St d L fl bo m ∗ raws (shift8 (used L)))%I W → world_ok W →
  2 ^ 28 <= Z.of_nat F → w_size W < 2 ^ 32 →
  dies_in W i (under_lock d (la_repair F) (Ret tt)) W' →
  world_ok W' ∧ w_lim W' = w_lim W ∧ w_size W' = w_size W ∧
  file_holds (λ m, la_D L bo m ∗ conts (gW W) (shift8 (used L)))%I W'.
Proof.
  intros HR Hok HF H32 Hdie. apply file_holds_raws in HR as HR'.
  destruct (fun Ha Hb => la_dies d F L fl bo _ (λ m, la_D L bo m ∗ conts (gW W) (shift8 (used L)))%I
    W i (Ret tt) HR' Hok HF H32 Ha Hb W' Hdie) as (H & Hok' & Hlim' & Hw'); [done| |done].
  intros fl1 c e. iIntros "P HR X". iApply crash_ret. iFrame "P X". by iApply la_R_D.
Qed.
Lemma step_ldiewrite W d L fl bo F i o n B k bs W' :
  shift8 (used L) ≡ₚ (o, n) :: B →
  file_holds (λ m, la_St d L fl bo m ∗ raws (shift8 (used L)))%I W → world_ok W →
  2 ^ 28 <= Z.of_nat F → w_size W < 2 ^ 32 →
  0 <= k → k + Z.of_nat (length bs) <= n → bytes_ok bs →
  dies_in W i (under_lock d (la_repair F) (store_bytes (o + k) bs)) W' →
  world_ok W' ∧ w_lim W' = w_lim W ∧ w_size W' = w_size W ∧
  ∃ j, (j <= length bs)%nat ∧ file_holds (λ m, la_D L bo m ∗ conts (gW W) B ∗ pts o (splice (gW W (o, n)) (Z.to_nat k) (take j bs)))%I W'.
Proof.
  intros HB HR Hok HF H32 Hk Hkn Hbs Hdie. apply file_holds_raws in HR as HR'.
  pose proof (gW_length W (o, n) ltac:(cbn [snd]; lia)) as Hlen. cbn [snd] in Hlen.
  set (old := gW W (o, n)) in *.
  assert (∀ j : nat, (j <= length bs)%nat → splice old (Z.to_nat k) (take j bs) = take (Z.to_nat k) old ++ (take j bs ++ drop j (take (length bs) (drop (Z.to_nat k) old))) ++
               drop (Z.to_nat k + length bs) old) as Hsp.
  { intros j Hj. unfold splice. rewrite (take_length_le bs j) //. f_equal. rewrite -app_assoc. f_equal.
    rewrite -(drop_drop old) -(drop_drop old). rewrite -{1}(take_drop (length bs) (drop (Z.to_nat k) old)).
    rewrite drop_app_le //. rewrite take_length drop_length. lia. }
  assert (old = splice old (Z.to_nat k) (take 0 bs)) as Hsp0.
  { unfold splice. cbn [take app length]. rewrite Nat.add_0_r take_drop //. }
  destruct (fun Ha Hb => la_dies d F L fl bo _ (λ m, ∃ j : nat, ⌜(j <= length bs)%nat⌝ ∗ la_D L bo m ∗ conts (gW W) B ∗ pts o (splice old (Z.to_nat k) (take j bs)))%I
    W i (store_bytes (o + k) bs) HR' Hok HF H32 Ha Hb W' Hdie) as (H & Hok' & Hlim' & Hw').
  - intros m. iIntros "[HD X]". iExists 0%nat. iFrame "HD". rewrite (conts_perm _ _ _ HB). unfold conts. rewrite big_sepL_cons. cbn [fst snd].
    iDestruct "X" as "[Xo $]". fold old. rewrite -Hsp0. iFrame. iPureIntro. lia.
  - intros fl1 c e. iIntros "P HR X". rewrite (conts_perm _ _ _ HB). unfold conts. rewrite big_sepL_cons. cbn [fst snd].
    iDestruct "X" as "[Xo X]". fold old. rewrite {1}Hsp0 (Hsp 0%nat); [|lia]. change (take 0 bs ++ drop 0 (take (length bs) (drop (Z.to_nat k) old))) with (take (length bs) (drop (Z.to_nat k) old)). rewrite pts_app pts_app. iDestruct "Xo" as "(H1 & H2 & H3)".
    rewrite (take_length_le old); [|lia]. rewrite (take_length_le (drop (Z.to_nat k) old)); [|rewrite drop_length; lia].
    replace (o + Z.of_nat (Z.to_nat k)) with (o + k) by lia.
    iDestruct (crash_store_bytes bs with "H2") as "H"; [rewrite take_length drop_length; lia|done|].
    iApply (crash_weaken with "H"). iIntros "(%j & %Hj & H2)". iFrame "P". iExists j. iSplit; [done|].
    iSplitL "HR"; [by iApply la_R_D|]. iFrame "X". iEval (rewrite Hsp //). iApply pts_app. iSplitL "H1"; [iExact "H1"|]. rewrite (take_length_le old); [|lia].
    iEval (replace (o + Z.of_nat (Z.to_nat k)) with (o + k) by lia). iApply pts_app. iFrame "H2".
    replace (length (take j bs ++ drop j (take (length bs) (drop (Z.to_nat k) old)))) with (length bs); [done|].
    rewrite app_length drop_length !take_length drop_length. lia.
  - split; [done|]. split; [done|]. split; [done|]. apply file_holds_exist in H as [j H]. apply file_holds_pure in H as [Hj H]. by exists j.
Qed.

(** ** Reading the blocks from the file *)
Definition hdr (t : tile) (w : Z) : Prop :=
  match t.2 with Some n => w = 2 ^ 63 + n | None => ∃ p, 0 <= p < 2 ^ 57 ∧ w = t.1.2 * 2 ^ 57 + p end.
Definition len_of (t : tile) : Z * Z * option Z := (t.1.1, 2 ^ t.1.2, t.2).

Lemma la_D_header L bo m t : t ∈ L → la_D L bo m ⊢ ∃ w, ⌜hdr t w⌝ ∗ word t.1.1 w ∗ True.
Proof.
  iIntros (Hin) "(_ & (_ & _ & _ & T) & %Ht)".
  apply elem_of_list_lookup in Hin as [j Hin]. rewrite (big_sepL_lookup _ L); [|exact Hin].
  destruct t as [[o k] [n|]]; unfold stale; cbn [fst snd] in *.
  - iDestruct "T" as "[T _]". iExists _. iFrame. done.
  - iDestruct "T" as "[(%p & %v & [%Hp _] & Hw & _) _]". iExists _. iFrame "Hw". iPureIntro. by exists p.
Qed.
Lemma file_header L bo (X : Z → hPropI) W t :
  file_holds (λ m, la_D L bo m ∗ X m)%I W → t ∈ L → hdr t (w_word W t.1.1).
Proof.
  intros H Hin. assert (file_holds (λ m, ∃ w, ⌜hdr t w⌝ ∗ word t.1.1 w ∗ True)%I W) as H2.
  { eapply file_holds_mono; [|exact H]. intros m. iIntros "[H _]". by iApply (la_D_header with "H"). }
  apply file_holds_exist in H2 as [w H2]. apply file_holds_pure in H2 as [Hw H2]. apply file_holds_word in H2 as [H2 _]. by rewrite H2.
Qed.
Lemma hdr_says W o k a : tile_ok (o, k, a) → hdr (o, k, a) (w_word W o) → header_says W o (2 ^ k) a.
Proof.
  intros (Hk & _ & Ha). unfold hdr, header_says. cbn [fst snd]. destruct a as [n|].
  - intros ->. split; [done|]. destruct Ha as (_ & _ & Hn). rewrite (tile_len k n); [done|lia|done].
  - intros (p & Hp & ->). split; [lia|]. f_equal. rewrite Z.add_comm Z.div_add // Z.div_small //.
Qed.
Lemma tiles_blocks W L : ∀ s e, tiles s L e → (∀ t, t ∈ L → hdr t (w_word W t.1.1)) → blocks_from W s (len_of <$> L) e.
Proof.
  induction L as [|[[o k] a] L IH]; intros s e Ht Hh; [done|]. destruct Ht as (Ho & Hok & Ht). cbn [fst snd] in *. subst o.
  cbn [fmap list_fmap blocks_from len_of fst snd]. split; [done|]. split; [exact (tile_pos _ Hok)|]. split.
  - apply hdr_says; [done|]. exact (Hh (s, k, a) ltac:(by left)).
  - apply IH; [done|]. intros t Hin. apply Hh. by right.
Qed.
Lemma file_blocks d L fl bo (X : Z → hPropI) W :
  file_holds (λ m, la_St d L fl bo m ∗ X m)%I W → pool_blocks W (len_of <$> L).
Proof.
  intros H. apply file_holds_D in H. pose proof (file_tiles_D _ _ _ _ H) as Ht. apply tiles_blocks; [done|]. intros t Hin. by eapply file_header.
Qed.
Lemma len_of_in L s e o k a : tiles s L e → 4 <= k → (o, 2 ^ k, a) ∈ len_of <$> L ↔ (o, k, a) ∈ L.
Proof.
  intros Ht Hk. rewrite elem_of_list_fmap. split.
  - intros ([[o' k'] a'] & [= -> E ->] & Hin). cbn [fst snd] in E.
    pose proof (tiles_in _ _ _ _ Ht Hin) as ((Hk' & _) & _).
    apply Z.pow_inj_r in E; [|lia|lia|lia]. by subst.
  - intros Hin. eexists. split; [|exact Hin]. done.
Qed.

(** Free lists *)
Lemma hd0_head l : hd0 l 0 = default 0 (head l).
Proof. by destruct l. Qed.
Lemma last0_last l : ∀ p, last0 p l = default p (last l).
Proof.
  induction l as [|o l IH]; intros p; [done|]. cbn [last0]. rewrite IH (last_cons o l). by destruct (last l).
Qed.
Lemma flist_index l j o l1 l2 : l = l1 ++ o :: l2 → j = length l1 →
  last0 0 l1 = match j with O => 0 | Datatypes.S j' => default 0 (l !! j') end ∧ hd0 l2 0 = default 0 (l !! Datatypes.S j).
Proof.
  intros -> ->. split.
  - destruct l1 as [|x l1 _] using rev_ind; [done|]. rewrite last0_last last_snoc app_length /=.
    rewrite Nat.add_comm /=. rewrite -app_assoc lookup_app_r; [|lia]. by rewrite Nat.sub_diag.
  - rewrite lookup_app_r; [|lia]. replace (Datatypes.S (length l1) - length l1)%nat with 1%nat by lia. by destruct l2.
Qed.
Lemma file_free_list L fl bo (X : Z → hPropI) W k : 4 <= k <= 57 →
  file_holds (λ m, la_R L fl bo m ∗ X m)%I W → free_list W k (fl k).
Proof.
  intros Hk H. assert (file_holds (λ m, flist k (fl k) ∗ True)%I W) as H2.
  { eapply file_holds_mono; [|exact H]. intros m. iIntros "[(_ & FL & _) _]".
    iDestruct (flists_acc_ro _ k with "FL") as "[$ _]". lia. }
  clear H. split; [|split].
  - rewrite -hd0_head. change (304 + 8 * (k - 4)) with (la_head k).
    eapply (file_holds_word (λ _, True)%I). eapply file_holds_mono; [|exact H2]. intros m. iIntros "[($ & _) _]".
  - rewrite -last0_last. change (736 + 8 * (k - 4)) with (la_tail k).
    eapply (file_holds_word (λ _, True)%I). eapply file_holds_mono; [|exact H2]. intros m. iIntros "[(_ & $ & _) _]".
  - intros j o Hj. assert (∃ l1 l2, fl k = l1 ++ o :: l2 ∧ j = length l1) as (l1 & l2 & El & Ej).
    { exists (take j (fl k)), (drop (Datatypes.S j) (fl k)). rewrite take_drop_middle //. split; [done|].
      rewrite take_length Nat.min_l //. apply lookup_lt_Some in Hj. lia. }
    destruct (flist_index _ _ _ _ _ El Ej) as [E1 E2]. rewrite -E1 -E2.
    assert (file_holds (λ m, word o (k * 2 ^ 57 + last0 0 l1) ∗ word (o + 8) (hd0 l2 0))%I W) as H3.
    { eapply file_holds_mono; [|exact H2]. intros m. iIntros "[(_ & _ & H & _) _]". rewrite El nodes_app. cbn [nodes].
      iDestruct "H" as "(_ & $ & $ & _)". }
    split.
    + eapply (file_holds_word _). exact H3.
    + eapply (file_holds_word (λ _, True)%I). eapply file_holds_mono; [|exact H3]. intros m. iIntros "[_ $]".
Qed.

Lemma LInv_partition st : LInv st → log_partition st.
Proof.
  destruct st as [W d t B bo]. intros (Hok & _ & _ & _ & L & fl & HB & Hme & HR). cbn [l_w l_b l_base l_dirty l_tidy] in *. subst B.
  pose proof (file_tiles_S _ _ _ _ _ _ HR) as Ht. exists (len_of <$> L). split; [exact (file_blocks _ _ _ _ _ _ HR)|].
  assert (∀ o len a, (o, len, a) ∈ len_of <$> L → ∃ k, len = 2 ^ k ∧ (o, k, a) ∈ L ∧ tile_ok (o, k, a)) as Hinv.
  { intros o len a ([[o' k'] a'] & [= -> -> ->] & Hin)%elem_of_list_fmap. exists k'. cbn [fst snd].
    split; [done|]. split; [done|]. by apply (tiles_in _ _ _ _ Ht Hin). }
  split; [|split; [|split]].
  - intros o n. cbn [l_b]. rewrite (bmap_lookup _ _ _ _ Ht). split.
    + intros [k Hin]. exists (2 ^ k). apply elem_of_list_fmap. exists (o - 8, k, Some n). done.
    + intros [len Hin]. apply Hinv in Hin as (k & _ & Hin & _). eauto.
  - intros o len Hin. apply Hinv in Hin as (k & -> & Hin & (Hk & _)). exists k. split; [lia|done].
  - cbn [l_dirty]. intros ->. intros k Hk. exists (fl k). split; [exact (file_free_list _ _ _ _ _ _ Hk HR)|].
    assert (fl_ok fl L) as Hfl.
    { apply file_holds_facts in HR as (_ & _ & H). eapply holds_pure. eapply holds_mono; [|exact H].
      iIntros "(_ & (_ & _ & _ & %Hx) & _)". iPureIntro. apply Hx. }
    split.
    + rewrite Hfl //. clear -Ht. revert Ht. generalize la_start (w_size W). intros s e. revert s.
      induction L as [|[[o j] a] L IH]; intros s Ht; [constructor|]. pose proof Ht as (Ho & Hok & Ht').
      specialize (IH _ Ht'). destruct (decide (j = k ∧ a = None)) as [[-> ->]|Hne].
      * rewrite free_of_cons_same. constructor; [|done]. intros Hin%free_of_in.
        pose proof (tiles_nodup _ _ _ Ht) as Hnd. by apply NoDup_cons in Hnd as [? _].
      * rewrite free_of_cons_ne; [done|]. destruct a; [by right|]. left. intros ->. by apply Hne.
    + intros o. rewrite Hfl // free_of_in. by rewrite (len_of_in _ _ _ _ _ _ Ht); [|lia].
  - cbn [l_tidy]. intros Htd o len Hlen Hin Hmod Hin'. specialize (Hme Htd). apply Hinv in Hin as (k & -> & Hin & (Hk & Hom & _)).
    rewrite (len_of_in _ _ _ _ _ _ Ht) in Hin'; [|lia].
    assert (k < 31) as Hk31. { destruct (decide (k < 31)); [done|]. assert (k = 31) as -> by lia. lia. }
    apply (Hme o k Hin Hk31). destruct (buddy_spec o k ltac:(lia) Hom) as [[_ ->]|(Hx & _)]; [done|].
    rewrite pow_succ in Hx; [|lia]. pose proof (tile_pos (o, k, None) ltac:(split; [lia|]; done)) as H16. cbn [fst snd] in H16. lia.
Qed.

(** ** The checks on states *)
Lemma LInv_inside st : LInv st → log_inside st.
Proof.
  destruct st as [W d t B bo]. intros (Hok & _ & _ & _ & L & fl & HB & Hme & HR). cbn [l_w l_b l_base l_dirty l_tidy] in *. subst B.
  pose proof (file_tiles_S _ _ _ _ _ _ HR) as Ht. split; cbn [l_b l_w].
  - intros o n. rewrite (bmap_lookup _ _ _ _ Ht). intros [k Hin]. pose proof (tiles_in _ _ _ _ Ht Hin) as (Hok' & H1 & H2). cbn [fst snd] in *.
    pose proof (tile_mod16 _ _ _ Hok') as H16. apply add8_mod16 in H16. replace (o - 8 + 8) with o in H16 by lia.
    destruct Hok' as (_ & _ & Hn & _ & Hn'). assert (la_start = 1168) as Hst by reflexivity. split_and!; try done; lia.
  - intros o n o' n'. rewrite !(bmap_lookup _ _ _ _ Ht). intros [k Hin] [k' Hin'] Hne.
    pose proof (tiles_in _ _ _ _ Ht Hin) as ((_ & _ & Hn & _ & Hn') & _). pose proof (tiles_in _ _ _ _ Ht Hin') as ((_ & _ & Hm & _ & Hm') & _).
    apply elem_of_list_split in Hin as (L1 & L2 & ->). pose proof (tiles_same _ _ _ _ _ Ht (o' - 8, k', Some n')) as Hs.
    cbn [fst snd] in Hs. destruct Hs as [Hs|Hs]; [|lia|lia].
    rewrite elem_of_app elem_of_cons in Hin'. rewrite elem_of_app. destruct Hin' as [?|[[= ? _ _]|?]]; [by left|lia|by right].
Qed.
Lemma LInv_sizes st : LInv st → log_sizes st.
Proof.
  destruct st as [W d t B bo]. intros (Hok & _ & Hsz & _ & L & fl & HB & Hme & HR). cbn [l_w l_b l_base l_dirty l_tidy] in *. subst B.
  pose proof (file_tiles_S _ _ _ _ _ _ HR) as Ht. intros Hdf i o n [pr Hi]. cbn [l_b l_w l_dirty] in *. subst d. rewrite (bmap_lookup _ _ _ _ Ht). intros [k Hin].
  pose proof (run_by_lock_wp (λ m, la_R L fl bo m ∗ raws (shift8 (used L)))%I
    (λ v m, ⌜v = n⌝ ∗ True)%I (λ _ _, False)%I W i pr (la_block_size o) HR Hok Hi) as H.
  feed specialize H.
  { intros e. iIntros "(P & HR & _)".
    iAssert (wp (la_block_size (o - 8 + 8)) (λ v, ∃ m' e', pool_inv (Cfg (p_max pr) (w_lim W)) m' e' ∗ ⌜v = n⌝ ∗ True)
         (λ x, ∃ m' e', pool_inv (Cfg (p_max pr) (w_lim W)) m' e' ∗ False))%I with "[-]" as "H"; [|by replace (o - 8 + 8) with o by lia].
    iApply (wp_la_block_size with "P HR"); [exact Hin|done|]. iIntros "P HR". iExists _, _. iFrame "P". done. }
  destruct (run_by _ _ _) as [v W'|v W'| |]; try done.
  - destruct H as [H _]. by apply file_holds_pure in H as [-> _].
  - destruct H as [H _]. by apply file_holds_false in H.
Qed.
Lemma LInv_base st : LInv st → log_base st.
Proof.
  destruct st as [W d t B bo]. intros (Hok & _ & _ & _ & L & fl & HB & Hme & HR). cbn [l_w l_b l_base l_dirty] in *. subst B.
  intros i [pr Hi]. cbn [l_w l_base] in *. unfold run_by. rewrite Hi. unfold la_get_base.
  erewrite (run_by_load64 (λ _, True)%I _ bo _ _ _ _ Hok Hi); [done|unfold sa_base; lia].
  Unshelve. apply file_holds_D in HR. eapply file_holds_mono; [|exact HR]. intros m. iIntros "(((%ba & %bc & _ & Hb & _) & _) & _)". by iFrame.
Qed.
Lemma LInv_accounting st : LInv st → log_accounting st.
Proof.
  destruct st as [W d t B bo]. intros (Hok & _ & _ & _ & L & fl & HB & Hme & HR). cbn [l_w l_b l_base l_dirty l_tidy] in *. subst B.
  pose proof (file_tiles_S _ _ _ _ _ _ HR) as Ht. destruct (bmap_sums _ _ _ Ht) as (Hs1 & Hs2).
  intros Hdf i [pr Hi]. cbn [l_w l_b l_dirty] in *. subst d. unfold run_by. rewrite Hi.
  pose proof (run_by_load64 (λ _, True)%I sa_bytes_alloc (sum_sz (used L)) W i pr) as H1.
  pose proof (run_by_load64 (λ _, True)%I sa_bytes_comm (la_start + committed L) W i pr) as H2.
  feed specialize H1; [|done|done|unfold sa_bytes_alloc; lia|].
  { eapply file_holds_mono; [|exact HR]. intros m. iIntros "(((_ & _ & Hb & _) & _) & _)". by iFrame. }
  feed specialize H2; [|done|done|unfold sa_bytes_comm; lia|].
  { eapply file_holds_mono; [|exact HR]. intros m. iIntros "(((_ & _ & _ & Hb) & _) & _)". by iFrame. }
  assert (run (load64 0) (view W pr) = Done (w_size W) (view W pr)) as H0.
  { destruct (file_holds_facts _ _ HR) as ([? _] & ? & _). destruct (Hok _ _ Hi) as [? _].
    rewrite run_load64. unfold valid. simpl mapped. simpl fsize.
    rewrite bool_decide_eq_true_2; [|lia]. done. }
  split.
  - unfold la_bytes_allocated. rewrite H1. by rewrite Hs1.
  - unfold la_bytes_free. rewrite run_bind H0 run_bind H2. simpl run.
    pose proof (used_bounds _ _ _ Ht ltac:(by unfold la_start)) as (? & ? & ?). destruct (file_holds_facts _ _ HR) as ([? _] & _).
    unfold la_start in *. rewrite u64_small; [|lia]. rewrite Hs2. lia.
Qed.

(** free of something that is not an allocated block *)
Lemma free_ignored R W i pr o :
  file_holds R W → world_ok W → w_procs W !! i = Some pr → is_u64 o →
  o < 1176 ∨ o > w_size W ∨ fb_allocated (w_word W (o - 8)) = false →
  match run_by W i (sa_lock ;; la_free o) with
  | WDone _ W' => w_mem W' = w_mem W ∧ w_fsize W' = w_fsize W
  | _ => False
  end.
Proof.
  intros HR Hok Hi Ho Hc. pose proof (file_holds_facts _ _ HR) as ([Hs _] & Hfs & _).
  unfold run_by. rewrite Hi run_bind. destruct (run_lock R W pr HR (Hok _ _ Hi)) as [e' ->].
  set (s1 := mk_pst (w_mem W) (w_fsize W) (w_size W) e' (p_max pr) (w_lim W)).
  assert (∀ a, 0 <= a → a + 8 <= w_size W → run (load64 a) s1 = Done (w_word W a) s1) as Hld.
  { intros a Ha Ha'. rewrite run_load64. unfold valid. cbn [mapped fsize s1]. rewrite bool_decide_eq_true_2; [|lia]. done. }
  Local Transparent la_free. unfold la_free. Local Opaque la_free. rewrite run_bind Hld; [|lia|lia]. cbv beta iota. change (w_word W 0) with (w_size W).
  unfold la_sizeof_data. destruct (bool_decide_reflect (o < 1168 + 8 ∨ o > w_size W)) as [Hr|Hr]; [done|].
  unfold is_u64 in Ho. rewrite (u64_small (o - 8)); [|lia]. rewrite run_bind Hld; [|lia|lia].
  destruct Hc as [Hc|[Hc|Hc]]; [lia|lia|]. rewrite Hc. done.
Qed.
Lemma w_word_nonneg R W a : file_holds R W → 0 <= w_word W a.
Proof.
  intros H. apply file_holds_facts in H as (_ & _ & [[_ Hb] _]). unfold w_word.
  apply le_val_range. apply Forall_lookup. intros j x Hx.
  assert (j < 8)%nat as Hj. { apply lookup_lt_Some in Hx. rewrite w_read_length in Hx. done. }
  rewrite w_read_lookup // in Hx. specialize (Hb (a + Z.of_nat j)). unfold bget in Hb. cbn [mem base_view] in Hb. congruence.
Qed.
Lemma blocks_from_in W T : ∀ s e o len a, blocks_from W s T e → (o, len, a) ∈ T → header_says W o len a.
Proof.
  induction T as [|[[o' len'] a'] T IH]; intros s e o len a H Hin; [by apply elem_of_nil in Hin|].
  destruct H as (_ & _ & Hh & H). apply elem_of_cons in Hin as [[= -> -> ->]|Hin]; [done|]. by eapply IH.
Qed.
Lemma LInv_free_ignored st : LInv st → log_free_ignored st.
Proof.
  destruct st as [W d t B bo]. intros (Hok & _ & _ & _ & L & fl & HB & Hme & HR). cbn [l_w l_b l_base l_dirty] in *. subst B.
  intros _ i o [pr Hi] Ho Hc. cbn [l_w] in *. eapply free_ignored; [done|done|done|done|].
  destruct Hc as [?|[?|(T & len & HT & Hin)]]; [by left|right; by left|right; right].
  eapply blocks_from_in in Hin; [|exact HT]. destruct Hin as [Hin _]. pose proof (w_word_nonneg _ _ (o - 8) HR) as Hn.
  unfold fb_allocated. rewrite Z.shiftr_div_pow2 // Z.div_small //.
Qed.

(** ** Opening the pool in another process *)
Lemma step_lopen W d L fl bo F i mx :
  file_holds (λ m, la_St d L fl bo m ∗ raws (shift8 (used L)))%I W → world_ok W → 0 <= mx →
  ∃ pr, log_open W d F i mx =
        WDone tt (World (w_mem W) (w_fsize W) (w_lim W) (<[i := pr]> (w_procs W))) ∧ proc_ok pr.
Proof.
  intros HR Hok Hmx. pose proof (file_holds_facts _ _ HR) as ([Hs _] & Hf & _).
  set (pr := Proc (w_fsize W) mx (0 + 1)). exists pr.
  assert (proc_ok pr) as Hpr by (split; simpl; lia). split; [|done].
  set (W' := World (w_mem W) (w_fsize W) (w_lim W) (<[i := pr]> (w_procs W))).
  unfold log_open, open_by, pool_open, get_fsize. rewrite run_bind. cbn [run exec fsize].
  rewrite (bool_decide_eq_false_2 (w_fsize W = 0)); [|lia]. unfold remap. cbn [run exec].
  change (leave _ _ _) with W'.
  assert (w_procs W' !! i = Some pr) as Hi by apply lookup_insert.
  unfold run_by. rewrite Hi. unfold la_construct. rewrite run_bind.
  assert (world_ok W') as Hok'.
  { intros j q. simpl. destruct (decide (j = i)) as [->|Hne].
    - rewrite lookup_insert. by intros [= <-].
    - rewrite lookup_insert_ne //. apply Hok. }
  assert (file_holds (λ m, ∃ i, ⌜i ≠ 0⌝ ∗ word sa_initialized i ∗ True)%I W') as HH.
  { apply (file_holds_same _ W); [done|done|done|].
    eapply file_holds_mono; [|exact HR]. intros m.
    iIntros "[H _]". iDestruct (la_St_D with "H") as "((%ba & %bc & (%ii & Hi & %Hne) & _) & _)". iExists ii. by iFrame. }
  apply file_holds_exist in HH as [ii HH]. apply file_holds_pure in HH as [Hne HH].
  erewrite (run_by_load64 _ _ _ _ _ _ HH Hok' Hi); [|unfold sa_initialized; lia].
  rewrite (bool_decide_eq_true_2 (ii ≠ 0)); [|done]. simpl run.
  f_equal. unfold leave, W'. simpl. f_equal. by rewrite insert_insert.
Qed.

(** ** A failed allocation has no effect, whatever the size and the state of the pool *)
Local Transparent la_create_free_block la_unlink la_merge_loop la_create_free_blocks la_allocate.
Lemma nothrow_undef {A} : nothrow (@Undef A).
Proof. intros ???. done. Qed.
Lemma nothrow_size_for_order k : nothrow (size_for_order k).
Proof. unfold size_for_order. repeat apply nothrow_if; (apply nothrow_ret || apply nothrow_undef). Qed.
Lemma readonly_size_for_order k : readonly (size_for_order k).
Proof. unfold size_for_order. by repeat case_bool_decide. Qed.
Lemma readonly_load64 a : readonly (load64 a).
Proof. done. Qed.
Lemma nothrow_add64 a d : nothrow (add64 a d).
Proof. unfold add64. apply nothrow_bind; [apply nothrow_load64|]. intros v. apply nothrow_store64. Qed.
Lemma nothrow_create o k : nothrow (la_create_free_block o k).
Proof.
  unfold la_create_free_block.
  repeat first [apply nothrow_load64 | apply nothrow_store64 | apply nothrow_undef | apply nothrow_bind; [|intros ?] | apply nothrow_if].
Qed.
Lemma nothrow_unlink b : nothrow (la_unlink b).
Proof.
  unfold la_unlink.
  repeat first [apply nothrow_load64 | apply nothrow_store64 | apply nothrow_undef | apply nothrow_bind; [|intros ?] | apply nothrow_if].
Qed.
Lemma nothrow_shrinking F : ∀ o e, nothrow (la_create_shrinking F o e).
Proof.
  induction F as [|F IH]; intros o e; cbn [la_create_shrinking]; (apply nothrow_if; [|apply nothrow_ret]); [apply nothrow_nofuel|].
  apply nothrow_bind; [apply nothrow_create|]. intros _. apply nothrow_bind; [apply nothrow_size_for_order|]. intros os. apply IH.
Qed.
Lemma nothrow_growing F : ∀ o e, nothrow (la_create_growing F o e).
Proof.
  induction F as [|F IH]; intros o e; cbn [la_create_growing]; (apply nothrow_if; [|apply nothrow_ret]); [apply nothrow_nofuel|].
  apply nothrow_bind; [apply nothrow_size_for_order|]. intros os. apply nothrow_if; [apply nothrow_shrinking|].
  apply nothrow_bind; [apply nothrow_create|]. intros _. apply IH.
Qed.
Lemma nothrow_merge F : ∀ b k, nothrow (la_merge_loop F b k).
Proof.
  induction F as [|F IH]; intros b k; cbn [la_merge_loop]; [apply nothrow_nofuel|].
  apply nothrow_bind; [apply nothrow_size_for_order|]. intros os. apply nothrow_if; [apply nothrow_ret|].
  apply nothrow_bind; [apply nothrow_load64|]. intros sz. apply nothrow_if; [apply nothrow_ret|].
  apply nothrow_bind; [apply nothrow_load64|]. intros w. apply nothrow_if; [apply nothrow_ret|]. apply nothrow_if; [apply nothrow_ret|].
  apply nothrow_bind; [apply nothrow_unlink|]. intros _. apply IH.
Qed.
Lemma nothrow_merge_blocks b : nothrow (la_merge_blocks_at b).
Proof.
  unfold la_merge_blocks_at. apply nothrow_bind; [apply nothrow_load64|]. intros w. apply nothrow_bind; [apply nothrow_unlink|].
  intros _. apply nothrow_bind; [apply nothrow_merge|]. intros [b' k]. apply nothrow_bind; [apply nothrow_create|]. intros _. apply nothrow_ret.
Qed.
Lemma nothrow_split F : ∀ so k, nothrow (la_split F so k).
Proof.
  induction F as [|F IH]; intros so k; cbn [la_split]; (apply nothrow_if; [|apply nothrow_ret]); [apply nothrow_nofuel|].
  apply nothrow_bind; [apply nothrow_load64|]. intros h. apply nothrow_bind; [apply nothrow_size_for_order|]. intros os.
  apply nothrow_bind; [apply nothrow_unlink|]. intros _. do 2 (apply nothrow_bind; [apply nothrow_create|]; intros _). apply IH.
Qed.
Lemma nothrow_unlink_end F : ∀ k s b, nothrow (la_unlink_end F k s b).
Proof.
  induction F as [|F IH]; intros k s b; cbn [la_unlink_end]; (apply nothrow_if; [|apply nothrow_ret]); [apply nothrow_nofuel|].
  apply nothrow_bind; [apply nothrow_unlink|]. intros _. apply nothrow_bind; [apply nothrow_size_for_order|]. intros os. apply IH.
Qed.
Lemma nothrow_take n k : nothrow (la_take n k).
Proof.
  unfold la_take.
  repeat first [apply nothrow_ret | apply nothrow_load64 | apply nothrow_store64 | apply nothrow_add64 | apply nothrow_size_for_order
               | apply nothrow_bind; [|intros ?] | apply nothrow_if].
Qed.
Lemma readonly_search F : ∀ k, readonly (la_search F k).
Proof.
  induction F as [|F IH]; intros k; cbn [la_search]; (apply readonly_bind; [done|]); intros h; destruct (bool_decide _); try done.
Qed.
Lemma readonly_end_scan F : ∀ s b k, readonly (la_end_scan F s b k).
Proof.
  induction F as [|F IH]; intros s b k; cbn [la_end_scan]; (destruct (bool_decide _); [|done]); [done|].
  apply readonly_bind; [done|]. intros w. destruct (fb_allocated w); [done|]. destruct (bool_decide _); [done|].
  apply readonly_bind; [apply readonly_size_for_order|]. intros os. apply IH.
Qed.
Local Opaque la_create_free_block la_unlink la_merge_loop la_create_free_blocks la_split la_take la_search la_end_scan la_unlink_end la_merge_blocks_at size_for_order.
Lemma nothrow_blocks o n : nothrow (la_create_free_blocks o n).
Proof. Local Transparent la_create_free_blocks. apply nothrow_growing. Qed.
Local Opaque la_create_free_blocks.
Lemma quiet_la_grow n k : quiet (la_grow n k).
Proof.
  unfold la_grow. apply quiet_bind_ro; [done|]. intros s. apply quiet_bind_ro; [apply readonly_size_for_order|]. intros os.
  apply quiet_bind_ro; [apply readonly_end_scan|]. intros [b border]. cbv zeta.
  apply quiet_bind_nothrow; [apply quiet_expand|]. intros _.
  repeat first [apply nothrow_ret | apply nothrow_load64 | apply nothrow_store64 | apply nothrow_add64 | apply nothrow_size_for_order
               | apply nothrow_blocks | apply nothrow_merge_blocks | apply nothrow_unlink_end
               | apply nothrow_bind; [|intros ?] | apply nothrow_if].
Qed.
Lemma quiet_la_allocate n : quiet (la_allocate n).
Proof.
  unfold la_allocate. apply quiet_bind_ro; [apply readonly_search|]. intros so. apply quiet_if; [|apply quiet_la_grow].
  apply quiet_nothrow. apply nothrow_bind; [apply nothrow_split|]. intros _. apply nothrow_take.
Qed.
Local Opaque la_allocate.
Lemma step_lalloc_noop R W i pr F n e W' :
  file_holds R W → world_ok W → w_procs W !! i = Some pr →
  run_by W i (under_lock false (la_repair F) (la_allocate n)) = WExn e W' →
  w_mem W' = w_mem W ∧ w_fsize W' = w_fsize W.
Proof.
  intros HR Hok Hi Hr. unfold run_by, under_lock in Hr. rewrite Hi run_bind in Hr.
  destruct (run_lock R W pr HR (Hok _ _ Hi)) as [e' Hl]. rewrite Hl in Hr.
  rewrite run_bind in Hr. cbn [run] in Hr.
  destruct (run (la_allocate n) _) as [|x s| |] eqn:E; try done. injection Hr as -> <-.
  apply quiet_la_allocate in E. subst s. done.
Qed.

(** ** The main theorem *)
Definition lct_all (st : lstate) (ob : lobs) (st' : lstate) : Prop :=
  log_fresh st ob st' ∧ log_contents st ob st' ∧ log_double_free_ignored st ob st' ∧ log_growth st ob st' ∧
  log_failed_is_noop st ob st'.

Lemma LInv_conts W0 W d t L fl bo : world_ok W → w_lim W <= 2 ^ 56 → w_size W <= 2 ^ 56 → (d = true → w_size W < 2 ^ 32) → (t = true → merged L) →
  file_holds (λ m, la_St d L fl bo m ∗ conts (gW W0) (shift8 (used L)))%I W → LInv (LSt W d t (bmap (shift8 (used L))) bo).
Proof.
  intros Hok Hlim Hsz Hd Hme H. pose proof (file_tiles_S _ _ _ _ _ _ H) as Ht.
  split; [done|]. split; [done|]. split; [done|]. split; [done|]. exists L, fl. split; [done|]. split; [done|].
  eapply file_holds_mono; [|exact H]. intros m. cbn [l_base]. iIntros "[$ X]". iApply (conts_raws with "X").
  intros [o n] Hin. apply gW_length. apply shift8_in in Hin as [k Hin]. pose proof (tiles_in _ _ _ _ Ht Hin) as ((_ & _ & ? & _) & _). cbn [snd]. lia.
Qed.
Lemma LInv_raws W W' d t L fl bo : world_ok W' → w_lim W' <= 2 ^ 56 → w_size W <= 2 ^ 56 → (d = true → w_size W < 2 ^ 32) → (t = true → merged L) →
  file_holds (λ m, la_St d L fl bo m ∗ raws (shift8 (used L)))%I W → w_mem W' = w_mem W → w_fsize W' = w_fsize W → w_lim W' = w_lim W →
  LInv (LSt W' d t (bmap (shift8 (used L))) bo).
Proof.
  intros Hok Hlim Hsz Hd Hme H E1 E2 E3.
  assert (w_size W' = w_size W) as E4. { unfold w_size, w_word, w_read. f_equal. by apply read_bytes_mem. }
  split; [done|]. split; [done|]. cbn [l_w l_dirty]. rewrite E4. split; [done|]. split; [done|]. exists L, fl. split; [done|]. split; [done|].
  by apply (file_holds_same _ W).
Qed.

Theorem lgame_inv F evs : 2 ^ 28 <= Z.of_nat F → ∀ st, LInv st → lgame F LInv lct_all evs st.
Proof.
  intros HF. induction evs as [|ev evs IH]; intros [W d t B bo] HI; (split; [done|]); [done|].
  pose proof HI as (Hok & Hlim & Hsz & Hd & L & fl & HB & Hme & HR). cbn [l_w l_b l_dirty l_base l_tidy] in *. subst B.
  pose proof (file_tiles_S _ _ _ _ _ _ HR) as Ht. assert (la_start = 1168) as Hst by reflexivity.
  assert (∀ W' X B' o n, file_holds (λ m, X m ∗ conts (gW W) B')%I W' → (o, n) ∈ B' → 1 <= n →
     w_read W' o (Z.to_nat n) = w_read W o (Z.to_nat n)) as Hsame.
  { intros W' X B' o n HX Ho Hn. eapply (conts_same X B' W W' (o, n)) in Ho; [done|cbn [snd]; lia|done]. }
  assert (∀ o n, bmap (shift8 (used L)) !! o = Some n → 1 <= n ∧ (o, n) ∈ shift8 (used L)) as Hpos by (intros; by eapply bmap_pos).
  destruct ev as [i n|i o|i o k bs|i v|i mx|i|i|i o|i o k bs|i v].
  - (* allocate *)
    intros Hn. destruct (w_procs W !! i) as [pr|] eqn:Hi; [|done].
    pose proof (step_lalloc W d L fl bo F i pr n HR Hok Hi HF Hd Hlim Hsz Hn) as H.
    destruct (run_by _ _ _) as [o W'|x W'| |] eqn:Hrun; try done.
    + destruct H as (k & L1 & L2 & fl' & HU & Hme' & Hgr & Hf & (Hlim' & Hok' & Hprocs)).
      pose proof (file_holds_tiles _ _ _ _ _ Hf) as Ht'. destruct (bmap_mid _ _ _ _ _ _ Ht') as [Hins Hnone].
      replace (o - 8 + 8) with o in Hins, Hnone by lia. rewrite HU in Hins, Hnone.
      assert (w_size W' <= 2 ^ 56) as Hsz'. { destruct Hgr as [->|(_ & Hg & _)]; [done|]. unfold grow_allowed in Hg. cbn [c_lim] in Hg. lia. }
      split.
      * split; [exact Hnone|]. split; [|split; [done|split; [|done]]].
        -- cbn [log_contents l_w l_b]. intros o' n' Ho' _. destruct (Hpos _ _ Ho') as [? ?].
           eapply (Hsame W' (λ m, la_R (L1 ++ (o - 8, k, Some n) :: L2) fl' bo m ∗ raw o (o + n))%I); [|done|done].
           eapply file_holds_mono; [|exact Hf]. intros m. iIntros "($ & $ & $)".
        -- cbn [log_growth l_w]. destruct Hgr as [->|(E & Hg & Hno)]; [by left|right]. split; [done|]. split; [exact Hg|].
           exists (len_of <$> L). split; [exact (file_blocks _ _ _ _ _ _ HR)|].
           intros o' len ([[o2 k2] a2] & E2 & Hin)%elem_of_list_fmap. unfold len_of in E2. cbn [fst snd] in E2. injection E2 as -> -> <-.
           specialize (Hno _ _ Hin). pose proof (tiles_in _ _ _ _ Ht Hin) as ((Hk2 & _) & _).
           assert ((o - 8, k, Some n) ∈ L1 ++ (o - 8, k, Some n) :: L2) as Hin' by (rewrite elem_of_app; right; by left).
           pose proof (tiles_in _ _ _ _ Ht' Hin') as ((Hk & _ & _ & _ & Hnk) & _).
           assert (2 ^ k2 <= 2 ^ (k - 1)) by (apply pow_le; lia). lia.
      * apply IH. rewrite -Hins. split; [done|]. cbn [l_w l_dirty]. rewrite Hlim'. split; [done|]. split; [done|]. split; [done|].
        exists (L1 ++ (o - 8, k, Some n) :: L2), fl'. split; [done|]. split; [intros Htd; by apply Hme', Hme|].
        eapply file_holds_mono; [|exact Hf]. intros m. cbn [l_base]. iIntros "($ & X & U)".
        iApply (raws_perm' ((o, n) :: shift8 (used L))).
        { rewrite (shift8_mid L1 (o - 8) k n L2) HU. by replace (o - 8 + 8) with o by lia. }
        change (raws ((o, n) :: shift8 (used L))) with (raw o (o + n) ∗ raws (shift8 (used L)))%I. iFrame "U". iApply (conts_raws with "X"). intros [o' n'] Hin. apply gW_length.
        apply shift8_in in Hin as [k' Hin]. pose proof (tiles_in _ _ _ _ Ht Hin) as ((_ & _ & ? & _) & _). cbn [snd]. lia.
    + destruct H as (-> & Hg & Hno & Hw & (fl' & Hf) & (Hlim' & Hok' & Hprocs)). split.
      * split; [done|]. split; [|split; [done|split]].
        -- cbn [log_contents l_w l_b]. intros o' n' Ho' _. destruct (Hpos _ _ Ho') as [? ?]. by eapply (Hsame W' _ _ _ _ Hf).
        -- cbn [log_growth l_w]. split; [done|]. split; [exact Hg|]. exists (len_of <$> L). split; [exact (file_blocks _ _ _ _ _ _ HR)|].
           intros o' len ([[o2 k2] a2] & E2 & Hin)%elem_of_list_fmap. unfold len_of in E2. cbn [fst snd] in E2. injection E2 as -> -> <-.
           by apply (Hno _ _ Hin).
        -- intros E. cbn [l_dirty] in E. subst d. by eapply step_lalloc_noop.
      * apply IH. eapply LInv_conts; [done|by rewrite Hlim'|by rewrite Hw|done|done|exact Hf].
  - (* free *)
    destruct (bmap (shift8 (used L)) !! o) as [n|] eqn:Ho; [|done].
    destruct (w_procs W !! i) as [pr|] eqn:Hi; [|done].
    pose proof Ho as Hin. apply (bmap_lookup _ _ _ _ Ht) in Hin as [k Hin]. apply elem_of_list_split in Hin as (L1 & L2 & ->).
    pose proof (step_lfree W d L1 o k n L2 fl bo F i pr HR Hok Hi HF Hd Hsz) as H.
    destruct (run_by _ _ _) as [[] W'|x W'| |] eqn:Hrun; try done.
    destruct H as (L' & fl' & HU & Hme' & Hw & Hsz' & Hf & (Hlim' & Hok' & Hprocs)).
    destruct (bmap_mid _ _ _ _ _ _ Ht) as [Hins Hnone]. replace (o - 8 + 8) with o in Hins, Hnone by lia.
    assert (delete o (bmap (shift8 (used (L1 ++ (o - 8, k, Some n) :: L2)))) = bmap (shift8 (used L'))) as Hdel.
    { rewrite Hins delete_insert // HU //. }
    rewrite Hdel. pose proof (file_holds_tiles _ _ _ _ _ Hf) as Ht'. split.
    + split; [done|]. split; [|split; [|split; [exact Hsz'|done]]].
      * cbn [log_contents l_w l_b]. intros o' n' _ Ho'. destruct (bmap_pos _ _ _ _ Ht' Ho') as [? ?]. by eapply Hsame.
      * cbn [log_double_free_ignored l_w]. intros j [q Hj]. eapply free_ignored; [exact Hf|done|exact Hj| |right; by right].
        assert ((o - 8, k, Some n) ∈ L1 ++ (o - 8, k, Some n) :: L2) as Hin by (rewrite elem_of_app; right; by left).
        pose proof (tiles_in _ _ _ _ Ht Hin) as ((Hk & _ & _ & _ & Hnk) & ? & ?). cbn [fst snd] in *. unfold is_u64. lia.
    + apply IH. eapply LInv_conts; [done|by rewrite Hlim'|by rewrite Hsz'|done|intros Htd; by apply Hme', Hme|exact Hf].
  - (* write *)
    destruct (bmap (shift8 (used L)) !! o) as [n|] eqn:Ho; [|done].
    destruct (w_procs W !! i) as [pr|] eqn:Hi; [|done]. intros Hk Hkn Hbs.
    destruct (Hpos _ _ Ho) as [Hn Hin]. apply elem_of_Permutation in Hin as [B HB].
    pose proof (step_lwrite W d L fl bo F i pr o n B k bs HB HR Hok Hi HF Hd Hk Hkn Hbs) as H.
    destruct (run_by _ _ _) as [[] W'|x W'| |] eqn:Hrun; try done.
    destruct H as (fl' & (Hlim' & Hok' & Hprocs) & Hw & Hf).
    pose proof (gW_length W (o, n) ltac:(cbn [snd]; lia)) as Hlen. cbn [snd] in Hlen.
    assert (length (splice (gW W (o, n)) (Z.to_nat k) bs) = Z.to_nat n) as Hlen2.
    { rewrite splice_length; lia. }
    assert (w_read W' o (Z.to_nat n) = splice (gW W (o, n)) (Z.to_nat k) bs) as Hnew.
    { rewrite -Hlen2. eapply (file_holds_pts (λ _, True)%I). eapply file_holds_mono; [|exact Hf].
      intros m. iIntros "(_ & _ & $)". }
    change (gW W (o, n)) with (w_read W o (Z.to_nat n)) in *.
    split.
    + split; [done|]. split; [|split; [done|split; [exact Hw|done]]].
      cbn [log_contents l_w l_b]. split.
      * apply list_eq_same_length with (length bs); [done|by rewrite w_read_length|].
        intros j x y Hj Hx Hy. rewrite w_read_lookup // in Hx.
        assert (w_read W' o (Z.to_nat n) !! (Z.to_nat k + j)%nat = bs !! j) as E.
        { rewrite Hnew splice_lookup_in; [f_equal; lia|lia|lia]. }
        rewrite w_read_lookup in E; [|lia].
        replace (o + Z.of_nat (Z.to_nat k + j)) with (o + k + Z.of_nat j) in E by lia. congruence.
      * intros o' n' Ho' j Hj Hnot.
        destruct (w_read_sub W' o' (Z.to_nat n') j) as (x & Hx & ->); [lia|lia|].
        destruct (w_read_sub W o' (Z.to_nat n') j) as (y & Hy & ->); [lia|lia|].
        f_equal. destruct (decide (o' = o)) as [->|Hne].
        -- assert (n' = n) as -> by congruence. rewrite Hnew in Hx.
           rewrite splice_lookup_out in Hx; [congruence| |lia]. intros ?. apply Hnot. split; [done|lia].
        -- assert (w_read W' o' (Z.to_nat n') = w_read W o' (Z.to_nat n')) as E; [|congruence].
           destruct (Hpos _ _ Ho') as [Hn' Hin']. rewrite HB in Hin'. apply elem_of_cons in Hin' as [[= ? _]|Hin']; [done|].
           eapply (Hsame _ (λ m, la_R L fl' bo m ∗ pts o (splice (w_read W o (Z.to_nat n)) (Z.to_nat k) bs))%I); [|exact Hin'|done].
           eapply file_holds_mono; [|exact Hf]. intros m. iIntros "($ & $ & $)".
    + apply IH. split; [done|]. cbn [l_w l_dirty]. rewrite Hlim' Hw. split; [done|]. split; [done|]. split; [done|].
      exists L, fl'. split; [done|]. split; [done|]. eapply file_holds_mono; [|exact Hf]. intros m. cbn [l_base]. iIntros "($ & X & U)".
      iApply (raws_perm' ((o, n) :: B)); [by rewrite HB|]. change (raws ((o, n) :: B)) with (raw o (o + n) ∗ raws B)%I. iSplitL "U".
      * iApply (pts_raw with "U"). lia.
      * iApply (conts_raws with "X"). intros [o' n'] Hin. apply gW_length.
        assert ((o', n') ∈ shift8 (used L)) as Hin2 by (rewrite HB; by right).
        apply shift8_in in Hin2 as [k' Hin2]. pose proof (tiles_in _ _ _ _ Ht Hin2) as ((_ & _ & ? & _) & _). cbn [snd]. lia.
  - (* base *)
    intros Hv. destruct (w_procs W !! i) as [pr|] eqn:Hi; [|done].
    pose proof (step_lbase W d L fl bo F i pr v HR Hok Hi HF Hd Hv) as H.
    destruct (run_by _ _ _) as [[] W'|x W'| |] eqn:Hrun; try done.
    destruct H as (fl' & (Hlim' & Hok' & Hprocs) & Hw & Hf). split.
    + split; [done|]. split; [cbn [log_contents l_w l_b]; intros o' n' Ho' _; destruct (Hpos _ _ Ho') as [? ?]; by eapply (Hsame W' _ _ _ _ Hf)|]. split; [done|]. split; [exact Hw|done].
    + apply IH. eapply LInv_conts; [done|by rewrite Hlim'|by rewrite Hw|done|done|exact Hf].
  - (* open *)
    intros Hmx Hi. destruct (step_lopen W d L fl bo F i mx HR Hok Hmx) as (pr & -> & Hpr). split.
    + split; [done|]. split; [|done]. intros o n0 Ho _. done.
    + apply IH. eapply LInv_raws; [|done|done|done|done|exact HR|done|done|done].
      intros j q. cbn [w_procs]. destruct (decide (j = i)) as [->|Hne].
      * rewrite lookup_insert. by intros [= <-].
      * rewrite lookup_insert_ne //. apply Hok.
  - (* die *)
    split.
    + split; [done|]. split; [|done]. intros o n0 Ho _. done.
    + apply IH. eapply LInv_raws; [|done|done|done|done|exact HR|done|done|done].
      intros j q. cbn [w_procs]. rewrite lookup_delete_Some. intros [_ Hj]. by eapply Hok.
  - (* die with the lock *)
    intros H32 W' Hdie.
    destruct (step_ldielocked W d L fl bo F i W' HR Hok HF H32 Hdie) as (Hok' & Hlim' & Hw & Hf). split.
    + split; [done|]. split; [cbn [log_contents l_w l_b]; intros o' n' Ho' _; destruct (Hpos _ _ Ho') as [? ?]; by eapply (Hsame W' _ _ _ _ Hf)|]. split; [done|]. split; [exact Hw|done].
    + apply IH. eapply (LInv_conts W W' true t L fl); [done|by rewrite Hlim'|by rewrite Hw|by rewrite Hw|done|exact Hf].
  - (* die inside free *)
    intros H32 n W' Ho Hdie.
    pose proof Ho as Hin. apply (bmap_lookup _ _ _ _ Ht) in Hin as [k Hin]. apply elem_of_list_split in Hin as (L1 & L2 & ->).
    destruct (step_ldiefree W d L1 o k n L2 fl bo F i W' HR Hok HF H32 Hdie) as (Hok' & Hlim' & Hw & [Hf|(L' & HU & Hf)]).
    + left. split.
      * split; [done|]. split; [cbn [log_contents l_w l_b]; intros o' n' Ho' _; destruct (Hpos _ _ Ho') as [? ?]; by eapply (Hsame W' _ _ _ _ Hf)|]. split; [done|]. split; [exact Hw|done].
      * apply IH. eapply (LInv_conts W W' true t _ fl); [done|by rewrite Hlim'|by rewrite Hw|by rewrite Hw|done|exact Hf].
    + right. destruct (bmap_mid _ _ _ _ _ _ Ht) as [Hins Hnone]. replace (o - 8 + 8) with o in Hins, Hnone by lia.
      assert (delete o (bmap (shift8 (used (L1 ++ (o - 8, k, Some n) :: L2)))) = bmap (shift8 (used L'))) as Hdel.
      { rewrite Hins delete_insert // HU //. }
      rewrite Hdel. pose proof (file_tiles_D _ _ _ _ Hf) as Ht'. split.
      * split; [done|]. split; [|split; [done|split; [exact Hw|done]]].
        cbn [log_contents l_w l_b]. intros o' n' _ Ho'. destruct (bmap_pos _ _ _ _ Ht' Ho') as [? ?]. by eapply Hsame.
      * apply IH. eapply (LInv_conts W W' true false _ fl); [done|by rewrite Hlim'|by rewrite Hw|by rewrite Hw|done|exact Hf].
  - (* die while writing *)
    intros H32 n W' Ho Hk Hkn Hbs Hdie.
    destruct (Hpos _ _ Ho) as [Hn Hin]. apply elem_of_Permutation in Hin as [B HB].
    destruct (step_ldiewrite W d L fl bo F i o n B k bs W' HB HR Hok HF H32 Hk Hkn Hbs Hdie) as (Hok' & Hlim' & Hw & jj & Hjj & Hf).
    pose proof (gW_length W (o, n) ltac:(cbn [snd]; lia)) as Hlen. cbn [snd] in Hlen.
    pose proof (take_length_le bs jj Hjj) as Hlj.
    assert (length (splice (gW W (o, n)) (Z.to_nat k) (take jj bs)) = Z.to_nat n) as Hlen2.
    { rewrite splice_length; lia. }
    assert (w_read W' o (Z.to_nat n) = splice (gW W (o, n)) (Z.to_nat k) (take jj bs)) as Hnew.
    { rewrite -Hlen2. eapply (file_holds_pts (λ _, True)%I). eapply file_holds_mono; [|exact Hf].
      intros m. iIntros "(_ & _ & $)". }
    change (gW W (o, n)) with (w_read W o (Z.to_nat n)) in *.
    assert (∀ o' n', bmap (shift8 (used L)) !! o' = Some n' → ∀ j, 0 <= j < n' → ¬ (o' = o ∧ k <= j < k + Z.of_nat jj) →
       w_read W' (o' + j) 1 = w_read W (o' + j) 1) as Hout.
    { intros o' n' Ho' j Hj Hnot.
      destruct (w_read_sub W' o' (Z.to_nat n') j) as (x & Hx & ->); [lia|lia|].
      destruct (w_read_sub W o' (Z.to_nat n') j) as (y & Hy & ->); [lia|lia|].
      f_equal. destruct (decide (o' = o)) as [->|Hne].
      - assert (n' = n) as -> by congruence. rewrite Hnew in Hx.
        rewrite splice_lookup_out in Hx; [congruence| |lia]. intros ?. apply Hnot. split; [done|lia].
      - assert (w_read W' o' (Z.to_nat n') = w_read W o' (Z.to_nat n')) as E; [|congruence].
        destruct (Hpos _ _ Ho') as [Hn' Hin']. rewrite HB in Hin'. apply elem_of_cons in Hin' as [[= ? _]|Hin']; [done|].
        eapply (Hsame _ (λ m, la_D L bo m ∗ pts o (splice (w_read W o (Z.to_nat n)) (Z.to_nat k) (take jj bs)))%I); [|exact Hin'|done].
        eapply file_holds_mono; [|exact Hf]. intros m. iIntros "($ & $ & $)". }
    split.
    + split; [done|]. split; [|split; [done|split; [exact Hw|done]]].
      cbn [log_contents l_w l_b]. split.
      * exists jj. apply list_eq_same_length with (length bs).
        -- rewrite app_length drop_length w_read_length. lia.
        -- by rewrite w_read_length.
        -- intros j x y Hj Hx Hy. rewrite w_read_lookup // in Hx.
           destruct (decide (j < jj)%nat) as [Hlt|Hge].
           ++ rewrite lookup_app_l in Hy; [|lia].
              assert (w_read W' o (Z.to_nat n) !! (Z.to_nat k + j)%nat = take jj bs !! j) as E.
              { rewrite Hnew splice_lookup_in; [f_equal; lia|lia|lia]. }
              rewrite w_read_lookup in E; [|lia].
              replace (o + Z.of_nat (Z.to_nat k + j)) with (o + k + Z.of_nat j) in E by lia. congruence.
           ++ rewrite lookup_app_r in Hy; [|lia]. rewrite lookup_drop in Hy. rewrite Hlj in Hy.
              replace (jj + (j - jj))%nat with j in Hy by lia. rewrite w_read_lookup // in Hy.
              specialize (Hout o n Ho (k + Z.of_nat j) ltac:(lia) ltac:(lia)).
              destruct (w_read_sub W' o (Z.to_nat n) (k + Z.of_nat j)) as (x' & Hx' & E1); [lia|lia|].
              destruct (w_read_sub W o (Z.to_nat n) (k + Z.of_nat j)) as (y' & Hy' & E2); [lia|lia|].
              rewrite E1 E2 in Hout. injection Hout as ->.
              rewrite w_read_lookup in Hx'; [|lia]. rewrite w_read_lookup in Hy'; [|lia].
              replace (o + Z.of_nat (Z.to_nat (k + Z.of_nat j))) with (o + k + Z.of_nat j) in Hx', Hy' by lia. congruence.
      * intros o' n' Ho' j Hj Hnot. apply (Hout _ _ Ho'); [done|]. intros [-> ?]. apply Hnot. split; [done|lia].
    + apply IH. split; [done|]. cbn [l_w l_dirty]. rewrite Hlim' Hw. split; [done|]. split; [done|]. split; [done|].
      exists L, fl. split; [done|]. split; [done|]. eapply file_holds_mono; [|exact Hf]. intros m. cbn [l_base l_dirty la_St]. iIntros "($ & X & U)".
      iApply (raws_perm' ((o, n) :: B)); [by rewrite HB|]. change (raws ((o, n) :: B)) with (raw o (o + n) ∗ raws B)%I. iSplitL "U".
      * iApply (pts_raw with "U"). lia.
      * iApply (conts_raws with "X"). intros [o' n'] Hin. apply gW_length.
        assert ((o', n') ∈ shift8 (used L)) as Hin2 by (rewrite HB; by right).
        apply shift8_in in Hin2 as [k' Hin2]. pose proof (tiles_in _ _ _ _ Ht Hin2) as ((_ & _ & ? & _) & _). cbn [snd]. lia.
  - (* die inside set_base_object_offset *)
    intros H32 Hv W' Hdie.
    destruct (step_ldiebase W d L fl bo F i v W' HR Hok HF H32 Hv Hdie) as (Hok' & Hlim' & Hw & [Hf|Hf]); [left|right].
    all: split; [split; [done|]; split; [cbn [log_contents l_w l_b]; intros o' n' Ho' _; destruct (Hpos _ _ Ho') as [? ?]; by eapply (Hsame W' _ _ _ _ Hf)|]; split; [done|]; split; [exact Hw|done]|].
    all: apply IH; eapply (LInv_conts W W' true t L fl); [done|by rewrite Hlim'|by rewrite Hw|by rewrite Hw|done|exact Hf].
Qed.

Lemma lgame_mono (cs cs' : lstate → Prop) (ct ct' : lstate → lobs → lstate → Prop) F evs :
  (∀ st, cs st → cs' st) → (∀ st ob st', ct st ob st' → ct' st ob st') →
  ∀ st, lgame F cs ct evs st → lgame F cs' ct' evs st.
Proof.
  intros Hcs Hct. induction evs as [|ev evs IH]; intros [W d t B bo]; cbn [lgame].
  - naive_solver.
  - intros [H1 H2]. split; [by apply Hcs|].
    destruct ev as [i n|i o|i o k bs|i v|i mx|i|i|i o|i o k bs|i v].
    + intros Hn. specialize (H2 Hn). destruct (w_procs W !! i); [|done].
      destruct (run_by _ _ _); naive_solver.
    + destruct (B !! o), (w_procs W !! i); try done. destruct (run_by _ _ _); naive_solver.
    + destruct (B !! o), (w_procs W !! i); try done. intros H3 H4 H5. specialize (H2 H3 H4 H5).
      destruct (run_by _ _ _); naive_solver.
    + intros Hn. specialize (H2 Hn). destruct (w_procs W !! i); [|done].
      destruct (run_by _ _ _); naive_solver.
    + intros H3 H4. specialize (H2 H3 H4). destruct (log_open _ _ _ _ _); naive_solver.
    + naive_solver.
    + intros H3 W' H4. specialize (H2 H3 W' H4). naive_solver.
    + intros H3 n W' H4 H5. specialize (H2 H3 n W' H4 H5). naive_solver.
    + intros H3 n W' H4 H5 H6 H7 H8. specialize (H2 H3 n W' H4 H5 H6 H7 H8). naive_solver.
    + intros H3 H4 W' H5. specialize (H2 H3 H4 W' H5). naive_solver.
Qed.
