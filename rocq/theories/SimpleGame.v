(** * SimpleAllocator: from the separation logic proofs to histories. *)
From Verif Require Export SimpleAllocFree WorldProof SimpleSpec.
From iris.proofmode Require Import tactics.
From iris.prelude Require Import options.
Open Scope Z_scope.
Open Scope prog_scope.

(** ** The block map of a layout *)
Definition blkmap (L : blocks) : gmap Z Z :=
  list_to_map ((λ x : Z * Z, (x.1 + 24, x.2)) <$> L).

Lemma layout_nodup s L e : layout s L e → NoDup (L.*1).
Proof.
  intros Hl. apply NoDup_alt. intros i j x Hi Hj.
  rewrite list_lookup_fmap in Hi. rewrite list_lookup_fmap in Hj.
  destruct (L !! i) as [y|] eqn:Ei; simplify_eq/=. destruct (L !! j) as [z|] eqn:Ej; simplify_eq/=.
  eapply layout_inj; eauto.
Qed.
Lemma blkmap_lookup s L e o n :
  layout s L e → blkmap L !! o = Some n ↔ (o - 24, n) ∈ L.
Proof.
  intros Hl. unfold blkmap. rewrite -elem_of_list_to_map.
  - rewrite elem_of_list_fmap. split.
    + intros ([b k] & Hx & Hin). simpl in Hx. simplify_eq/=. by replace (b + 24 - 24) with b by lia.
    + intros Hin. exists (o - 24, n). simpl. split; [f_equal; lia|done].
  - rewrite -list_fmap_compose.
    replace ((fst ∘ λ x : Z * Z, (x.1 + 24, x.2)) <$> L) with ((λ b, b + 24) <$> L.*1)
      by (by rewrite -list_fmap_compose).
    apply NoDup_fmap; [intros ???; lia|]. by eapply layout_nodup.
Qed.
Lemma blkmap_cons b n L : blkmap ((b, n) :: L) = <[b + 24 := n]> (blkmap L).
Proof. done. Qed.
Lemma blkmap_cut s L1 b n L2 e :
  layout s (L1 ++ (b, n) :: L2) e → layout s (L1 ++ L2) e →
  blkmap (L1 ++ (b, n) :: L2) = <[b + 24 := n]> (blkmap (L1 ++ L2)) ∧
  blkmap (L1 ++ L2) !! (b + 24) = None.
Proof.
  intros Hl Hl'.
  assert (∀ k, (b, k) ∉ L1 ++ L2) as Hni.
  { intros k Hin.
    assert ((b, k) ∈ L1 ++ (b, n) :: L2) as Hin2.
    { apply elem_of_app in Hin as [?|?]; apply elem_of_app; [by left|right; by right]. }
    pose proof (layout_nodup _ _ _ Hl) as Hnd. rewrite fmap_app fmap_cons in Hnd.
    rewrite -Permutation_middle in Hnd. apply NoDup_cons in Hnd as [Hnd _]. apply Hnd.
    rewrite -fmap_app. apply elem_of_list_fmap. exists (b, k). done. }
  split.
  - apply map_eq. intros o. apply option_eq. intros k.
    rewrite (blkmap_lookup _ _ _ _ _ Hl). destruct (decide (o = b + 24)) as [->|Hne].
    + rewrite lookup_insert. replace (b + 24 - 24) with b by lia. split.
      * intros Hin. f_equal. eapply layout_fst_inj; [exact Hl| |exact Hin].
        apply elem_of_app; right; by left.
      * intros [= ->]. apply elem_of_app; right; by left.
    + rewrite lookup_insert_ne // (blkmap_lookup _ _ _ _ _ Hl').
      rewrite !elem_of_app elem_of_cons. split; [|tauto].
      intros [?|[[=]|?]]; [tauto|lia|tauto].
  - apply eq_None_not_Some. intros [k Hk]. apply (blkmap_lookup _ _ _ _ _ Hl') in Hk.
    replace (b + 24 - 24) with b in Hk by lia. by eapply Hni.
Qed.
Lemma blkmap_delete s L1 b n L2 e :
  layout s (L1 ++ (b, n) :: L2) e → layout s (L1 ++ L2) e →
  delete (b + 24) (blkmap (L1 ++ (b, n) :: L2)) = blkmap (L1 ++ L2).
Proof.
  intros Hl Hl'. destruct (blkmap_cut _ _ _ _ _ _ Hl Hl') as [-> Hn]. by rewrite delete_insert.
Qed.
Lemma blkmap_sums s L e : layout s L e →
  size (blkmap L) = length L ∧ sum_sizes (blkmap L) = sum_alloc L ∧
  sum_footprints (blkmap L) = sum_comm L.
Proof.
  revert s; induction L as [|[b n] L IH]; intros s Hl; [done|].
  pose proof Hl as Hl2. simpl in Hl2. destruct Hl2 as (Hs & Hb8 & Hn & Hl2).
  destruct (IH _ Hl2) as (IH1 & IH2 & IH3).
  pose proof (r8_spec n).
  assert (layout s ([] ++ L) e) as Hl3.
  { destruct L as [|[b' n'] L]; simpl in *; [lia|]. naive_solver lia. }
  destruct (blkmap_cut s [] b n L e Hl Hl3) as [_ Hni]. simpl app in Hni.
  rewrite blkmap_cons. split_and!.
  - rewrite map_size_insert_None //. by rewrite IH1.
  - unfold sum_sizes. rewrite map_fold_insert_L; [|intros; lia|done]. fold (sum_sizes (blkmap L)).
    rewrite IH2. done.
  - unfold sum_footprints. rewrite map_fold_insert_L; [|intros; lia|done].
    fold (sum_footprints (blkmap L)). rewrite IH3. done.
Qed.

(** ** Holes and cuts *)
Lemma layout_hole start L m a b :
  layout start L m → start <= a <= b → b <= m →
  (a = start ∨ ∃ x, x ∈ L ∧ blk_end x = a) →
  (b = m ∨ ∃ x, x ∈ L ∧ x.1 = b) →
  (∀ x, x ∈ L → blk_end x <= a ∨ b <= x.1) →
  ∃ A C, L = A ++ C ∧ ende A start = a ∧ hdo C m = b.
Proof.
  revert start; induction L as [|x L IH]; intros start Hl Hab Hbm Ha Hb Hall.
  - exists [], []. split; [done|]. unfold ende; simpl. split.
    + destruct Ha as [->|(x & Hx & _)]; [done|by apply elem_of_nil in Hx].
    + destruct Hb as [->|(x & Hx & _)]; [done|by apply elem_of_nil in Hx].
  - pose proof Hl as Hl0. destruct x as [bx nx]. simpl in Hl. destruct Hl as (Hs & H8 & Hn & Hl).
    pose proof (r8_spec nx).
    assert (∀ y, y ∈ L → bx + 24 + r8 nx <= y.1 ∧ y.1 + 24 <= blk_end y ∧ blk_end y <= m) as Hlater.
    { intros [b' n'] Hy. eapply layout_in in Hy; [|exact Hl]. unfold blk_end; simpl.
      pose proof (r8_spec n'). lia. }
    pose proof (layout_le _ _ _ Hl) as Hle.
    destruct (Hall (bx, nx) ltac:(by left)) as [Hx|Hx]; unfold blk_end in Hx; simpl in Hx.
    + destruct (IH (bx + 24 + r8 nx)) as (A & C & -> & HA & HC); try done; try lia.
      * destruct Ha as [->|(y & Hy & <-)]; [lia|]. apply elem_of_cons in Hy as [->|Hy]; [by left|right; eauto].
      * destruct Hb as [->|(y & Hy & <-)]; [by left|]. apply elem_of_cons in Hy as [->|Hy]; [simpl in *; lia|right; eauto].
      * intros y Hy. apply Hall. by right.
      * exists ((bx, nx) :: A), C. split; [done|]. rewrite ende_cons. done.
    + exists [], ((bx, nx) :: L). split; [done|]. unfold ende; simpl. split.
      * destruct Ha as [->|(y & Hy & <-)]; [done|].
        apply elem_of_cons in Hy as [->|Hy]; [unfold blk_end in *; simpl in *; lia|].
        apply Hlater in Hy. lia.
      * destruct Hb as [->|(y & Hy & <-)]; [lia|].
        apply elem_of_cons in Hy as [->|Hy]; [done|]. apply Hlater in Hy. lia.
Qed.
Lemma hole_cut L m a b :
  layout 320 L m → hole (blkmap L) m a b → ∃ A C, L = A ++ C ∧ ende A 320 = a ∧ hdo C m = b.
Proof.
  intros Hl (Hab & Hbm & Ha & Hb & Hall). apply layout_hole; [done|done|done|..].
  - destruct Ha as [->|(o & n & Ho & <-)]; [by left|right].
    apply (blkmap_lookup _ _ _ _ _ Hl) in Ho. exists (o - 24, n). split; [done|].
    unfold blk_end; simpl. change (pad n) with (r8 n). lia.
  - destruct Hb as [->|(o & n & Ho & <-)]; [by left|right].
    apply (blkmap_lookup _ _ _ _ _ Hl) in Ho. exists (o - 24, n). done.
  - intros [bx nx] Hx. specialize (Hall (bx + 24) nx).
    rewrite (blkmap_lookup _ _ _ _ _ Hl) in Hall. replace (bx + 24 - 24) with bx in Hall by lia.
    specialize (Hall Hx). change (pad nx) with (r8 nx) in Hall. unfold blk_end; simpl. lia.
Qed.
Lemma cut_hole A C m : layout 320 (A ++ C) m → hole (blkmap (A ++ C)) m (ende A 320) (hdo C m).
Proof.
  intros Hl. pose proof Hl as Hl'. apply layout_app in Hl' as [Hl1 Hl2].
  pose proof (layout_start_le _ _ _ Hl2). pose proof (layout_hdo_le _ _ _ Hl2).
  pose proof (layout_ende_ge _ _ _ Hl1).
  split_and!; [lia|lia|lia|..].
  - destruct A as [|[p psz] A _] using rev_ind; [by left|right].
    exists (p + 24), psz. rewrite (blkmap_lookup _ _ _ _ _ Hl). replace (p + 24 - 24) with p by lia.
    split; [apply elem_of_app; left; apply elem_of_app; right; by left|].
    unfold ende. rewrite last_snoc. done.
  - destruct C as [|[p psz] C]; [by left|right].
    exists (p + 24), psz. rewrite (blkmap_lookup _ _ _ _ _ Hl). replace (p + 24 - 24) with p by lia.
    split; [apply elem_of_app; right; by left|done].
  - intros o n Ho. apply (blkmap_lookup _ _ _ _ _ Hl) in Ho. apply elem_of_app in Ho as [Ho|Ho].
    + left. eapply layout_in in Ho; [|exact Hl1]. change (pad n) with (r8 n). lia.
    + right. destruct C as [|[p psz] C]; [by apply elem_of_nil in Ho|]. simpl.
      apply elem_of_cons in Ho as [[= <- <-]|Ho]; [lia|].
      simpl in Hl2. destruct Hl2 as (_ & _ & ? & Hl2). eapply layout_in in Ho; [|exact Hl2].
      pose proof (r8_spec psz). lia.
Qed.
Lemma last_end_ende L m e : layout 320 L m → last_end (blkmap L) e → e = ende L 320.
Proof.
  intros Hl (H1 & H2 & H3). pose proof (layout_ende_ge _ _ _ Hl) as Hge.
  apply Z.le_antisymm.
  - destruct H1 as [->|(o & n & Ho & <-)]; [lia|].
    apply (blkmap_lookup _ _ _ _ _ Hl) in Ho. apply layout_end_iff in Hl as [Hl _].
    eapply layout_in in Ho; [|exact Hl]. change (pad n) with (r8 n). lia.
  - destruct L as [|[p psz] L _] using rev_ind; [done|].
    unfold ende. rewrite last_snoc. unfold blk_end; simpl.
    specialize (H3 (p + 24) psz). rewrite (blkmap_lookup _ _ _ _ _ Hl) in H3.
    replace (p + 24 - 24) with p in H3 by lia. change (pad psz) with (r8 psz) in H3.
    apply H3. apply elem_of_app; right; by left.
Qed.
Lemma ende_last_end L m : layout 320 L m → last_end (blkmap L) (ende L 320).
Proof.
  intros Hl. pose proof (layout_ende_ge _ _ _ Hl) as Hge. unfold last_end. split_and!; [|done|].
  - destruct L as [|[p psz] L _] using rev_ind; [by left|right].
    exists (p + 24), psz. rewrite (blkmap_lookup _ _ _ _ _ Hl). replace (p + 24 - 24) with p by lia.
    split; [apply elem_of_app; right; by left|]. unfold ende. by rewrite last_snoc.
  - intros o n Ho. apply (blkmap_lookup _ _ _ _ _ Hl) in Ho. apply layout_end_iff in Hl as [Hl _].
    eapply layout_in in Ho; [|exact Hl]. change (pad n) with (r8 n). lia.
Qed.
Lemma page_ceiling_unique x y y' : page_ceiling x y → page_ceiling x y' → y = y'.
Proof.
  intros [H1 H2] [H3 H4]. pose proof (Z.div_mod y 4096 ltac:(lia)). pose proof (Z.div_mod y' 4096 ltac:(lia)).
  nia.
Qed.

(** ** Invariants over the file *)
(** [d]: the previous owner of the lock died; back links, tail and accounting
    may be stale. *)
Definition sa_R (d : bool) (L : blocks) (bo m : Z) : hPropI :=
  (∃ ba bc, sa_rest bo ba bc ∗
     ⌜d = false → ba = sum_alloc L ∧ bc = (320 + sum_comm L)%Z⌝ ∗
     sa_core (negb d) L m ∗ ⌜layout 320 L m⌝)%I.
(** The user data of the blocks. *)
Definition blks (L : blocks) : hPropI := ([∗ list] x ∈ L, raw (x.1 + 24) (x.1 + 24 + x.2))%I.
Definition cont (f : Z * Z → list Z) (L : blocks) : hPropI :=
  ([∗ list] x ∈ L, pts (x.1 + 24) (f x))%I.
(** The user data of the blocks in a world. *)
Definition fW (W : world) (x : Z * Z) : list Z := w_read W (x.1 + 24) (Z.to_nat x.2).

Lemma sa_R_inv c L bo m e : pool_inv c m e ∗ sa_R false L bo m ⊣⊢ sa_inv c L m e bo.
Proof.
  iSplit.
  - iIntros "($ & %ba & %bc & Hr & %E & $ & $)". destruct E as [-> ->]; [done|]. done.
  - iIntros "($ & Hr & Hc & %Hl)". iExists _, _. iFrame. done.
Qed.
Lemma sa_R_crash c L bo : sa_crash c L bo ⊣⊢ ∃ m w e, pool_gen c m w e ∗ sa_R true L bo m.
Proof.
  iSplit.
  - iIntros "(%m & %w & %e & %ba & %bc & Hp & Hr & Hc & %Hl)". iExists m, w, e. iFrame.
    iExists ba, bc. iFrame. done.
  - iIntros "(%m & %w & %e & Hp & %ba & %bc & Hr & _ & Hc & %Hl)". iExists m, w, e, ba, bc.
    iFrame. done.
Qed.
Lemma sa_R_weaken d L bo m : sa_R d L bo m ⊢ sa_R true L bo m.
Proof.
  iIntros "(%ba & %bc & Hr & _ & Hc & %Hl)". iExists ba, bc. iFrame. iSplit; [done|].
  iSplit; [|done]. destruct d; [done|]. by iApply sa_core_weaken.
Qed.
Lemma sa_R_grow d L bo m w : m <= w → sa_R d L bo m ∗ raw m w ⊢ sa_R d L bo w.
Proof.
  intros Hw. iIntros "[(%ba & %bc & Hr & %E & Hc & %Hl) G]". iExists ba, bc. iFrame "Hr".
  iSplit; [done|]. iSplit; [by iApply (sa_core_grow with "Hc G")|]. iPureIntro.
  by eapply layout_weaken_end.
Qed.
Lemma sa_R_layout d L bo m : sa_R d L bo m ⊢ ⌜layout 320 L m⌝.
Proof. iIntros "(%ba & %bc & _ & _ & _ & %Hl)". done. Qed.

Lemma cont_blks f L : (∀ x, x ∈ L → Z.of_nat (length (f x)) = x.2) → cont f L ⊢ blks L.
Proof.
  intros Hf. unfold cont, blks. apply big_sepL_mono. intros i x Hx. apply elem_of_list_lookup_2 in Hx.
  apply pts_raw. rewrite Hf //.
Qed.
Lemma fW_length s e W L x : layout s L e → x ∈ L → Z.of_nat (length (fW W x)) = x.2.
Proof.
  destruct x as [b n]. intros Hl Hx. eapply layout_in in Hx; [|exact Hl]. unfold fW.
  rewrite w_read_length. simpl. lia.
Qed.
Lemma file_holds_blks L : ∀ R W,
  file_holds (λ m, R m ∗ blks L)%I W → file_holds (λ m, R m ∗ cont (fW W) L)%I W.
Proof.
  unfold blks, cont.
  induction L as [|[b n] L IH]; intros R W H; [done|].
  assert (file_holds (λ m, raw (b + 24) (b + 24 + n) ∗
     (R m ∗ [∗ list] x ∈ L, raw (x.1 + 24) (x.1 + 24 + x.2)))%I W) as H2.
  { eapply file_holds_mono; [|exact H]. intros m. simpl. iIntros "($ & $ & $)". }
  apply file_holds_raw in H2.
  assert (file_holds (λ m, (R m ∗ pts (b + 24) (fW W (b, n))) ∗
     [∗ list] x ∈ L, raw (x.1 + 24) (x.1 + 24 + x.2))%I W) as H3.
  { eapply file_holds_mono; [|exact H2]. intros m.
    replace (b + 24 + n - (b + 24)) with n by lia. iIntros "($ & $ & $)". }
  apply IH in H3. eapply file_holds_mono; [|exact H3]. intros m. simpl. iIntros "(($ & $) & $)".
Qed.
Lemma file_holds_cont R f L W x :
  file_holds (λ m, R m ∗ cont f L)%I W → x ∈ L → w_read W (x.1 + 24) (length (f x)) = f x.
Proof.
  intros H Hx. apply elem_of_list_lookup in Hx as [i Hx].
  eapply (file_holds_pts (λ m, True)%I). eapply file_holds_mono; [|exact H].
  intros m. unfold cont. iIntros "[_ H]". rewrite big_sepL_lookup; [|exact Hx]. iFrame.
Qed.
Lemma file_holds_fW s e R L W W' x :
  layout s L e → file_holds (λ m, R m ∗ cont (fW W) L)%I W' → x ∈ L → fW W' x = fW W x.
Proof.
  intros Hl H Hx. pose proof (fW_length _ _ W _ _ Hl Hx) as Hlen.
  unfold fW at 1. rewrite -(file_holds_cont _ _ _ _ _ H Hx). f_equal. lia.
Qed.

(** ** Operations under the lock *)
Lemma locked_run {A} d F L bo f R' Rx Rc W i pr (op : prog A) :
  file_holds (λ m, sa_R d L bo m ∗ cont f L)%I W → world_ok W → w_procs W !! i = Some pr →
  (length L <= F)%nat → growable Rc →
  (∀ m, sa_R true L bo m ∗ cont f L ⊢ Rc m) →
  (∀ e, sa_inv (Cfg (p_max pr) (w_lim W)) L (w_size W) e bo ∗ cont f L ⊢
     wpc (∃ m w e, pool_gen (Cfg (p_max pr) (w_lim W)) m w e ∗ Rc m) op
         (λ a, ∃ m' e', pool_inv (Cfg (p_max pr) (w_lim W)) m' e' ∗ R' a m')
         (λ x, ∃ m' e', pool_inv (Cfg (p_max pr) (w_lim W)) m' e' ∗ Rx x m')) →
  match run_by W i (under_lock d (sa_repair F) op) with
  | WDone a W' => file_holds (R' a) W' ∧ same_env W i pr W'
  | WExn x W' => file_holds (Rx x) W' ∧ same_env W i pr W'
  | WBad | WNoProc => False
  end ∧
  ∀ W', dies_in W i (under_lock d (sa_repair F) op) W' →
    file_holds Rc W' ∧ world_ok W' ∧ w_lim W' = w_lim W ∧ w_procs W' = delete i (w_procs W).
Proof.
  intros HR Hok Hi HF Hg Hc Hop. unfold under_lock.
  edestruct (run_by_lock (λ m, sa_R d L bo m ∗ cont f L)%I R' Rx Rc W i pr
    ((if d then sa_repair F else Ret tt) ;; op)) as [H1 H2]; [done|done|done|done| |].
  { intros e. iIntros "(Hp & HR & Hcont)". destruct d.
    - iDestruct "HR" as (ba bc) "(Hr & _ & Hcore & %Hl)".
      iApply (wpc_sa_repair with "Hp Hr Hcore"); [done|done|]. iSplit.
      + rewrite sa_R_crash. iIntros "(%m & %w & %e' & Hp & HR)". iExists m, w, e'. iFrame "Hp".
        iApply Hc. iFrame.
      + iIntros "Hinv". iApply Hop. iFrame.
    - wpn. iApply Hop. iFrame "Hcont". iApply sa_R_inv. iFrame. }
  split; [exact H1|]. intros W' HW'. apply H2 in HW' as ([Hf|Hf] & Hrest); split; try done.
  eapply file_holds_mono; [|exact Hf]. intros m. rewrite -Hc sa_R_weaken. done.
Qed.

(** ** The invariant of a history and the checks on states *)
Definition Inv (st : state) : Prop :=
  world_ok (st_w st) ∧ ∃ L, st_b st = blkmap L ∧
  file_holds (λ m, sa_R (st_dirty st) L (st_base st) m ∗ blks L)%I (st_w st).

Lemma file_holds_layout d L bo (X : Z → hPropI) W :
  file_holds (λ m, sa_R d L bo m ∗ X m)%I W → layout 320 L (w_size W).
Proof.
  intros H. apply file_holds_facts in H as (_ & _ & H). eapply holds_pure.
  eapply holds_mono; [|exact H]. rewrite sa_R_layout. iIntros "(_ & % & _)". done.
Qed.
Lemma file_holds_word R a v W :
  file_holds (λ m, word a v ∗ R m)%I W → w_word W a = v ∧ 0 <= a.
Proof.
  intros [m H]. assert (holds (word a v) (base_view W m)) as Hp.
  { eapply holds_mono; [|exact H]. iIntros "(_ & $ & _)". }
  apply holds_word in Hp as (Ha & _ & Hp). split; [|done]. rewrite -Hp. unfold w_word, w_read.
  f_equal.
Qed.
Lemma run_by_load64 R a v W i pr :
  file_holds (λ m, word a v ∗ R m)%I W → world_ok W → w_procs W !! i = Some pr → a + 8 <= 4096 →
  run (load64 a) (view W pr) = Done v (view W pr).
Proof.
  intros H Hok Hi Ha. pose proof (file_holds_facts _ _ H) as ([Hs _] & Hf & _).
  apply file_holds_word in H as [H Ha0]. destruct (Hok _ _ Hi) as [Hm _].
  rewrite run_load64. unfold valid. simpl mapped. simpl fsize.
  rewrite bool_decide_eq_true_2; [|lia]. f_equal. rewrite -H. done.
Qed.

Lemma Inv_inside st : Inv st → inside_and_disjoint st.
Proof.
  destruct st as [W d B bo]. intros (Hok & L & HB & HR). simpl in *. subst B.
  apply file_holds_layout in HR as Hl. split; simpl.
  - intros o n Ho. apply (blkmap_lookup _ _ _ _ _ Hl) in Ho. eapply layout_in in Ho; [|exact Hl].
    pose proof (r8_spec n). lia.
  - intros o n o' n' Ho Ho' Hne.
    apply (blkmap_lookup _ _ _ _ _ Hl) in Ho. apply (blkmap_lookup _ _ _ _ _ Hl) in Ho'.
    apply elem_of_list_lookup in Ho as [i Hi]. apply elem_of_list_lookup in Ho' as [j Hj].
    pose proof (r8_spec n). pose proof (r8_spec n').
    assert (i ≠ j) as Hij by (intros ->; simplify_eq; lia).
    destruct (decide (i < j)%nat) as [Hlt|Hlt].
    + pose proof (layout_sorted _ _ _ Hl i j _ _ Hlt Hi Hj) as Hs. unfold blk_end in Hs; simpl in Hs. lia.
    + assert (j < i)%nat as Hlt' by lia.
      pose proof (layout_sorted _ _ _ Hl j i _ _ Hlt' Hj Hi) as Hs. unfold blk_end in Hs; simpl in Hs. lia.
Qed.
Lemma Inv_sizes st : Inv st → block_sizes_right st.
Proof.
  destruct st as [W d B bo]. intros (Hok & L & HB & HR). simpl in *. subst B.
  apply file_holds_layout in HR as Hl. intros Hd i o n [pr Hi] Ho. simpl in *. subst d.
  apply (blkmap_lookup _ _ _ _ _ Hl) in Ho. apply elem_of_list_split in Ho as (L1 & L2 & ->).
  pose proof (run_by_lock_wp (λ m, sa_R false (L1 ++ (o - 24, n) :: L2) bo m ∗ blks (L1 ++ (o - 24, n) :: L2))%I
    (λ v m, ⌜v = n⌝)%I (λ _ _, False)%I W i pr (sa_block_size o) HR Hok Hi) as H.
  feed specialize H.
  { intros e. iIntros "(Hp & HR & _)". iAssert (sa_inv _ _ _ _ _) with "[Hp HR]" as "Hinv".
    { iApply sa_R_inv. iFrame. }
    iApply bind_ret_r.
    pose proof (wp_sa_block_size (A:=Z) (Cfg (p_max pr) (w_lim W)) L1 (o - 24) n L2 (w_size W) e bo) as HH.
    replace (o - 24 + 24) with o in HH by lia.
    iApply (HH with "Hinv"). iIntros "Hinv". iApply wp_ret.
    iDestruct "Hinv" as "(Hp & _)". iExists _, _. by iFrame "Hp". }
  destruct (run_by _ _ _) as [v W'|v W'| |]; try done.
  - destruct H as [H _]. assert (file_holds (λ m, ⌜v = n⌝ ∗ True)%I W') as H2.
    { eapply file_holds_mono; [|exact H]. intros. iIntros "%". done. }
    by apply file_holds_pure in H2 as [-> _].
  - destruct H as [[m H] _]. eapply (holds_pure False). eapply holds_mono; [|exact H]. iIntros "[_ []]".
Qed.
Lemma Inv_base st : Inv st → base_right st.
Proof.
  destruct st as [W d B bo]. intros (Hok & L & HB & HR). simpl in *.
  intros i [pr Hi]. simpl in *. unfold run_by. rewrite Hi. unfold sa_get_base.
  erewrite (run_by_load64 (λ _, True)%I _ bo _ _ _ _ Hok Hi); [done|unfold sa_base; lia].
  Unshelve. eapply file_holds_mono; [|exact HR]. intros m.
  iIntros "((%ba & %bc & (_ & Hb & _) & _) & _)". by iFrame.
Qed.
Lemma Inv_accounting st : Inv st → accounting_exact st.
Proof.
  destruct st as [W d B bo]. intros (Hok & L & HB & HR). simpl in *. subst B.
  apply file_holds_layout in HR as Hl. destruct (blkmap_sums _ _ _ Hl) as (_ & Hs1 & Hs2).
  intros Hd i [pr Hi]. simpl in *. subst d. unfold run_by. rewrite Hi.
  pose proof (run_by_load64 (λ _, True)%I sa_bytes_alloc (sum_alloc L) W i pr) as H1.
  pose proof (run_by_load64 (λ _, True)%I sa_bytes_comm (320 + sum_comm L) W i pr) as H2.
  feed specialize H1; [|done|done|unfold sa_bytes_alloc; lia|].
  { eapply file_holds_mono; [|exact HR]. intros m.
    iIntros "((%ba & %bc & (_ & _ & Hb & _) & %E & _) & _)". destruct E as [-> ->]; [done|]. by iFrame. }
  feed specialize H2; [|done|done|unfold sa_bytes_comm; lia|].
  { eapply file_holds_mono; [|exact HR]. intros m.
    iIntros "((%ba & %bc & (_ & _ & _ & Hb) & %E & _) & _)". destruct E as [-> ->]; [done|]. by iFrame. }
  assert (run (load64 0) (view W pr) = Done (w_size W) (view W pr)) as H0.
  { destruct (file_holds_facts _ _ HR) as ([? _] & ? & _). destruct (Hok _ _ Hi) as [? _].
    rewrite run_load64. unfold valid. simpl mapped. simpl fsize.
    rewrite bool_decide_eq_true_2; [|lia]. done. }
  split.
  - unfold sa_bytes_allocated. rewrite H1. by rewrite Hs1.
  - unfold sa_bytes_free. rewrite run_bind H0 run_bind H2. simpl run.
    pose proof (sum_bounds _ _ _ Hl) as [? ?]. destruct (file_holds_facts _ _ HR) as ([? _] & _).
    rewrite u64_small; [|lia]. rewrite Hs2. lia.
Qed.

(** ** The checks on transitions *)
Definition ct_all (st : state) (ob : obs) (st' : state) : Prop :=
  fresh_block st ob st' ∧ contents_kept st ob st' ∧ best_fit_placement st ob st' ∧
  free_complete st ob st'.

Lemma blks_cut L1 x L2 :
  blks (L1 ++ x :: L2) ⊣⊢ raw (x.1 + 24) (x.1 + 24 + x.2) ∗ blks (L1 ++ L2).
Proof. unfold blks. rewrite !big_sepL_app /=. iSplit; iIntros "($ & $ & $)". Qed.
Lemma cont_cut f L1 x L2 : cont f (L1 ++ x :: L2) ⊣⊢ pts (x.1 + 24) (f x) ∗ cont f (L1 ++ L2).
Proof. unfold cont. rewrite !big_sepL_app /=. iSplit; iIntros "($ & $ & $)". Qed.

(** Contents of the blocks that are still there. *)
Lemma same_contents s e R L W W' o n :
  layout s L e → file_holds (λ m, R m ∗ cont (fW W) L)%I W' → blkmap L !! o = Some n →
  w_read W' o (Z.to_nat n) = w_read W o (Z.to_nat n).
Proof.
  intros Hl H Ho. apply (blkmap_lookup _ _ _ _ _ Hl) in Ho.
  pose proof (file_holds_fW _ _ _ _ _ _ _ Hl H Ho) as HH. unfold fW in HH. simpl in HH.
  by replace (o - 24 + 24) with o in HH by lia.
Qed.

Lemma step_alloc W d L bo F i pr n :
  file_holds (λ m, sa_R d L bo m ∗ blks L)%I W → world_ok W → w_procs W !! i = Some pr →
  (length L <= F)%nat → 0 <= n <= 2 ^ 62 →
  match run_by W i (under_lock d (sa_repair F) (sa_allocate F n)) with
  | WDone o W' =>
      ∃ L1 L2, L = L1 ++ L2 ∧ o = ende L1 320 + 24 ∧
        file_holds (λ m, sa_R false (L1 ++ (ende L1 320, n) :: L2) bo m ∗ cont (fW W) L ∗
           raw (ende L1 320 + 24) (ende L1 320 + 24 + n))%I W' ∧ same_env W i pr W' ∧
        ((best_fit L1 L2 (w_size W) (r8 n + 24) ∧ w_size W' = w_size W) ∨
         (no_fit L (w_size W) (r8 n + 24) ∧ L2 = [] ∧
          w_size W' = round_page (ende L 320 + 24 + r8 n) ∧
          w_size W < w_size W' ∧ grow_allowed (Cfg (p_max pr) (w_lim W)) (w_size W')))
  | WExn e W' =>
      e = RuntimeError ∧
      file_holds (λ m, sa_R false L bo m ∗ cont (fW W) L)%I W' ∧ same_env W i pr W' ∧
      w_size W' = w_size W ∧ no_fit L (w_size W) (r8 n + 24) ∧
      ¬ grow_allowed (Cfg (p_max pr) (w_lim W)) (round_page (ende L 320 + 24 + r8 n))
  | WBad | WNoProc => False
  end ∧
  ∀ W', dies_in W i (under_lock d (sa_repair F) (sa_allocate F n)) W' →
    world_ok W' ∧
    (file_holds (λ m, sa_R true L bo m ∗ cont (fW W) L)%I W' ∨
     ∃ L1 L2, L = L1 ++ L2 ∧
       file_holds (λ m, sa_R true (L1 ++ (ende L1 320, n) :: L2) bo m ∗ cont (fW W) L ∗
           raw (ende L1 320 + 24) (ende L1 320 + 24 + n))%I W').
Proof.
  intros HR Hok Hi HF Hn. apply file_holds_blks in HR.
  set (Rold := λ m, (sa_R true L bo m ∗ cont (fW W) L)%I).
  set (Rnew := λ st L1 L2 m, (sa_R st (L1 ++ (ende L1 320, n) :: L2) bo m ∗ cont (fW W) L ∗
      raw (ende L1 320 + 24) (ende L1 320 + 24 + n))%I).
  set (Rc := λ m, (Rold m ∨ ∃ L1 L2, ⌜L = L1 ++ L2⌝ ∗ Rnew true L1 L2 m)%I).
  set (R' := λ (o m : Z), (∃ L1 L2, ⌜L = L1 ++ L2 ∧ o = (ende L1 320 + 24)%Z ∧
      ((best_fit L1 L2 (w_size W) (r8 n + 24) ∧ m = w_size W) ∨
         (no_fit L (w_size W) (r8 n + 24) ∧ L2 = [] ∧
          m = round_page (ende L 320 + 24 + r8 n) ∧
          w_size W < m ∧ grow_allowed (Cfg (p_max pr) (w_lim W)) m))⌝ ∗ Rnew false L1 L2 m)%I).
  set (Rx := λ (x : exn) (m : Z), (⌜x = RuntimeError ∧ m = w_size W ∧ no_fit L (w_size W) (r8 n + 24) ∧
      ¬ grow_allowed (Cfg (p_max pr) (w_lim W)) (round_page (ende L 320 + 24 + r8 n))⌝ ∗
      sa_R false L bo m ∗ cont (fW W) L)%I).
  destruct (locked_run d F L bo (fW W) R' Rx Rc W i pr (sa_allocate F n)) as [H1 H2]; try done.
  { intros m w Hw. unfold Rc, Rold, Rnew. iIntros "[[[HR Hc]|(%L1 & %L2 & -> & HR & Hc & Hraw)] G]".
    - iLeft. iFrame. iApply sa_R_grow; [done|]. iFrame.
    - iRight. iExists L1, L2. iSplit; [done|]. iFrame. iApply sa_R_grow; [done|]. iFrame. }
  { intros m. unfold Rc, Rold. iIntros "H". by iLeft. }
  { intros e. iIntros "[Hinv Hc]". iApply bind_ret_r.
    iApply (wpc_sa_allocate with "Hinv"); [done|done|]. iSplit; [|iSplit; [|iSplit]].
    - rewrite sa_R_crash. iIntros "(%m & %w & %e' & Hp & HR)". iExists m, w, e'. iFrame "Hp".
      iLeft. iFrame.
    - iIntros (L1 L2 HL) "Hcr Hraw". rewrite sa_R_crash. iDestruct "Hcr" as (m w e') "[Hp HR]".
      iExists m, w, e'. iFrame "Hp". iRight. iExists L1, L2. iSplit; [done|]. iFrame.
    - iIntros (L1 L2 m' e') "%Hpl Hinv Hraw". iApply wpc_ret. iSplit.
      + iDestruct (sa_inv_crash with "Hinv") as "Hcr". rewrite sa_R_crash.
        iDestruct "Hcr" as (m w e'') "[Hp HR]". iExists m, w, e''. iFrame "Hp". iRight.
        iExists L1, L2. iSplit; [iPureIntro; tauto|]. iFrame.
      + iExists m', e'. rewrite -sa_R_inv. iDestruct "Hinv" as "[$ HR]". iExists L1, L2. iFrame.
        iPureIntro. destruct Hpl as [? Hpl]. split_and!; [done|done|].
        destruct Hpl as [(? & ? & ?)|?]; [by left|by right].
    - iIntros "[%Hnf %Hga] Hinv". iSplit.
      + iDestruct (sa_inv_crash with "Hinv") as "Hcr". rewrite sa_R_crash.
        iDestruct "Hcr" as (m w e'') "[Hp HR]". iExists m, w, e''. iFrame "Hp". iLeft. iFrame.
      + iExists _, _. rewrite -sa_R_inv. iDestruct "Hinv" as "[$ HR]". by iFrame. }
  split.
  - destruct (run_by _ _ _) as [o W'|x W'| |]; try done.
    + destruct H1 as [H1 Henv]. unfold R' in H1.
      apply file_holds_facts in H1 as HH. destruct HH as (_ & _ & HH).
      assert (file_holds (λ m, ∃ L1 L2, ⌜L = L1 ++ L2 ∧ o = (ende L1 320 + 24)%Z ∧
        ((best_fit L1 L2 (w_size W) (r8 n + 24) ∧ w_size W' = w_size W) ∨
         (no_fit L (w_size W) (r8 n + 24) ∧ L2 = [] ∧
          w_size W' = round_page (ende L 320 + 24 + r8 n) ∧
          w_size W < w_size W' ∧ grow_allowed (Cfg (p_max pr) (w_lim W)) (w_size W')))⌝ ∗ Rnew false L1 L2 m)%I W') as H3.
      { exists (w_size W'). exact HH. }
      apply file_holds_exist in H3 as [L1 H3]. apply file_holds_exist in H3 as [L2 H3].
      apply file_holds_pure in H3 as [(-> & -> & Hpl) H3]. exists L1, L2. done.
    + destruct H1 as [H1 Henv]. apply file_holds_facts in H1 as (_ & _ & HH).
      assert (file_holds (λ m, ⌜x = RuntimeError ∧ w_size W' = w_size W ∧ no_fit L (w_size W) (r8 n + 24) ∧
        ¬ grow_allowed (Cfg (p_max pr) (w_lim W)) (round_page (ende L 320 + 24 + r8 n))⌝ ∗
        sa_R false L bo m ∗ cont (fW W) L)%I W') as H3.
      { exists (w_size W'). exact HH. }
      apply file_holds_pure in H3 as [(-> & ? & ? & ?) H3]. done.
  - intros W' HW'. apply H2 in HW' as (Hf & Hok' & _). split; [done|].
    unfold Rc in Hf. destruct Hf as [m Hf].
    assert (holds ((pool_inv (Cfg 0 (w_lim W')) m 0 ∗ Rold m) ∨
       (pool_inv (Cfg 0 (w_lim W')) m 0 ∗ ∃ L1 L2, ⌜L = L1 ++ L2⌝ ∗ Rnew true L1 L2 m))%I (base_view W' m)) as Hf2.
    { eapply holds_mono; [|exact Hf]. iIntros "[Hp [H|H]]"; [iLeft|iRight]; iFrame. }
    destruct Hf2 as [Hwf Hf2]. apply hp_or in Hf2 as [Hf2|Hf2].
    + left. exists m. by split.
    + right.
      assert (file_holds (λ m, ∃ L1 L2, ⌜L = L1 ++ L2⌝ ∗ Rnew true L1 L2 m)%I W') as H3.
      { exists m. by split. }
      apply file_holds_exist in H3 as [L1 H3]. apply file_holds_exist in H3 as [L2 H3].
      apply file_holds_pure in H3 as [-> H3]. eauto.
Qed.

Lemma step_free W d L1 b n L2 bo F i pr :
  let L := L1 ++ (b, n) :: L2 in
  file_holds (λ m, sa_R d L bo m ∗ blks L)%I W → world_ok W → w_procs W !! i = Some pr →
  (length L <= F)%nat →
  match run_by W i (under_lock d (sa_repair F) (sa_free (b + 24))) with
  | WDone _ W' =>
      same_env W i pr W' ∧ w_size W' = w_size W ∧
      if bool_decide (b + 48 <= w_size W)
      then file_holds (λ m, sa_R false (L1 ++ L2) bo m ∗ cont (fW W) (L1 ++ L2))%I W'
      else file_holds (λ m, sa_R false L bo m ∗ cont (fW W) L)%I W'
  | WExn _ _ | WBad | WNoProc => False
  end ∧
  ∀ W', dies_in W i (under_lock d (sa_repair F) (sa_free (b + 24))) W' →
    world_ok W' ∧
    (file_holds (λ m, sa_R true L bo m ∗ cont (fW W) L)%I W' ∨
     file_holds (λ m, sa_R true (L1 ++ L2) bo m ∗ cont (fW W) (L1 ++ L2))%I W').
Proof.
  intros L HR Hok Hi HF. apply file_holds_layout in HR as Hl. apply file_holds_blks in HR.
  assert (Z.of_nat (length (fW W (b, n))) = n) as Hlen.
  { apply (fW_length _ _ W _ (b, n) Hl). apply elem_of_app; right; by left. }
  set (Rc := λ m, ((sa_R true L bo m ∗ cont (fW W) L) ∨
                   (sa_R true (L1 ++ L2) bo m ∗ cont (fW W) (L1 ++ L2)))%I).
  set (R' := λ (_ : unit) (m : Z), (⌜m = w_size W⌝ ∗
      if bool_decide (b + 48 <= w_size W)
      then sa_R false (L1 ++ L2) bo m ∗ cont (fW W) (L1 ++ L2)
      else sa_R false L bo m ∗ cont (fW W) L)%I).
  destruct (locked_run d F L bo (fW W) R' (λ _ _, False)%I Rc W i pr (sa_free (b + 24))) as [H1 H2]; try done.
  { intros m w Hw. unfold Rc. iIntros "[[[HR Hc]|[HR Hc]] G]"; [iLeft|iRight]; iFrame "Hc";
      (iApply sa_R_grow; [done|]); iFrame. }
  { intros m. iIntros "H". by iLeft. }
  { intros e. iIntros "[Hinv Hc]". iApply bind_ret_r. unfold L. rewrite cont_cut.
    iDestruct "Hc" as "[Hb Hc]".
    iApply (wpc_sa_free _ _ L1 b n L2 _ _ _ (pts (b + 24) (fW W (b, n))) with "Hinv Hb").
    { iIntros "H". iExists _. iFrame. iPureIntro. lia. }
    iSplit; [|iSplit; [|iSplit]].
    - rewrite sa_R_crash. iIntros "(%m & %w & %e' & Hp & HR) Hb". iExists m, w, e'. iFrame "Hp".
      iLeft. unfold L. rewrite cont_cut. iFrame.
    - rewrite sa_R_crash. iIntros "(%m & %w & %e' & Hp & HR)". iExists m, w, e'. iFrame "Hp".
      iRight. iFrame.
    - iIntros "%Hlt Hinv Hb". iApply wpc_ret. iSplit.
      + iDestruct (sa_inv_crash with "Hinv") as "Hcr". rewrite sa_R_crash.
        iDestruct "Hcr" as (m w e'') "[Hp HR]". iExists m, w, e''. iFrame "Hp".
        iLeft. unfold L. rewrite cont_cut. iFrame.
      + iExists _, _. rewrite -sa_R_inv. iDestruct "Hinv" as "[$ HR]". iSplit; [done|].
        rewrite bool_decide_eq_false_2; [|lia]. unfold L. rewrite cont_cut. iFrame.
    - iIntros "%Hlt Hinv". iApply wpc_ret. iSplit.
      + iDestruct (sa_inv_crash with "Hinv") as "Hcr". rewrite sa_R_crash.
        iDestruct "Hcr" as (m w e'') "[Hp HR]". iExists m, w, e''. iFrame "Hp". iRight. iFrame.
      + iExists _, _. rewrite -sa_R_inv. iDestruct "Hinv" as "[$ HR]". iSplit; [done|].
        rewrite bool_decide_eq_true_2; [|lia]. iFrame. }
  split.
  - destruct (run_by _ _ _) as [o W'|x W'| |]; try done.
    + destruct H1 as [H1 Henv]. split; [done|].
      unfold R' in H1. apply file_holds_pure_m in H1 as [Hm H1]. split; [done|]. by case_bool_decide.
    + destruct H1 as [[m H] _]. eapply (holds_pure False). eapply holds_mono; [|exact H]. iIntros "[_ []]".
  - intros W' HW'. apply H2 in HW' as (Hf & Hok' & _). split; [done|]. by apply file_holds_or in Hf.
Qed.

(** Writing into a block. *)
Definition splice (old : list Z) (k : nat) (bs : list Z) : list Z :=
  take k old ++ bs ++ drop (k + length bs) old.
Lemma step_write W d L1 b n L2 bo F i pr k bs :
  let L := L1 ++ (b, n) :: L2 in
  file_holds (λ m, sa_R d L bo m ∗ blks L)%I W → world_ok W → w_procs W !! i = Some pr →
  (length L <= F)%nat → 0 <= k → k + Z.of_nat (length bs) <= n → bytes_ok bs →
  match run_by W i (under_lock d (sa_repair F) (store_bytes (b + 24 + k) bs)) with
  | WDone _ W' =>
      same_env W i pr W' ∧ w_size W' = w_size W ∧
      file_holds (λ m, sa_R false L bo m ∗ cont (fW W) (L1 ++ L2) ∗
        pts (b + 24) (splice (fW W (b, n)) (Z.to_nat k) bs))%I W'
  | WExn _ _ | WBad | WNoProc => False
  end.
Proof.
  intros L HR Hok Hi HF Hk Hkn Hbs. apply file_holds_layout in HR as Hl. apply file_holds_blks in HR.
  assert (Z.of_nat (length (fW W (b, n))) = n) as Hlen.
  { apply (fW_length _ _ W _ (b, n) Hl). apply elem_of_app; right; by left. }
  pose proof (run_by_lock_wp (λ m, sa_R d L bo m ∗ cont (fW W) L)%I
    (λ (_ : unit) m, ⌜m = w_size W⌝ ∗ sa_R false L bo m ∗ cont (fW W) (L1 ++ L2) ∗
        pts (b + 24) (splice (fW W (b, n)) (Z.to_nat k) bs))%I (λ _ _, False)%I W i pr
    ((if d then sa_repair F else Ret tt) ;; store_bytes (b + 24 + k) bs) HR Hok Hi) as H.
  feed specialize H.
  { intros e. iIntros "(Hp & HR & Hcont)".
    assert (⊢ sa_inv (Cfg (p_max pr) (w_lim W)) L (w_size W) e bo -∗ cont (fW W) L -∗
      wp (store_bytes (b + 24 + k) bs) (λ _ : (), ∃ m' e',
            pool_inv {| c_max := p_max pr; c_lim := w_lim W |} m' e' ∗
            ⌜m' = w_size W⌝ ∗
            sa_R false L bo m' ∗
            cont (fW W) (L1 ++ L2) ∗
            pts (b + 24) (splice (fW W (b, n)) (Z.to_nat k) bs))
        (λ x, ∃ m' e' : Z, pool_inv {| c_max := p_max pr; c_lim := w_lim W |} m' e' ∗ False))%I as HH.
    { iIntros "Hinv Hcont". unfold L. rewrite cont_cut. simpl fst. iDestruct "Hcont" as "[Hb Hcont]".
      set (old := fW W (b, n)) in *.
      assert (old = take (Z.to_nat k) old ++ take (length bs) (drop (Z.to_nat k) old) ++
               drop (Z.to_nat k + length bs) old) as Hsp.
      { rewrite -drop_drop take_drop take_drop //. }
      rewrite {1}Hsp. rewrite pts_app pts_app. iDestruct "Hb" as "(H1 & H2 & H3)".
      rewrite take_length Nat.min_l; [|lia].
      replace (b + 24 + Z.of_nat (Z.to_nat k)) with (b + 24 + k) by lia.
      rewrite take_length drop_length Nat.min_l; [|lia].
      iApply (wp_store_bytes with "H2"); [rewrite take_length drop_length; lia|done|].
      iIntros "H2". iExists _, _. rewrite -sa_R_inv. iDestruct "Hinv" as "[$ $]". iFrame "Hcont".
      iSplit; [done|]. unfold splice. rewrite pts_app pts_app.
      rewrite take_length Nat.min_l; [|lia].
      replace (b + 24 + Z.of_nat (Z.to_nat k)) with (b + 24 + k) by lia. iFrame. }
    destruct d.
    - iDestruct "HR" as (ba bc) "(Hr & _ & Hcore & %Hl')".
      iApply (wpc_sa_repair with "Hp Hr Hcore"); [done|done|]. iSplit; [by iIntros "_"|].
      iIntros "Hinv". iApply (HH with "Hinv Hcont").
    - wpn. iApply (HH with "[Hp HR] Hcont"). iApply sa_R_inv. iFrame. }
  unfold under_lock. destruct (run_by _ _ _) as [o W'|x W'| |]; try done.
  - destruct H as [H Henv]. apply file_holds_pure_m in H as [Hm H]. done.
  - destruct H as [[m H] _]. eapply (holds_pure False). eapply holds_mono; [|exact H]. iIntros "[_ []]".
Qed.

Lemma step_base W d L bo F i pr v :
  file_holds (λ m, sa_R d L bo m ∗ blks L)%I W → world_ok W → w_procs W !! i = Some pr →
  (length L <= F)%nat → is_u64 v →
  match run_by W i (under_lock d (sa_repair F) (sa_set_base v)) with
  | WDone _ W' =>
      same_env W i pr W' ∧ w_size W' = w_size W ∧
      file_holds (λ m, sa_R false L v m ∗ cont (fW W) L)%I W'
  | WExn _ _ | WBad | WNoProc => False
  end.
Proof.
  intros HR Hok Hi HF Hv. apply file_holds_layout in HR as Hl. apply file_holds_blks in HR.
  pose proof (run_by_lock_wp (λ m, sa_R d L bo m ∗ cont (fW W) L)%I
    (λ (_ : unit) m, ⌜m = w_size W⌝ ∗ sa_R false L v m ∗ cont (fW W) L)%I (λ _ _, False)%I W i pr
    ((if d then sa_repair F else Ret tt) ;; sa_set_base v) HR Hok Hi) as H.
  feed specialize H.
  { intros e. iIntros "(Hp & HR & Hcont)".
    assert (⊢ sa_inv (Cfg (p_max pr) (w_lim W)) L (w_size W) e bo -∗ cont (fW W) L -∗
      wp (sa_set_base v) (λ _ : (), ∃ m' e',
            pool_inv {| c_max := p_max pr; c_lim := w_lim W |} m' e' ∗
            ⌜m' = w_size W⌝ ∗
            sa_R false L v m' ∗ cont (fW W) L)
        (λ x, ∃ m' e' : Z, pool_inv {| c_max := p_max pr; c_lim := w_lim W |} m' e' ∗ False))%I as HH.
    { iIntros "Hinv Hcont". iApply bind_ret_r. iApply (wp_sa_set_base with "Hinv"); [done|].
      iIntros "Hinv". iApply wp_ret. iExists _, _. rewrite -sa_R_inv. iDestruct "Hinv" as "[$ $]".
      by iFrame. }
    destruct d.
    - iDestruct "HR" as (ba bc) "(Hr & _ & Hcore & %Hl')".
      iApply (wpc_sa_repair with "Hp Hr Hcore"); [done|done|]. iSplit; [by iIntros "_"|].
      iIntros "Hinv". iApply (HH with "Hinv Hcont").
    - wpn. iApply (HH with "[Hp HR] Hcont"). iApply sa_R_inv. iFrame. }
  unfold under_lock. destruct (run_by _ _ _) as [o W'|x W'| |]; try done.
  - destruct H as [H Henv]. apply file_holds_pure_m in H as [Hm H]. done.
  - destruct H as [[m H] _]. eapply (holds_pure False). eapply holds_mono; [|exact H]. iIntros "[_ []]".
Qed.

(** Opening the pool in another process. *)
Lemma step_open W d L bo F i mx :
  file_holds (λ m, sa_R d L bo m ∗ blks L)%I W → world_ok W → 0 <= mx →
  ∃ pr, open_alloc W d F i mx =
        WDone tt (World (w_mem W) (w_fsize W) (w_lim W) (<[i := pr]> (w_procs W))) ∧ proc_ok pr.
Proof.
  intros HR Hok Hmx. pose proof (file_holds_facts _ _ HR) as ([Hs _] & Hf & _).
  set (pr := Proc (w_fsize W) mx (0 + 1)). exists pr.
  assert (proc_ok pr) as Hpr by (split; simpl; lia). split; [|done].
  set (W' := World (w_mem W) (w_fsize W) (w_lim W) (<[i := pr]> (w_procs W))).
  unfold open_alloc, open_by, pool_open, get_fsize. rewrite run_bind. cbn [run exec fsize].
  rewrite (bool_decide_eq_false_2 (w_fsize W = 0)); [|lia]. unfold remap. cbn [run exec].
  change (leave _ _ _) with W'.
  assert (w_procs W' !! i = Some pr) as Hi by apply lookup_insert.
  unfold run_by. rewrite Hi. unfold sa_construct. rewrite run_bind.
  assert (world_ok W') as Hok'.
  { intros j q. simpl. destruct (decide (j = i)) as [->|Hne].
    - rewrite lookup_insert. by intros [= <-].
    - rewrite lookup_insert_ne //. apply Hok. }
  assert (file_holds (λ m, ∃ i, ⌜i ≠ 0⌝ ∗ word sa_initialized i ∗ True)%I W') as HH.
  { apply (file_holds_same _ W); [done|done|done|].
    eapply file_holds_mono; [|exact HR]. intros m.
    iIntros "((%ba & %bc & ((%ii & Hi & %Hne) & _) & _) & _)". iExists ii. by iFrame. }
  apply file_holds_exist in HH as [ii HH]. apply file_holds_pure in HH as [Hne HH].
  erewrite (run_by_load64 _ _ _ _ _ _ HH Hok' Hi); [|unfold sa_initialized; lia].
  rewrite (bool_decide_eq_true_2 (ii ≠ 0)); [|done]. simpl run.
  f_equal. unfold leave, W'. simpl. f_equal. by rewrite insert_insert.
Qed.

(** ** Creation *)
(** The header of a pool whose allocator has not been constructed yet. *)
Definition fresh (m : Z) : hPropI :=
  (word sa_initialized 0 ∗ word sa_base 0 ∗ word sa_bytes_alloc 0 ∗ (∃ bc, word sa_bytes_comm bc) ∗
   word sa_head 0 ∗ word sa_tail 0 ∗ raw 320 m)%I.
Definition begun (d : bool) (m : Z) : hPropI := (fresh m ∨ sa_R d [] 0 m)%I.

Lemma layout_nil m : 320 <= m → layout 320 [] m.
Proof. simpl. done. Qed.

Lemma fresh_size m c e w : pool_gen c m w e ⊢ ⌜size_ok m⌝.
Proof. iIntros "(_ & _ & _ & _ & _ & _ & %Hx)". iPureIntro. tauto. Qed.

Lemma wpc_construct F (d : bool) c m e2 :
  pool_inv c m e2 ∗ fresh m ⊢
  wpc (∃ m w e, pool_gen c m w e ∗ begun true m)
    ((if d then sa_repair F else Ret tt) ;; sa_init_body)
    (λ _, ∃ m' e', pool_inv c m' e' ∗ ⌜m' = m⌝ ∗ sa_R false [] 0 m')
    (λ _, ∃ m' e', pool_inv c m' e' ∗ False).
Proof.
  assert (∀ d m, sa_R d [] 0 m ⊢ begun true m) as Hw.
  { intros ??. rewrite sa_R_weaken. iIntros "H". by iRight. }
  iIntros "[Hp Hf]".
  iDestruct (fresh_size with "Hp") as %[Hm _].
  assert (⊢ ∀ e i t bc, pool_inv c m e -∗ word sa_initialized i -∗ word sa_base 0 -∗ word sa_bytes_alloc 0 -∗
     word sa_bytes_comm bc -∗ word sa_head 0 -∗ word sa_tail t -∗ ⌜i = 0 → t = 0⌝ -∗ raw 320 m -∗
     ∃ m w e, pool_gen c m w e ∗ begun true m)%I as Hcl.
  { iIntros (e' i t bc) "Hp Hi Hb Ha Hc Hh Ht %Hit G". iExists m, m, e'. iFrame "Hp".
    destruct (decide (i = 0)) as [->|Hne].
    - iLeft. rewrite Hit //. iFrame. by iExists bc.
    - iRight. iExists 0, bc. iFrame. iSplitL "Hi"; [by iExists i; iFrame|]. iSplit; [done|].
      iSplit; [|iPureIntro; simpl; lia]. iExists t. by iFrame. }
  iDestruct "Hf" as "(Hi & Hb & Ha & (%bc & Hc) & Hh & Ht & G)".
  iApply bind_ret_r. wpn.
  (* the initialisation itself *)
  assert (⊢ ∀ bc, pool_inv c m e2 -∗ word sa_initialized 0 -∗ word sa_base 0 -∗ word sa_bytes_alloc 0 -∗
     word sa_bytes_comm bc -∗ word sa_head 0 -∗ word sa_tail 0 -∗ raw 320 m -∗
     wpc (∃ m w e, pool_gen c m w e ∗ begun true m)
       (i <- load64 sa_initialized ;;
        x <- (if bool_decide (i <> 0) then Ret tt
        else
          store64 sa_initialized 1 ;;
          store64 sa_base 0 ;;
          store64 sa_head 0 ;;
          store64 sa_tail 0 ;;
          store64 sa_bytes_alloc 0 ;;
          store64 sa_bytes_comm sa_sizeof_data) ;; Ret x)
       (λ _, ∃ m' e', pool_inv c m' e' ∗ ⌜m' = m⌝ ∗ sa_R false [] 0 m')
       (λ _, ∃ m' e', pool_inv c m' e' ∗ False))%I as Hinit.
  { iIntros (bc') "Hp Hi Hb Ha Hc Hh Ht G". wpn.
    iApply wpc_load64. iSplit.
    { iApply (Hcl with "Hp Hi Hb Ha Hc Hh Ht [//] G"). }
    iFrame "Hi". iIntros "Hi". rewrite (bool_decide_eq_false_2 (0 ≠ 0)); [|lia]. wpn.
    iApply wpc_store64; [done|]. iSplit.
    { iApply (Hcl with "Hp Hi Hb Ha Hc Hh Ht [//] G"). }
    iFrame "Hi". iIntros "Hi". wpn.
    iApply wpc_store64; [done|]. iSplit.
    { iApply (Hcl with "Hp Hi Hb Ha Hc Hh Ht [//] G"). }
    iFrame "Hb". iIntros "Hb". wpn.
    iApply wpc_store64; [done|]. iSplit.
    { iApply (Hcl with "Hp Hi Hb Ha Hc Hh Ht [//] G"). }
    iFrame "Hh". iIntros "Hh". wpn.
    iApply wpc_store64; [done|]. iSplit.
    { iApply (Hcl with "Hp Hi Hb Ha Hc Hh Ht [//] G"). }
    iFrame "Ht". iIntros "Ht". wpn.
    iApply wpc_store64; [done|]. iSplit.
    { iApply (Hcl with "Hp Hi Hb Ha Hc Hh Ht [//] G"). }
    iFrame "Ha". iIntros "Ha". wpn.
    iApply wpc_store64; [done|]. iSplit.
    { iApply (Hcl with "Hp Hi Hb Ha Hc Hh Ht [//] G"). }
    iFrame "Hc". iIntros "Hc". iApply wpc_ret. iSplit.
    { iApply (Hcl with "Hp Hi Hb Ha Hc Hh Ht [//] G"). }
    iExists m, e2. iFrame "Hp". iSplit; [done|]. iExists 0, 320. iFrame "Hb Ha Hc".
    iSplitL "Hi"; [iExists 1; by iFrame|]. iSplit; [done|]. iSplit; [|iPureIntro; simpl; lia].
    iFrame "Hh". iSplitL "Ht"; [iExists 0; by iFrame|]. simpl. by iFrame. }
  destruct d; wpn; unfold sa_init_body.
  - (* repair on the empty list *)
    unfold sa_repair. wpn.
    iApply wpc_load64. iSplit.
    { iApply (Hcl with "Hp Hi Hb Ha Hc Hh Ht [//] G"). }
    iFrame "Hh". iIntros "Hh". wpn.
    assert (∀ k : Z * Z * Z → prog unit, (x <- sa_repair_loop F 0 0 0 sa_sizeof_data ;; k x) = k (0, 0, sa_sizeof_data)) as ->.
    { intros k. destruct F; simpl; done. }
    wpn.
    iApply wpc_store64; [done|]. iSplit.
    { iApply (Hcl with "Hp Hi Hb Ha Hc Hh Ht [//] G"). }
    iFrame "Ht". iIntros "Ht". wpn.
    iApply wpc_store64; [done|]. iSplit.
    { iApply (Hcl with "Hp Hi Hb Ha Hc Hh Ht [//] G"). }
    iFrame "Ha". iIntros "Ha". wpn.
    iApply wpc_store64; [done|]. iSplit.
    { iApply (Hcl with "Hp Hi Hb Ha Hc Hh Ht [//] G"). }
    iFrame "Hc". iIntros "Hc". wpn. iApply (Hinit with "Hp Hi Hb Ha Hc Hh Ht G").
  - wpn. iApply (Hinit with "Hp Hi Hb Ha Hc Hh Ht G").
Qed.

Lemma begun_grow : growable (begun true).
Proof.
  intros m w Hw. iIntros "[[(Hi & Hb & Ha & Hc & Hh & Ht & G)|H] G2]".
  - iLeft. iFrame. iDestruct (raw_le with "G") as %?. iApply (raw_split _ m); [lia|]. iFrame.
  - iRight. iApply sa_R_grow; [done|]. iFrame.
Qed.

(** The state of the world until the first allocation. *)
Definition started_ok (W : world) (d : bool) : Prop :=
  world_ok W ∧
  ((w_word W 8 = 0 ∧ file_holds fresh W) ∨ (w_word W 8 ≠ 0 ∧ file_holds (sa_R d [] 0) W)).
Lemma started_ok_intro W d :
  world_ok W → file_holds (begun d) W → started_ok W d.
Proof.
  intros Hok H. split; [done|]. apply file_holds_or in H as [H|H].
  - left. split; [|done]. eapply (file_holds_word (λ _, True)%I). eapply file_holds_mono; [|exact H].
    intros m. iIntros "($ & _)".
  - right. split; [|done].
    assert (file_holds (λ m, ∃ i, ⌜i ≠ 0⌝ ∗ word sa_initialized i ∗ True)%I W) as HH.
    { eapply file_holds_mono; [|exact H]. intros m.
      iIntros "(%ba & %bc & ((%ii & Hi & %Hne) & _) & _)". iExists ii. by iFrame. }
    apply file_holds_exist in HH as [ii HH]. apply file_holds_pure in HH as [Hne HH].
    apply file_holds_word in HH as [HH _]. unfold sa_initialized in HH. congruence.
Qed.

Lemma started_ok_file W d : started_ok W d → file_holds (begun d) W.
Proof.
  intros [_ [[_ H]|[_ H]]]; (eapply file_holds_mono; [|exact H]); intros m; iIntros "H"; [by iLeft|by iRight].
Qed.
Lemma started_load W d i pr :
  started_ok W d → w_procs W !! i = Some pr →
  run (load64 sa_initialized) (view W pr) = Done (w_word W 8) (view W pr).
Proof.
  intros Hs Hi. pose proof (started_ok_file _ _ Hs) as Hf.
  destruct (file_holds_facts _ _ Hf) as ([? _] & ? & _). destruct Hs as [Hok _].
  destruct (Hok _ _ Hi) as [? _].
  rewrite run_load64. unfold valid, sa_initialized. simpl mapped. simpl fsize.
  rewrite bool_decide_eq_true_2; [|lia]. done.
Qed.

Lemma started_construct W d i pr F :
  started_ok W d → w_procs W !! i = Some pr →
  (∃ W', run_by W i (sa_construct d F) = WDone tt W' ∧
     started_ok W' (if decide (w_word W 8 = 0) then false else d) ∧ w_word W' 8 ≠ 0) ∧
  ∀ W', dies_in W i (sa_construct d F) W' → started_ok W' true.
Proof.
  intros Hs Hi. pose proof (started_load _ _ _ _ Hs Hi) as Hld. pose proof Hs as [Hok _].
  assert (∀ W' s, w_mem W' = mem s → w_fsize W' = fsize s → w_lim W' = w_lim W → s = view W pr → world_ok W' →
    started_ok W' d ∧ started_ok W' true ∧ w_word W' 8 = w_word W 8) as Hsame.
  { intros W' s E1 E2 E3 -> Hok'. simpl in *.
    assert (w_word W' 8 = w_word W 8) as E4.
    { unfold w_word, w_read. f_equal. by apply read_bytes_mem. }
    split_and!; [| |done]; (apply started_ok_intro; [done|]; eapply (file_holds_same _ W); [done|done|done|]).
    - by apply started_ok_file.
    - eapply file_holds_mono; [|by apply started_ok_file]. intros m. unfold begun. by rewrite sa_R_weaken. }
  assert (world_ok (leave W i (view W pr))) as Hokl.
  { intros j q. simpl. destruct (decide (j = i)) as [->|Hne].
    - rewrite lookup_insert. intros [= <-]. destruct pr. by eapply Hok.
    - rewrite lookup_insert_ne //. apply Hok. }
  assert (world_ok (die W i (view W pr))) as Hokd.
  { intros j q. simpl. rewrite lookup_delete_Some. intros [_ Hj]. by eapply Hok. }
  destruct (decide (w_word W 8 = 0)) as [Hz|Hnz].
  - destruct Hs as [_ [[_ Hf]|[? _]]]; [|done].
    destruct (run_by_lock fresh (λ _ m, sa_R false [] 0 m) (λ _ _, False)%I (begun true) W i pr
      ((if d then sa_repair F else Ret tt) ;; sa_init_body)) as [H1 H2]; [done|done|done|apply begun_grow| |].
    { intros e. rewrite wpc_construct. iIntros "H". iApply (wpc_strong_mono with "H").
      iSplit; [|iSplit]; [|auto|auto]. iIntros (?) "(%m & %e' & Hp & _ & HR)". iExists m, e'. iFrame. }
    split.
    + unfold sa_construct, run_by in *. rewrite Hi in H1 |- *. rewrite run_bind Hld Hz.
      rewrite (bool_decide_eq_false_2 (0 ≠ 0)); [|lia]. unfold under_lock.
      clear Hld Hsame. destruct (run _ _) as [[] s|x s| |]; try done.
      * destruct H1 as [H1 (_ & Hok' & _)]. eexists. split; [done|].
        assert (started_ok (leave W i s) false) as Hs'.
        { apply started_ok_intro; [done|]. eapply file_holds_mono; [|exact H1]. intros m. iIntros "H". by iRight. }
        split; [done|]. 
        assert (file_holds (λ m, ∃ i, ⌜i ≠ 0⌝ ∗ word sa_initialized i ∗ True)%I (leave W i s)) as HH.
        { eapply file_holds_mono; [|exact H1]. intros m.
          iIntros "(%ba & %bc & ((%ii & Hi & %Hne) & _) & _)". iExists ii. by iFrame. }
        apply file_holds_exist in HH as [ii HH]. apply file_holds_pure in HH as [Hne HH].
        apply file_holds_word in HH as [HH _]. unfold sa_initialized in HH. congruence.
      * destruct H1 as [[m H] _]. exfalso. eapply (holds_pure False). eapply holds_mono; [|exact H]. iIntros "[_ []]".
    + intros W' (pr' & s & Hi' & Hc & ->). simplify_eq. unfold sa_construct in Hc.
      apply crash_bind in Hc as [Hc|(v & s1 & Hr & Hc)].
      * apply crash_load64 in Hc as ->. eapply Hsame; done.
      * rewrite Hld in Hr. injection Hr as <- <-. rewrite Hz in Hc.
        rewrite (bool_decide_eq_false_2 (0 ≠ 0)) in Hc; [|lia].
        destruct (H2 (die W i s)) as ([HR|HR] & Hok' & _).
        { exists pr, s. done. }
        -- apply started_ok_intro; [done|]. eapply file_holds_mono; [|exact HR]. intros m. iIntros "H". by iLeft.
        -- by apply started_ok_intro.
  - split.
    + eexists. unfold run_by, sa_construct. rewrite Hi run_bind Hld.
      rewrite (bool_decide_eq_true_2 (w_word W 8 ≠ 0)); [|done]. simpl run. split; [done|].
      destruct (Hsame (leave W i (view W pr)) (view W pr)) as (? & ? & ->); try done.
    + intros W' (pr' & s & Hi' & Hc & ->). simplify_eq. unfold sa_construct in Hc.
      apply crash_bind in Hc as [Hc|(v & s1 & Hr & Hc)].
      * apply crash_load64 in Hc as ->. eapply Hsame; done.
      * rewrite Hld in Hr. injection Hr as <- <-.
        rewrite (bool_decide_eq_true_2 (w_word W 8 ≠ 0)) in Hc; [|done].
        destruct Hc as [->|[]]. eapply Hsame; done.
Qed.

Lemma holds_no_pool mx lim :
  holds (cell a_mapped 0 ∗ cell a_epoch 0 ∗ cell a_maxsz mx ∗ cell a_oslim lim ∗ cell a_fsize 0)
        (no_pool mx lim).
Proof.
  split.
  { split; simpl; [lia|]. intros a. unfold bget. simpl. rewrite lookup_empty. simpl. unfold is_byte. lia. }
  change (heap_of (no_pool mx lim)) with
    (<[a_mapped := 0]> (<[a_epoch := 0]> (<[a_maxsz := mx]> (<[a_oslim := lim]> (<[a_fsize := 0]> (∅ : gmap Z Z)))))).
  assert (∀ a v (h : gmap Z Z) (P : hPropI), h !! a = None → P h → (cell a v ∗ P)%I (<[a := v]> h)) as Hins.
  { intros a v h P Hn HP. apply hp_sep. exists {[a := v]}, h. split_and!; [|by rewrite insert_union_singleton_l| |done].
    - by apply map_disjoint_singleton_l.
    - apply hp_cell. apply lookup_singleton. }
  apply Hins; [done|]. apply Hins; [done|]. apply Hins; [done|]. apply Hins; [done|].
  apply hp_cell. apply lookup_insert.
Qed.

Lemma pool_create_spec mx lim s :
  0 <= mx → lim <= 2 ^ 62 → run pool_create (no_pool mx lim) = Done tt s →
  s = mk_pst (write_bytes ∅ 0 (le_bytes 8 4096)) 4096 4096 1 mx lim ∧
  holds (pool_inv (Cfg mx lim) 4096 1 ∗ raw 8 4096) s.
Proof.
  intros Hmx Hlim Hr.
  assert (4096 <= lim) as Hl.
  { unfold pool_create, ftruncate in Hr. rewrite run_bind in Hr. cbn [run exec oslim no_pool] in Hr.
    unfold PAGE in *.
    destruct (decide (4096 <= lim)) as [?|Hn]; [done|].
    rewrite (bool_decide_eq_false_2 (4096 <= lim)) in Hr; [|done]. done. }
  split.
  { unfold pool_create, ftruncate, remap in Hr. rewrite run_bind in Hr. cbn [run exec oslim no_pool] in Hr.
    unfold PAGE in *.
    rewrite (bool_decide_eq_true_2 (4096 <= lim)) in Hr; [|done].
    rewrite (bool_decide_eq_false_2 (0 ≠ 0)) in Hr; [|lia]. rewrite run_bind in Hr.
    cbn [run exec fsize mapped epoch maxsz oslim mem] in Hr.
    unfold store64, store in Hr. cbn [run exec] in Hr.
    unfold valid in Hr. cbn [fsize mapped] in Hr.
    rewrite (bool_decide_eq_true_2 _) in Hr; [|lia]. injection Hr as <-.
    unfold set_mem. cbn [mem fsize mapped epoch maxsz oslim]. done. }
  pose proof (holds_no_pool mx lim) as H0.
  assert (holds (wp pool_create (λ _, pool_inv (Cfg mx lim) 4096 1 ∗ raw 8 4096) (λ _, True))%I (no_pool mx lim)) as Hwp.
  { eapply holds_mono; [|exact H0]. iIntros "(Hm & He & Hx & Hl & Hf)". unfold pool_create, PAGE.
    iApply (wpc_ftruncate_b _ _ 0 0 lim); [lia|]. iSplit; [done|].
    iFrame "Hm Hf Hl". iIntros "Hm Hl". iSplit; [|iIntros "%"; lia].
    iIntros "_ Hf". rewrite (bool_decide_eq_false_2 (0 ≠ 0)); [|lia].
    iApply (wpc_remap_b _ _ 0 4096 0); [lia|]. iSplit; [done|].
    iFrame "Hm Hf He". iIntros "Hm Hf He Hraw".
    iDestruct (raw_split _ 8 with "Hraw") as "[H8 Hraw]"; [lia|].
    iDestruct (raw_word with "H8") as (v) "H8"; [done|].
    iApply (wp_store64_t with "H8"); [done|]. iIntros "H8". iFrame.
    iSplit; [iExists 4096; by iFrame|]. iPureIntro. unfold cfg_ok, size_ok. cbn [c_max c_lim]. split_and!; try lia; done. }
  apply wpc_adequacy in Hwp as [Hwp _]. by rewrite Hr in Hwp.
Qed.

Lemma file_holds_raw_words R a W v :
  file_holds (λ m, raw a (a + 8) ∗ R m)%I W → w_word W a = v →
  file_holds (λ m, word a v ∗ R m)%I W.
Proof.
  intros H Hv. apply file_holds_raw in H. replace (a + 8 - a) with 8 in H by lia.
  eapply file_holds_mono; [|exact H]. intros m.
  rewrite word_pts; [|apply w_read_length]. unfold w_word in Hv.
  change (Z.to_nat 8) with 8%nat. by rewrite Hv.
Qed.

Lemma started_inv lim W d : started lim W d → started_ok W d.
Proof.
  induction 1 as [mx s Hmx Hlim Hr|W d i mx W' Hs IH Hmx Hi Ho|W d i F W' Hs IH Hr|W d i Hs IH|W d i F W' Hs IH Hd].
  - destruct (pool_create_spec _ _ _ Hmx Hlim Hr) as [Es Hh].
    assert (proc_ok (Proc 4096 mx 0)) as Hpr by (split; simpl; lia).
    destruct (leave_ok (λ m, ⌜m = 4096⌝ ∗ raw 8 4096)%I (empty_world lim) 0 (Proc 4096 mx 0) 4096 1 s) as [Hf (_ & Hok & _)].
    { intros i p. simpl. by rewrite lookup_empty. }
    { done. }
    { eapply holds_mono; [|exact Hh]. simpl. iIntros "[$ $]". done. }
    apply started_ok_intro; [done|].
    set (W := leave (empty_world lim) 0 s) in *.
    assert (∀ a, 8 <= a → w_word W a = 0) as Hzero.
    { intros a Ha. assert (w_read W a 8 = replicate 8 0) as E; [|unfold w_word; by rewrite E].
      apply list_eq_same_length with 8%nat; [by rewrite replicate_length|by rewrite w_read_length|].
      intros j x y Hj Hx Hy. rewrite w_read_lookup // in Hx. apply lookup_replicate in Hy as [-> _].
      unfold W, leave in Hx. simpl in Hx. rewrite Es in Hx. cbn [mem] in Hx.
      rewrite write_bytes_lookup in Hx.
      rewrite decide_False in Hx.
      2:{ rewrite le_bytes_length. lia. }
      rewrite lookup_empty in Hx. simpl in Hx. congruence. }
    assert (file_holds (λ m, raw sa_initialized (sa_initialized + 8) ∗ raw sa_base (sa_base + 8) ∗
       raw sa_bytes_alloc (sa_bytes_alloc + 8) ∗ raw sa_bytes_comm (sa_bytes_comm + 8) ∗
       raw sa_head (sa_head + 8) ∗ raw sa_tail (sa_tail + 8) ∗ raw 320 m)%I W) as H2.
    { eapply file_holds_mono; [|exact Hf]. intros m. iIntros "(-> & H)".
      unfold sa_initialized, sa_base, sa_bytes_alloc, sa_bytes_comm, sa_head, sa_tail. simpl.
      iDestruct (raw_split _ 16 with "H") as "[$ H]"; [lia|].
      iDestruct (raw_split _ 280 with "H") as "[_ H]"; [lia|].
      iDestruct (raw_split _ 288 with "H") as "[$ H]"; [lia|].
      iDestruct (raw_split _ 296 with "H") as "[$ H]"; [lia|].
      iDestruct (raw_split _ 304 with "H") as "[$ H]"; [lia|].
      iDestruct (raw_split _ 312 with "H") as "[$ H]"; [lia|].
      iDestruct (raw_split _ 320 with "H") as "[$ H]"; [lia|]. done. }
    apply (file_holds_raw_words _ _ _ 0) in H2; [|by apply Hzero].
    assert (file_holds (λ m, raw sa_base (sa_base + 8) ∗ word sa_initialized 0 ∗ 
       raw sa_bytes_alloc (sa_bytes_alloc + 8) ∗ raw sa_bytes_comm (sa_bytes_comm + 8) ∗
       raw sa_head (sa_head + 8) ∗ raw sa_tail (sa_tail + 8) ∗ raw 320 m)%I W) as H3.
    { eapply file_holds_mono; [|exact H2]. intros m. iIntros "($ & $ & $)". }
    apply (file_holds_raw_words _ _ _ 0) in H3; [|by apply Hzero]. clear H2.
    assert (file_holds (λ m, raw sa_bytes_alloc (sa_bytes_alloc + 8) ∗ word sa_base 0 ∗ word sa_initialized 0 ∗ 
       raw sa_bytes_comm (sa_bytes_comm + 8) ∗
       raw sa_head (sa_head + 8) ∗ raw sa_tail (sa_tail + 8) ∗ raw 320 m)%I W) as H2.
    { eapply file_holds_mono; [|exact H3]. intros m. iIntros "($ & $ & $ & $)". }
    apply (file_holds_raw_words _ _ _ 0) in H2; [|by apply Hzero]. clear H3.
    assert (file_holds (λ m, raw sa_head (sa_head + 8) ∗ word sa_bytes_alloc 0 ∗ word sa_base 0 ∗ word sa_initialized 0 ∗ 
       raw sa_bytes_comm (sa_bytes_comm + 8) ∗ raw sa_tail (sa_tail + 8) ∗ raw 320 m)%I W) as H3.
    { eapply file_holds_mono; [|exact H2]. intros m. iIntros "($ & $ & $ & $ & $ & $)". }
    apply (file_holds_raw_words _ _ _ 0) in H3; [|by apply Hzero]. clear H2.
    assert (file_holds (λ m, raw sa_tail (sa_tail + 8) ∗ word sa_head 0 ∗ word sa_bytes_alloc 0 ∗ word sa_base 0 ∗ word sa_initialized 0 ∗ 
       raw sa_bytes_comm (sa_bytes_comm + 8) ∗ raw 320 m)%I W) as H2.
    { eapply file_holds_mono; [|exact H3]. intros m. iIntros "($ & $ & $ & $ & $ & $ & $)". }
    apply (file_holds_raw_words _ _ _ 0) in H2; [|by apply Hzero]. clear H3.
    eapply file_holds_mono; [|exact H2]. intros m. iIntros "(H1 & H2 & H3 & H4 & H5 & H6 & H7)".
    iLeft. iFrame. by iApply raw_word.
  - pose proof (started_ok_file _ _ IH) as Hf. pose proof (file_holds_facts _ _ Hf) as ([Hsz _] & Hfs & _).
    unfold open_by, pool_open, get_fsize in Ho. rewrite run_bind in Ho. cbn [run exec fsize] in Ho.
    rewrite (bool_decide_eq_false_2 (w_fsize W = 0)) in Ho; [|lia]. unfold remap in Ho. cbn [run exec] in Ho.
    injection Ho as <-. apply started_ok_intro; [|by apply (file_holds_same _ W)].
    intros j q. simpl. destruct (decide (j = i)) as [->|Hne].
    + rewrite lookup_insert. intros [= <-]. split; simpl; lia.
    + rewrite lookup_insert_ne //. apply IH.
  - destruct (w_procs W !! i) as [pr|] eqn:Hi; [|unfold run_by in Hr; by rewrite Hi in Hr].
    destruct (started_construct W d i pr F IH Hi) as [(W1 & HW1 & Hok & _) _]. congruence.
  - pose proof (started_ok_file _ _ IH) as Hf. apply started_ok_intro.
    + intros j q. simpl. rewrite lookup_delete_Some. intros [_ Hj]. by eapply IH.
    + by apply (file_holds_same _ W).
  - pose proof Hd as (pr & s & Hi & _). destruct (started_construct W d i pr F IH Hi) as [_ H]. by apply H.
Qed.

(** ** A failed allocation has no effect at all *)
Definition quiet {A} (p : prog A) : Prop := ∀ s e s', run p s = Exn e s' → s' = s.
Definition nothrow {A} (p : prog A) : Prop := ∀ s e s', run p s ≠ Exn e s'.

Lemma nothrow_ret {A} (a : A) : nothrow (Ret a).
Proof. intros ???. done. Qed.
Lemma nothrow_nofuel {A} : nothrow (@NoFuel A).
Proof. intros ???. done. Qed.
Lemma nothrow_bind {A B} (p : prog A) (k : A → prog B) :
  nothrow p → (∀ a, nothrow (k a)) → nothrow (bind p k).
Proof.
  intros Hp Hk s e s'. rewrite run_bind. destruct (run p s) eqn:E; try done; [by apply Hk|].
  intros [= -> ->]. by eapply Hp.
Qed.
Lemma nothrow_load64 a : nothrow (load64 a).
Proof. intros s e s'. rewrite run_load64. by destruct (valid s a 8). Qed.
Lemma nothrow_store64 a v : nothrow (store64 a v).
Proof.
  intros s e s'. unfold store64, store. cbn [run exec]. by destruct (valid s a 8).
Qed.
Lemma nothrow_if {A} (b : bool) (p q : prog A) : nothrow p → nothrow q → nothrow (if b then p else q).
Proof. by destruct b. Qed.
Lemma quiet_nothrow {A} (p : prog A) : nothrow p → quiet p.
Proof. intros H s e s' Hr. by apply H in Hr. Qed.
Lemma quiet_bind_ro {A B} (p : prog A) (k : A → prog B) :
  readonly p → (∀ a, quiet (k a)) → quiet (bind p k).
Proof.
  intros Hp Hk s e s'. rewrite run_bind. pose proof (readonly_run p s Hp) as Hr.
  destruct (run p s); try done; subst; [by apply Hk|]. by intros [= -> ->].
Qed.
Lemma quiet_bind_nothrow {A B} (p : prog A) (k : A → prog B) :
  quiet p → (∀ a, nothrow (k a)) → quiet (bind p k).
Proof.
  intros Hp Hk s e s'. rewrite run_bind. destruct (run p s) eqn:E; try done.
  - intros H. by apply Hk in H.
  - intros [= -> ->]. by eapply Hp.
Qed.
Lemma quiet_throw {A} e : quiet (@Throw A e).
Proof. by intros s e' s' [= -> ->]. Qed.
Lemma quiet_if {A} (b : bool) (p q : prog A) : quiet p → quiet q → quiet (if b then p else q).
Proof. by destruct b. Qed.
Lemma nothrow_check_size s x s' :
  0 < mapped s → le_val (read_bytes s 0 8) ≠ 0 → run check_size_and_remap s ≠ Exn x s'.
Proof.
  intros Hm Hw. unfold check_size_and_remap. rewrite run_bind. unfold get_mapped. cbn [run exec].
  rewrite (bool_decide_eq_false_2 (mapped s = 0)); [|lia]. rewrite run_bind run_load64.
  destruct (valid s 0 8); [|done]. case_bool_decide; [done|]. rewrite run_bind. unfold remap. cbn [run exec].
  by rewrite bool_decide_eq_false_2.
Qed.
Lemma quiet_expand n : quiet (pool_expand n).
Proof.
  unfold pool_expand. apply quiet_bind_ro; [done|]. intros mx.
  apply quiet_if; [apply quiet_throw|].
  intros s e s'. rewrite run_bind. unfold get_mapped. cbn [run exec].
  case_bool_decide as Hm; [done|]. rewrite run_bind. unfold ftruncate. cbn [run exec].
  case_bool_decide as Hl.
  - rewrite (bool_decide_eq_false_2 (0 ≠ 0)); [|lia]. intros H. exfalso. revert H.
    rewrite run_bind. unfold store64, store. cbn [run exec].
    destruct (valid _ 0 8) eqn:Hv; [|done]. unfold valid in Hv. apply bool_decide_eq_true in Hv.
    cbn [mapped fsize] in Hv. apply nothrow_check_size; cbn [mapped set_mem]; [lia|].
    unfold set_mem. cbn [mem fsize mapped epoch maxsz oslim].
    pose proof (read_write (if bool_decide (round_page n < fsize s) then truncate_mem (mem s) (round_page n) else mem s)
      (round_page n) (mapped s) (epoch s) (maxsz s) (oslim s) 0 (le_bytes 8 (round_page n))) as Hrw.
    rewrite le_bytes_length in Hrw. rewrite Hrw le_val8; [lia|].
    pose proof (u64_range (n + 4095)) as Hu. unfold is_u64, round_page, PAGE in *.
    pose proof (Z.div_mod (u64 (n + 4095)) 4096 ltac:(lia)).
    pose proof (Z.mod_pos_bound (u64 (n + 4095)) 4096 ltac:(lia)). lia.
  - rewrite (bool_decide_eq_true_2 (1 ≠ 0)); [|lia]. cbn [run]. intros HH. by inversion HH.
Qed.
Ltac solve_nothrow :=
  repeat first
    [ apply nothrow_ret | apply nothrow_load64 | apply nothrow_store64
    | apply nothrow_bind; [|intros ?] | apply nothrow_if | case_match; simplify_eq/= ].
Lemma quiet_allocate F n : quiet (sa_allocate F n).
Proof.
  unfold sa_allocate. apply quiet_bind_ro; [done|]. intros head.
  apply quiet_bind_ro; [done|]. intros tail. apply quiet_if.
  - apply quiet_bind_ro; [done|]. intros ps. apply quiet_bind_nothrow.
    + apply quiet_if; [apply quiet_expand|by apply quiet_nothrow, nothrow_ret].
    + intros _. unfold add64, sa_effective_size. solve_nothrow.
  - apply quiet_bind_ro; [apply readonly_scan|]. intros [[coff csize] clink].
    apply quiet_bind_nothrow.
    + apply quiet_if; [|by apply quiet_nothrow, nothrow_ret].
      apply quiet_bind_ro; [done|]. intros t. apply quiet_bind_ro; [done|]. intros eff.
      apply quiet_bind_nothrow; [apply quiet_expand|]. intros _. unfold sa_effective_size. solve_nothrow.
    + intros [??]. unfold sa_link, sa_link_ptrs, add64, sa_effective_size. solve_nothrow.
Qed.
Lemma step_alloc_noop R W i pr F n e W' :
  file_holds R W → world_ok W → w_procs W !! i = Some pr →
  run_by W i (under_lock false (sa_repair F) (sa_allocate F n)) = WExn e W' →
  w_mem W' = w_mem W ∧ w_fsize W' = w_fsize W.
Proof.
  intros HR Hok Hi Hr. unfold run_by, under_lock in Hr. rewrite Hi run_bind in Hr.
  destruct (run_lock R W pr HR (Hok _ _ Hi)) as [e' Hl]. rewrite Hl in Hr.
  rewrite run_bind in Hr. cbn [run] in Hr.
  destruct (run (sa_allocate F n) _) as [|x s| |] eqn:E; try done. injection Hr as -> <-.
  apply quiet_allocate in E. subst s. done.
Qed.

(** ** The main theorem *)
Definition ct_full (st : state) (ob : obs) (st' : state) : Prop :=
  ct_all st ob st' ∧ failed_alloc_is_noop st ob st'.

Lemma game_mono (cs cs' : state → Prop) (ct ct' : state → obs → state → Prop) F evs :
  (∀ st, cs st → cs' st) → (∀ st ob st', ct st ob st' → ct' st ob st') →
  ∀ st, game cs ct F evs st → game cs' ct' F evs st.
Proof.
  intros Hcs Hct. induction evs as [|ev evs IH]; intros [W d B bo]; simpl.
  - naive_solver.
  - intros [H1 H2]. split; [by apply Hcs|].
    destruct ev as [i n|i o|i o k bs|i v|i mx|i|i n|i o].
    + intros Hn. specialize (H2 Hn). destruct (w_procs W !! i); [|done].
      destruct (run_by _ _ _); naive_solver.
    + destruct (B !! o), (w_procs W !! i); try done. destruct (run_by _ _ _); naive_solver.
    + destruct (B !! o), (w_procs W !! i); try done. intros H3 H4 H5. specialize (H2 H3 H4 H5).
      destruct (run_by _ _ _); naive_solver.
    + intros Hn. specialize (H2 Hn). destruct (w_procs W !! i); [|done].
      destruct (run_by _ _ _); naive_solver.
    + intros H3 H4. specialize (H2 H3 H4). destruct (open_alloc _ _ _ _ _); naive_solver.
    + naive_solver.
    + intros H3 W' HW'. destruct (H2 H3 W' HW') as [H|(o & Ho & H)]; [left|right; exists o]; naive_solver.
    + intros n W' H3 HW'. destruct (H2 n W' H3 HW') as [H|H]; [left|right]; naive_solver.
Qed.

Lemma Inv_intro W0 W d L bo : world_ok W → file_holds (λ m, sa_R d L bo m ∗ cont (fW W0) L)%I W → Inv (St W d (blkmap L) bo).
Proof.
  intros Hok H. apply file_holds_layout in H as Hl. split; [done|]. exists L. split; [done|].
  eapply file_holds_mono; [|exact H]. intros m. simpl. rewrite cont_blks; [done|].
  intros x Hx. by eapply fW_length.
Qed.

Lemma Inv_new W0 W d L1 L2 bo n :
  world_ok W →
  file_holds (λ m, sa_R d (L1 ++ (ende L1 320, n) :: L2) bo m ∗ cont (fW W0) (L1 ++ L2) ∗
           raw (ende L1 320 + 24) (ende L1 320 + 24 + n))%I W →
  Inv (St W d (<[ende L1 320 + 24 := n]> (blkmap (L1 ++ L2))) bo) ∧
  blkmap (L1 ++ L2) !! (ende L1 320 + 24) = None.
Proof.
  intros Hok H. apply file_holds_layout in H as Hl. pose proof (layout_remove _ _ _ _ _ Hl) as Hl2.
  destruct (blkmap_cut _ _ _ _ _ _ Hl Hl2) as [E Hn]. split; [|done]. split; [done|].
  eexists. split; [simpl; by rewrite -E|]. simpl.
  eapply file_holds_mono; [|exact H]. intros m. rewrite blks_cut. rewrite cont_blks.
  { iIntros "($ & $ & $)". }
  intros x Hx. by eapply fW_length.
Qed.

Lemma round_page_ceiling n : 0 <= n < 2 ^ 63 + 2 ^ 62 → page_ceiling n (round_page n).
Proof. intros H. by apply round_page_spec. Qed.
Lemma no_fit_holes L m need :
  layout 320 L m → no_fit L m need ↔ ∀ a b, hole (blkmap L) m a b → b - a < need.
Proof.
  intros Hl. split.
  - intros Hnf a b Hh. apply (hole_cut _ _ _ _ Hl) in Hh as (A & C & -> & <- & <-).
    specialize (Hnf A C eq_refl). unfold gap in Hnf. lia.
  - intros H A C ->. unfold gap. apply H. by apply cut_hole.
Qed.

Lemma splice_lookup_in old k bs j :
  (k <= j < k + length bs)%nat → (k + length bs <= length old)%nat →
  splice old k bs !! j = bs !! (j - k)%nat.
Proof.
  intros H1 H2. unfold splice. rewrite lookup_app_r; rewrite take_length; [|lia].
  rewrite Nat.min_l; [|lia]. rewrite lookup_app_l; [done|lia].
Qed.
Lemma splice_lookup_out old k bs j :
  ~ (k <= j < k + length bs)%nat → (k + length bs <= length old)%nat →
  splice old k bs !! j = old !! j.
Proof.
  intros H1 H2. unfold splice. destruct (decide (j < k)%nat).
  - rewrite lookup_app_l; [|rewrite take_length; lia]. by rewrite lookup_take.
  - rewrite lookup_app_r; rewrite take_length Nat.min_l; try lia.
    rewrite lookup_app_r; [|lia]. rewrite lookup_drop. f_equal. lia.
Qed.
Lemma splice_length old k bs : (k + length bs <= length old)%nat → length (splice old k bs) = length old.
Proof. intros H. unfold splice. rewrite !app_length take_length drop_length. lia. Qed.
Lemma w_read_sub W a n j : 0 <= j → (Z.to_nat j < n)%nat →
  ∃ x, w_read W a n !! Z.to_nat j = Some x ∧ w_read W (a + j) 1 = [x].
Proof.
  intros Hj Hn. eexists. split; [by apply w_read_lookup|].
  unfold w_read. simpl. unfold bget. simpl. replace (a + Z.of_nat (Z.to_nat j)) with (a + j) by lia. done.
Qed.

Theorem game_inv F evs : ∀ st,
  Inv st → (size (st_b st) + length evs <= F)%nat → game Inv ct_full F evs st.
Proof.
  induction evs as [|ev evs IH]; intros [W d B bo] HI HF; (split; [done|]); [done|].
  pose proof HI as (Hok & L & HB & HR). cbn [st_w st_b st_dirty st_base] in *. subst B.
  apply file_holds_layout in HR as Hl.
  destruct (blkmap_sums _ _ _ Hl) as (Hsize & _ & _). rewrite Hsize in HF. cbn [length] in HF.
  assert (∀ st', Inv st' → (size (st_b st') <= S (length L))%nat → game Inv ct_full F evs st') as IH'.
  { intros st' H1 H2. apply IH; [done|]. lia. }
  assert (∀ W' X o n, file_holds (λ m, X m ∗ cont (fW W) L)%I W' → blkmap L !! o = Some n →
     w_read W' o (Z.to_nat n) = w_read W o (Z.to_nat n)) as Hsame.
  { intros W' X o n HX Ho. by eapply same_contents. }
  pose proof (layout_end _ _ _ Hl) as Hend. pose proof (layout_ende_ge _ _ _ Hl) as Hend'.
  pose proof (file_holds_facts _ _ HR) as ([Hm _] & _).
  destruct ev as [i n|i o|i o k bs|i v|i mx|i|i n|i o].
  - (* allocate *)
    intros Hn. destruct (w_procs W !! i) as [pr|] eqn:Hi; [|done].
    pose proof (r8_spec n) as [Hr8 _].
    destruct (step_alloc W d L bo F i pr n HR Hok Hi ltac:(lia) Hn) as [H _].
    destruct (run_by _ _ _) as [o W'|x W'| |] eqn:Hrun; try done.
    + destruct H as (L1 & L2 & -> & -> & Hf & (Hlim & Hok' & Hprocs) & Hpl).
      destruct (Inv_new W W' false L1 L2 bo n Hok' Hf) as [HI' Hnone].
      split; [|apply IH'; [done|]; simpl; rewrite map_size_insert_None //; lia].
      split; [|done]. split_and!; [done| | |done].
      * intros o n0 Ho _. eapply (Hsame W' (λ m, sa_R false (L1 ++ (ende L1 320, n) :: L2) bo m ∗ raw (ende L1 320 + 24) (ende L1 320 + 24 + n))%I); [|done].
        eapply file_holds_mono; [|exact Hf]. intros m. iIntros "($ & $ & $)".
      * cbn [best_fit_placement st_w st_b]. replace (ende L1 320 + 24 - 24) with (ende L1 320) by lia.
        change (pad n) with (r8 n).
        destruct Hpl as [[[Hg Hbest] Hw]|(Hnf & -> & Hw & Hlt & Hga)]; [left|right].
        -- exists (hdo L2 (w_size W)). unfold gap in Hg. split_and!; [by apply cut_hole|done| |done].
           intros a' b' Hh Hneed. apply (hole_cut _ _ _ _ Hl) in Hh as (A & C & HAC & <- & <-).
           specialize (Hbest A C HAC). unfold gap in Hbest. by apply Hbest.
        -- rewrite app_nil_r in Hw, Hl, Hend, Hend' |- *. split_and!.
           ++ apply (no_fit_holes _ _ _ Hl). by rewrite app_nil_r in Hnf.
           ++ by eapply ende_last_end.
           ++ rewrite Hw. replace (ende L1 320 + 24 + r8 n) with (ende L1 320 + 24 + r8 n) by lia.
              apply round_page_ceiling. lia.
           ++ done.
           ++ exact Hga.
    + destruct H as (-> & Hf & (Hlim & Hok' & Hprocs) & Hw & Hnf & Hga).
      split; [|apply IH'; [by eapply Inv_intro|simpl; lia]].
      split; [split_and!; [done| | |done]|].
      * intros o n0 Ho _. by eapply Hsame.
      * cbn [best_fit_placement st_w st_b]. change (pad n) with (r8 n). split_and!; [done| |].
        -- by apply (no_fit_holes _ _ _ Hl).
        -- intros a y Ha Hy [Hy1 Hy2]. apply (last_end_ende _ _ _ Hl) in Ha. subst a. apply Hga.
           assert (y = round_page (ende L 320 + 24 + r8 n)) as <-; [|by split].
           eapply page_ceiling_unique; [exact Hy|].
           replace (ende L 320 + (r8 n + 24)) with (ende L 320 + 24 + r8 n) by lia.
           apply round_page_ceiling. lia.
      * intros Hd. simpl in Hd. subst d. by eapply step_alloc_noop.
  - (* free *)
    destruct (blkmap L !! o) as [n|] eqn:Ho; [|done].
    destruct (w_procs W !! i) as [pr|] eqn:Hi; [|done].
    apply (blkmap_lookup _ _ _ _ _ Hl) in Ho as Hin. apply elem_of_list_split in Hin as (L1 & L2 & ->).
    pose proof (step_free W d L1 (o - 24) n L2 bo F i pr HR Hok Hi ltac:(lia)) as [H _].
    pose proof (layout_remove _ _ _ _ _ Hl) as Hl2.
    pose proof (blkmap_delete _ _ _ _ _ _ Hl Hl2) as Hdel.
    replace (o - 24 + 24) with o in H, Hdel by lia.
    replace (o - 24 + 48) with (o + 24) in H by lia.
    destruct (run_by _ _ _) as [[] W'|x W'| |] eqn:Hrun; try done.
    destruct H as ((Hlim & Hok' & Hprocs) & Hw & Hf).
    case_bool_decide as Hc.
    + rewrite Hdel. split.
      * split; [|done]. split_and!; [done| | |].
        -- intros o' n' Ho' Ho2. cbn [st_b st_w] in *. by eapply (same_contents _ _ _ (L1 ++ L2)).
        -- simpl. by left.
        -- left. simpl. by rewrite Hdel.
      * apply IH'; [by eapply Inv_intro|]. cbn [st_b]. destruct (blkmap_sums _ _ _ Hl2) as (-> & _).
        rewrite !app_length /=. lia.
    + split.
      * split; [|done]. split_and!; [done| | |].
        -- intros o' n' Ho' Ho2. cbn [st_b st_w] in *. by eapply Hsame.
        -- simpl. by left.
        -- right. cbn [st_w].
           assert ((o - 24, n) ∈ L1 ++ (o - 24, n) :: L2) as Hin.
           { apply elem_of_app; right; by left. }
           eapply layout_in in Hin; [|exact Hl]. change (pad n) with (r8 n). pose proof (r8_spec n) as [? Hm8].
           destruct Hin as (? & Ho8 & ? & ?).
           assert (w_size W mod 8 = 0) as Hw8.
           { apply file_holds_facts in HR as ([_ Hmm] & _). 
             pose proof (Z.div_mod (w_size W) 4096 ltac:(lia)) as Hdm. rewrite Hmm in Hdm.
             replace (w_size W) with (512 * (w_size W / 4096) * 8) by lia. apply Z.mod_mul. lia. }
           pose proof (Z.div_mod (w_size W) 8 ltac:(lia)). pose proof (Z.div_mod (r8 n) 8 ltac:(lia)).
           pose proof (Z.div_mod (o - 24) 8 ltac:(lia)). lia.
      * apply IH'; [by eapply Inv_intro|]. cbn [st_b]. lia.
  - (* write *)
    destruct (blkmap L !! o) as [n|] eqn:Ho; [|done].
    destruct (w_procs W !! i) as [pr|] eqn:Hi; [|done]. intros Hk Hkn Hbs.
    apply (blkmap_lookup _ _ _ _ _ Hl) in Ho as Hin. apply elem_of_list_split in Hin as (L1 & L2 & ->).
    pose proof (step_write W d L1 (o - 24) n L2 bo F i pr k bs HR Hok Hi ltac:(lia) Hk Hkn Hbs) as H.
    replace (o - 24 + 24) with o in H by lia.
    destruct (run_by _ _ _) as [[] W'|x W'| |] eqn:Hrun; try done.
    destruct H as ((Hlim & Hok' & Hprocs) & Hw & Hf).
    pose proof (layout_remove _ _ _ _ _ Hl) as Hl2.
    assert (length (fW W (o - 24, n)) = Z.to_nat n) as Hlen.
    { unfold fW. by rewrite w_read_length. }
    assert (length (splice (fW W (o - 24, n)) (Z.to_nat k) bs) = Z.to_nat n) as Hlen2.
    { rewrite splice_length; lia. }
    assert (w_read W' o (Z.to_nat n) = splice (fW W (o - 24, n)) (Z.to_nat k) bs) as Hnew.
    { rewrite -Hlen2. eapply (file_holds_pts (λ _, True)%I). eapply file_holds_mono; [|exact Hf].
      intros m. iIntros "(_ & _ & $)". }
    assert (fW W (o - 24, n) = w_read W o (Z.to_nat n)) as Hold.
    { unfold fW. simpl. f_equal. lia. }
    rewrite Hold in Hnew, Hlen.
    split.
    + split; [|done]. split_and!; [done| |by left|done].
      cbn [contents_kept st_w st_b]. split.
      * apply list_eq_same_length with (length bs); [done|by rewrite w_read_length|].
        intros j x y Hj Hx Hy. rewrite w_read_lookup // in Hx.
        assert (w_read W' o (Z.to_nat n) !! (Z.to_nat k + j)%nat = bs !! j) as E.
        { rewrite Hnew splice_lookup_in; [f_equal; lia|lia|lia]. }
        rewrite w_read_lookup in E; [|lia].
        replace (o + Z.of_nat (Z.to_nat k + j)) with (o + k + Z.of_nat j) in E by lia. congruence.
      * intros o' n' Ho' j Hj Hnot.
        destruct (w_read_sub W' o' (Z.to_nat n') j) as (x & Hx & ->); [lia|lia|].
        destruct (w_read_sub W o' (Z.to_nat n') j) as (y & Hy & ->); [lia|lia|].
        f_equal. destruct (decide (o' = o)) as [->|Hne].
        -- assert (n' = n) as -> by congruence. rewrite Hnew in Hx.
           rewrite splice_lookup_out in Hx; [congruence| |lia]. intros ?. apply Hnot. split; [done|lia].
        -- assert (w_read W' o' (Z.to_nat n') = w_read W o' (Z.to_nat n')) as E; [|congruence].
           eapply (same_contents _ _ (λ m, sa_R false (L1 ++ (o - 24, n) :: L2) bo m ∗ pts o
             (splice (fW W (o - 24, n)) (Z.to_nat k) bs))%I (L1 ++ L2)); [exact Hl2| |].
           { eapply file_holds_mono; [|exact Hf]. intros m. iIntros "($ & $ & $)". }
           destruct (blkmap_cut _ _ _ _ _ _ Hl Hl2) as [E _]. rewrite E in Ho'.
           rewrite lookup_insert_ne in Ho'; [done|lia].
    + apply IH'; [|cbn [st_b]; lia]. split; [done|]. eexists. split; [done|]. cbn [st_w st_dirty st_base].
      eapply file_holds_mono; [|exact Hf]. intros m. rewrite blks_cut. simpl fst. simpl snd.
      replace (o - 24 + 24) with o by lia. rewrite cont_blks.
      2:{ intros x Hx. by eapply fW_length. }
      iIntros "($ & $ & H)". iExists _. iFrame. iPureIntro.
      apply (blkmap_lookup _ _ _ _ _ Hl) in Ho. eapply layout_in in Ho; [|exact Hl]. lia.
  - (* base *)
    intros Hv. destruct (w_procs W !! i) as [pr|] eqn:Hi; [|done].
    pose proof (step_base W d L bo F i pr v HR Hok Hi ltac:(lia) Hv) as H.
    destruct (run_by _ _ _) as [[] W'|x W'| |] eqn:Hrun; try done.
    destruct H as ((Hlim & Hok' & Hprocs) & Hw & Hf). split.
    + split; [|done]. split_and!; [done| |by left|done]. intros o n0 Ho _. by eapply Hsame.
    + apply IH'; [by eapply Inv_intro|]. cbn [st_b]. lia.
  - (* open *)
    intros Hmx Hi. destruct (step_open W d L bo F i mx HR Hok Hmx) as (pr & -> & Hpr). split.
    + split; [|done]. split_and!; [done| |by left|done]. intros o n0 Ho _. done.
    + apply IH'; [|cbn [st_b]; lia]. split.
      * intros j q. simpl. destruct (decide (j = i)) as [->|Hne].
        -- rewrite lookup_insert. by intros [= <-].
        -- rewrite lookup_insert_ne //. apply Hok.
      * exists L. split; [done|]. by apply (file_holds_same _ W).
  - (* die *)
    split.
    + split; [|done]. split_and!; [done| |by left|done]. intros o n0 Ho _. done.
    + apply IH'; [|cbn [st_b]; lia]. split.
      * intros j q. simpl. rewrite lookup_delete_Some. intros [_ Hj]. by eapply Hok.
      * exists L. split; [done|]. by apply (file_holds_same _ W).
  - (* die in allocate *)
    intros Hn W' HW'. pose proof HW' as (pr & _ & Hi & _).
    destruct (step_alloc W d L bo F i pr n HR Hok Hi ltac:(lia) Hn) as [_ H].
    destruct (H W' HW') as [Hok' [Hf|(L1 & L2 & -> & Hf)]].
    + left. split.
      * split; [|done]. split_and!; [done| |by right|done]. intros o n0 Ho _. by eapply Hsame.
      * apply IH'; [by eapply Inv_intro|cbn [st_b]; lia].
    + right. destruct (Inv_new W W' true L1 L2 bo n Hok' Hf) as [HI' Hnone]. eexists. split; [done|]. split.
      * split; [|done]. split_and!; [done| |by right|done]. intros o n0 Ho _. 
        eapply (Hsame W' (λ m, sa_R true (L1 ++ (ende L1 320, n) :: L2) bo m ∗ raw (ende L1 320 + 24) (ende L1 320 + 24 + n))%I); [|done].
        eapply file_holds_mono; [|exact Hf]. intros m. iIntros "($ & $ & $)".
      * apply IH'; [done|]. simpl. rewrite map_size_insert_None //. lia.
  - (* die in free *)
    intros n W' Ho HW'. pose proof HW' as (pr & _ & Hi & _).
    apply (blkmap_lookup _ _ _ _ _ Hl) in Ho as Hin. apply elem_of_list_split in Hin as (L1 & L2 & ->).
    pose proof (step_free W d L1 (o - 24) n L2 bo F i pr HR Hok Hi ltac:(lia)) as [_ H].
    pose proof (layout_remove _ _ _ _ _ Hl) as Hl2.
    pose proof (blkmap_delete _ _ _ _ _ _ Hl Hl2) as Hdel.
    replace (o - 24 + 24) with o in H, Hdel by lia.
    destruct (H W' HW') as [Hok' [Hf|Hf]].
    + left. split.
      * split; [|done]. split_and!; [done| |by right|done]. intros o' n0 Ho' _. by eapply Hsame.
      * apply IH'; [by eapply Inv_intro|cbn [st_b]; lia].
    + right. rewrite Hdel. split.
      * split; [|done]. split_and!; [done| |by right|done].
        intros o' n' Ho' Ho2. cbn [st_b st_w] in *. by eapply (same_contents _ _ _ (L1 ++ L2)).
      * apply IH'; [by eapply Inv_intro|]. cbn [st_b]. destruct (blkmap_sums _ _ _ Hl2) as (-> & _).
        rewrite !app_length /=. lia.
Qed.
