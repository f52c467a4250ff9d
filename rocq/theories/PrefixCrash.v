(** * PrefixTree over a SimpleAllocator: what a crash leaves.

    [TC]: the pool holds a prefix tree whose contents are [good], and blocks that are in
    nobody's use; the counters of the tree may have any values. *)
From Verif Require Export PrefixClear AllocCrash.
From iris.proofmode Require Import tactics.
From iris.prelude Require Import options.
Open Scope Z_scope.
Open Scope prog_scope.

Local Arguments Z.pow : simpl never.
Local Arguments Z.mul : simpl never.
Local Arguments Z.add : simpl never.
Local Arguments u64 : simpl never.
Local Opaque t_init_node.

Lemma crash_count {A} C (P : hPropI) a d (K : unit → prog A) : (P ∗ (∃ w, word a w) ⊢ C) →
  P -∗ (∃ w, word a w) -∗ (P -∗ (∃ w, word a w) -∗ crash C (K tt)) -∗
  crash C (n <- load64 a ;; y <- store64 a (u64 (n + d)) ;; K y).
Proof.
  iIntros (HC) "P [%w Wd] W".
  iApply (crash_load64 C (P ∗ word a w)%I with "[P Wd]"); [|iIntros "[_ $]"|iFrame|].
  { rewrite -HC. iIntros "[$ H]". by iExists w. }
  iIntros "[P Wd]". iApply crash_store64; [apply u64_range|]. iExists w. iFrame "Wd". iSplit.
  - iIntros "Wd". iApply HC. iFrame. by iExists w.
  - iIntros "Wd". iApply ("W" with "P"). by iExists _.
Qed.

Section crash.
  Context (F : nat) (HF : 2 ^ 62 <= Z.of_nat F) (cf : cfg) (b : Z) (R : blocks) (bo : Z).
  Context (good : gmap bytes pval → Prop).
  Notation al := (simple_allocator F).
  Notation S := (simple_spec F HF).
  Notation ainv := (ainv S cf).

  (** The tree without its counters. *)
  Definition tl (M : vlmap) (N : ndmap) : hPropI :=
    (⌜tok b M N⌝ ∗ (∃ w, word b w) ∗ (∃ w, word (b + 8) w) ∗ tnodes M N ∗ tvals M)%I.
  (** The tree, and two values that are not in it. *)
  Definition ex (Q Y : option vl) (M : vlmap) (N : ndmap) : hPropI :=
    (∃ s, ⌜s_bo s = bo ∧ yok Y ∧ yok Q⌝ ∗ ainv (yblk Y ++ yblk Q ++ tblocks b M N ++ R) s ∗ yval Y ∗ yval Q ∗ tl M N)%I.
  Notation st := (ex None None).
  Definition TC : hPropI := (∃ M N, ⌜good (vls M)⌝ ∗ acr cf (tblocks b M N ++ R) bo ∗ tl M N)%I.

  Lemma acr_y Y B : acr cf (yblk Y ++ B) bo -∗ yval Y -∗ acr cf B bo.
  Proof using.
    iIntros "H Y". destruct Y as [[v o]|]; [|done]. cbn [yblk yval]. unfold vblk.
    destruct (val_sizes_cases v) as [Hv|[n Hv]]; rewrite Hv; [done|]. cbn [List.map app].
    by iApply (acr_leak with "H").
  Qed.
  Lemma TC_intro M N : good (vls M) → acr cf (tblocks b M N ++ R) bo ∗ tl M N ⊢ TC.
  Proof using. iIntros (HG) "[H T]". iExists M, N. iSplit; [done|]. iSplitL "H"; done. Qed.
  Lemma ex_TC Q Y M N : good (vls M) → ex Q Y M N ⊢ TC.
  Proof using.
    iIntros (HG) "(%s & (%Hs & %HY & %HZ) & H & Y & Z & T)". iApply (TC_intro _ _ HG). iSplitR "T"; [|done].
    iDestruct (ainv_acr F HF cf with "H") as "H". rewrite Hs.
    iDestruct (acr_y with "H Y") as "H". iApply (acr_y with "H Z").
  Qed.
  Lemma ex_tok Q Y M N : ex Q Y M N ⊢ ⌜tok b M N⌝.
  Proof using. by iIntros "(%s & _ & _ & _ & _ & %HT & _)". Qed.
  Lemma ex_nodes Q Y M N : ex Q Y M N ⊢ tnodes M N ∗ True.
  Proof using. iIntros "(%s & _ & _ & _ & _ & _ & _ & _ & $ & _)". Qed.
  Lemma ex_vals Q Y M N : ex Q Y M N ⊢ tvals M ∗ True.
  Proof using. iIntros "(%s & _ & _ & _ & _ & _ & _ & _ & _ & $)". Qed.
  Lemma ex_tst M N : st M N ⊢ ∃ ne s x, tst (ne := ne) S cf b M N x R s.
  Proof using.
    iIntros "(%s & _ & H & _ & _ & %HT & [%w1 W1] & [%w2 W2] & T & V)".
    iDestruct (word_u64 with "W1") as %H1. iDestruct (word_u64 with "W2") as %H2.
    iExists (w2 - Z.of_nat (size N)), s, (w1 - Z.of_nat (size M)). iSplitL "H"; [done|]. iSplit; [done|].
    unfold node_err.
    replace (Z.of_nat (size M) + (w1 - Z.of_nat (size M))) with w1 by lia.
    replace (Z.of_nat (size N) + (w2 - Z.of_nat (size N))) with w2 by lia.
    rewrite !u64_small //. iFrame "W1 W2 T V".
  Qed.
  Lemma tst_ex ne s x M N : s_bo s = bo → tst (ne := ne) S cf b M N x R s ⊢ st M N.
  Proof using.
    iIntros (Hs) "[H (%HT & W1 & W2 & T & V)]". iExists s. iSplit; [done|]. iSplitL "H"; [done|]. iSplit; [done|].
    iSplit; [done|]. iSplit; [done|]. iSplitL "W1"; [by iExists _|]. iSplitL "W2"; [by iExists _|]. iFrame "T V".
  Qed.

  (** ** Elementary steps *)
  Lemma ex_split1 Q Y M N : ex Q Y M N ⊣⊢ (∃ s, (⌜s_bo s = bo ∧ yok Y ∧ yok Q⌝ ∗ ainv (yblk Y ++ yblk Q ++ tblocks b M N ++ R) s ∗ yval Y ∗ yval Q ∗ ⌜tok b M N⌝ ∗
       (∃ w, word (b + 8) w) ∗ tnodes M N ∗ tvals M)) ∗ (∃ w, word b w).
  Proof using.
    iSplit.
    - iIntros "(%s & H1 & H2 & H3 & H4 & H5 & H6 & H7 & H8)". iSplitR "H6"; [|done]. iExists s. iFrame "H1 H2 H3 H4 H5 H7 H8".
    - iIntros "[(%s & H1 & H2 & H3 & H4 & H5 & H7 & H8) H6]". iExists s. iFrame "H1 H2 H3 H4 H5 H6 H7 H8".
  Qed.
  Lemma ex_split2 Q Y M N : ex Q Y M N ⊣⊢ (∃ s, (⌜s_bo s = bo ∧ yok Y ∧ yok Q⌝ ∗ ainv (yblk Y ++ yblk Q ++ tblocks b M N ++ R) s ∗ yval Y ∗ yval Q ∗ ⌜tok b M N⌝ ∗
       (∃ w, word b w) ∗ tnodes M N ∗ tvals M)) ∗ (∃ w, word (b + 8) w).
  Proof using.
    iSplit.
    - iIntros "(%s & H1 & H2 & H3 & H4 & H5 & H6 & H7 & H8)". iSplitR "H7"; [|done]. iExists s. iFrame "H1 H2 H3 H4 H5 H6 H8".
    - iIntros "[(%s & H1 & H2 & H3 & H4 & H5 & H7 & H8) H6]". iExists s. iFrame "H1 H2 H3 H4 H5 H6 H7 H8".
  Qed.
  Lemma crash_items_add {A} Q Y M N d (K : unit → prog A) : good (vls M) →
    ex Q Y M N -∗ (ex Q Y M N -∗ crash TC (K tt)) -∗ crash TC (y <- t_items_add b d ;; K y).
  Proof using.
    iIntros (HG) "T W". rewrite {1}ex_split1. iDestruct "T" as "[T W1]". unfold t_items_add. wpn.
    iApply (crash_count TC with "T W1").
    - rewrite -(ex_TC Q Y M N HG) ex_split1. done.
    - iIntros "T Wd". iApply "W". rewrite ex_split1. iSplitL "T"; done.
  Qed.
  Lemma crash_nodes_add {A} Q Y M N d (K : unit → prog A) : good (vls M) →
    ex Q Y M N -∗ (ex Q Y M N -∗ crash TC (K tt)) -∗ crash TC (y <- t_nodes_add b d ;; K y).
  Proof using.
    iIntros (HG) "T W". rewrite {1}ex_split2. iDestruct "T" as "[T W1]". unfold t_nodes_add. wpn.
    iApply (crash_count TC with "T W1").
    - rewrite -(ex_TC Q Y M N HG) ex_split2. done.
    - iIntros "T Wd". iApply "W". rewrite ex_split2. iSplitL "T"; done.
  Qed.
  Lemma crash_slot_load {A} Q Y M N k (K : Z → prog A) : good (vls M) → has_place N k →
    ex Q Y M N -∗ (ex Q Y M N -∗ crash TC (K (yenc (M !! k)))) -∗ crash TC (y <- load64 (place N k) ;; K y).
  Proof using.
    iIntros (HG Hk) "T W". iApply (crash_load64 with "T W"); [by apply ex_TC|].
    rewrite ex_nodes. iIntros "[T _]". iDestruct (place_acc M N k Hk with "T") as "[$ _]".
  Qed.
  Lemma crash_node8 {A} Q Y M N p r o (i : Z) v (K : Z → prog A) : good (vls M) → N !! p = Some (r, o) →
    (i = 0 ∧ v = r.1 ∨ i = 1 ∧ v = r.2 ∨ i = 2 ∧ v = lastc p) →
    ex Q Y M N -∗ (ex Q Y M N -∗ crash TC (K v)) -∗ crash TC (y <- load8 (o + i) ;; K y).
  Proof using.
    iIntros (HG Hk Hi) "T W". iApply (crash_load8 with "T W"); [by apply ex_TC|].
    rewrite ex_nodes. iIntros "[T _]". iDestruct (node_acc M N p _ Hk with "T") as "[(P1 & P2 & P3 & _) _]".
    destruct Hi as [[-> ->]|[[-> ->]|[-> ->]]]; [rewrite Z.add_0_r; iFrame "P1"|iFrame "P2"|iFrame "P3"].
  Qed.
  Lemma crash_node0 {A} Q Y M N p r o (K : Z → prog A) : good (vls M) → N !! p = Some (r, o) →
    ex Q Y M N -∗ (ex Q Y M N -∗ crash TC (K r.1)) -∗ crash TC (y <- load8 o ;; K y).
  Proof using.
    iIntros (HG Hk) "T W". iApply (crash_load8 with "T W"); [by apply ex_TC|].
    rewrite ex_nodes. iIntros "[T _]". iDestruct (node_acc M N p _ Hk with "T") as "[($ & P2 & P3 & _) _]".
  Qed.
  Lemma crash_node_value {A} Q Y M N p r o (K : Z → prog A) : good (vls M) → N !! p = Some (r, o) →
    ex Q Y M N -∗ (ex Q Y M N -∗ crash TC (K (vword M p))) -∗ crash TC (y <- load64 (o + 8) ;; K y).
  Proof using.
    iIntros (HG Hk) "T W". iApply (crash_load64 with "T W"); [by apply ex_TC|].
    rewrite ex_nodes. iIntros "[T _]". iDestruct (node_acc M N p _ Hk with "T") as "[(P1 & P2 & P3 & _ & $ & _) _]".
  Qed.
  Lemma crash_child {A} Q Y M N p c (r : Z * Z) o (K : Z → prog A) : good (vls M) → N !! p = Some (r, o) → in_range r c →
    ex Q Y M N -∗ (ex Q Y M N -∗ crash TC (K (sword M N (p ++ [c])))) -∗ crash TC (y <- load64 (o + 16 + 8 * (c - r.1)) ;; K y).
  Proof using.
    iIntros (HG Hk Hc) "T W". iApply (crash_load64 with "T W"); [by apply ex_TC|].
    rewrite ex_nodes. iIntros "[T _]". iDestruct (slot_read M N p _ _ _ Hk Hc with "T") as "[$ _]".
  Qed.

  (** The slot of a key is written: the value that was outside is now in the tree. *)
  Lemma crash_swap {A} Q Y M N k w (K : unit → prog A) : good (vls M) → good (vls (yset k Y M)) → has_place N k → w = yenc Y →
    ex Q Y M N -∗ (ex Q (M !! k) (yset k Y M) N -∗ crash TC (K tt)) -∗ crash TC (y <- store64 (place N k) w ;; K y).
  Proof using.
    iIntros (HG HG' Hk ->) "(%s & (%Hs & %HY & %HZ) & H & Y & Z & %HT & W1 & W2 & T & V) W".
    assert (is_u64 (yenc Y)) as Hu.
    { destruct Y as [[v o]|]; [|done]. destruct HY as [Hv Ho]. by destruct (venc_facts v o Hv Ho) as (_ & ? & _). }
    assert (yok (M !! k)) as HYk.
    { destruct (M !! k) as [[v o]|] eqn:E; [|done]. apply (tk_val _ _ _ HT _ _ _ E). }
    iDestruct (place_acc M N k Hk with "T") as "[Wd T]". iApply crash_store64; [done|]. iExists _. iFrame "Wd". iSplit.
    - iIntros "Wd". iApply (ex_TC Q Y M N HG). iExists s. iSplit; [done|]. iFrame "H Y Z V W1 W2". iSplit; [done|].
      by iApply ("T" $! M with "[//] Wd").
    - iIntros "Wd". iApply "W". iExists s. iSplit; [done|].
      iAssert (yval (M !! k) ∗ tvals (delete k M))%I with "[V]" as "[Y0 V]"; [rewrite -tvals_yset yset_id //|].
      iFrame "Y0 Z W1 W2". iSplitL "H".
      { iApply (ainv_perm with "H"). rewrite tblocks_yset (tblocks_open b M N R k).
        generalize (yblk Y) (yblk Q) (yblk (M !! k)) (tblocks b (delete k M) N ++ R). clear. intros A B C D.
        rewrite !(assoc app). apply Permutation_app_tail.
        rewrite (Permutation_app_comm (A ++ B)) -!(assoc app). apply Permutation_app_head. apply Permutation_app_comm. }
      iSplit. { iPureIntro. destruct Y as [[v o]|]; [|by apply tok_del]. destruct HY. by apply tok_put. }
      iSplitL "T Wd".
      + iApply ("T" $! (yset k Y M) with "[]").
        * iPureIntro. intros k' Hk'. unfold vword. by rewrite yset_ne.
        * unfold vword. by rewrite yset_lookup.
      + rewrite tvals_yset. iFrame "Y V".
  Qed.
  (** The block of a value that is not in the tree is given back. *)
  Lemma crash_drop {A} Q v o M N (K : unit → prog A) : good (vls M) → val_sizes v ≠ [] →
    ex Q (Some (v, o)) M N -∗ (ex Q None M N -∗ crash TC (K tt)) -∗ crash TC (y <- al_free al o ;; K y).
  Proof using.
    iIntros (HG Hv) "(%s & (%Hs & %HY & %HZ) & H & Y & Z & T) W". destruct (val_sizes_cases v) as [?|[n Hn]]; [done|].
    cbn [yblk yval]. unfold vblk at 1. rewrite Hn. cbn [List.map app].
    iApply (crash_free F HF cf TC (yval Q ∗ tl M N) with "H [Y] [Z T]").
    - rewrite Hs -(TC_intro M N HG). iIntros "(H & Z & T)". iSplitR "T"; [|done]. iApply (acr_y with "H Z").
    - by iApply vblock_raw.
    - iSplitL "Z"; done.
    - iIntros (s' Hs') "H [Z T]". iApply "W". iExists s'. iSplit; [by rewrite Hs' Hs|]. iSplitL "H"; [done|].
      iSplit; [done|]. iSplitL "Z"; done.
  Qed.
  Lemma ex_inline Q v o M N : val_sizes v = [] → ex Q (Some (v, o)) M N ⊢ ex Q None M N.
  Proof using.
    iIntros (Hv) "(%s & (%Hs & _ & %HZ) & H & _ & T)". iExists s. cbn [yblk yval]. unfold vblk at 1. rewrite Hv.
    iSplit; [done|]. iSplitL "H"; [done|]. iSplit; done.
  Qed.
  Lemma ex_put_inline Q v M N : sval_ok v → val_sizes v = [] → ex Q None M N ⊢ ex Q (Some (v, 0)) M N.
  Proof using.
    iIntros (Hs Hv) "(%s & (%Hbo & _ & %HZ) & H & _ & T)". iExists s. cbn [yblk yval]. unfold vblk at 1, vblock. rewrite Hv.
    iSplit; [iPureIntro; split; [done|split; [by split|done]]|]. iSplitL "H"; [done|]. iSplit; done.
  Qed.
  Lemma ex_shift Y M N : ex None Y M N ⊢ ex Y None M N.
  Proof using.
    iIntros "(%s & (%Hs & %HY & _) & H & Y & _ & T)". iExists s. iSplit; [done|]. iSplitL "H"; [done|].
    iSplit; [done|]. iSplitL "Y"; done.
  Qed.
  Lemma ex_shift' Y M N : ex Y None M N ⊢ ex None Y M N.
  Proof using.
    iIntros "(%s & (%Hs & _ & %HY) & H & _ & Y & T)". iExists s. iSplit; [done|]. iSplitL "H"; [done|].
    iSplitL "Y"; [done|]. iSplit; done.
  Qed.
  (** A value without a block is written. *)
  Lemma crash_put {A} Q M N k v w (K : unit → prog A) : good (vls M) → good (<[k := v]> (vls M)) → has_place N k →
    sval_ok v → val_sizes v = [] → w = venc v 0 →
    ex Q None M N -∗ (ex Q (M !! k) (<[k := (v, 0)]> M) N -∗ crash TC (K tt)) -∗ crash TC (y <- store64 (place N k) w ;; K y).
  Proof using.
    iIntros (HG HG' Hk Hs Hv ->) "T W". iApply (crash_swap Q (Some (v, 0)) M N k with "[T] W"); [done| |done|done|].
    - by rewrite vls_yset.
    - by iApply ex_put_inline.
  Qed.
  (** A block for a value is made. *)
  Lemma crash_block {A} M N v n w (W : Z → prog unit) (K : Z → prog A) : good (vls M) → sval_ok v → val_sizes v = [n] → 0 <= n <= 2 ^ 62 →
    (∀ o, stores_in o (o + n) (W o)) →
    (∀ o Φ, 0 < o → raw o (o + n) -∗ (vblock v o -∗ Φ tt) -∗ wp (W o) Φ (λ _, True)) →
    w = venc_type v →
    st M N -∗ (∀ o, ⌜Z.lor o w = venc v o⌝ -∗ ex None (Some (v, o)) M N -∗ crash TC (K o)) -∗
    crash TC (o <- al_allocate al n ;; W o ;; K o).
  Proof using.
    iIntros (HG Hs Hv Hn HW1 HW2 ->) "(%s & (%Hbo & _) & H & _ & _ & T) W". cbn [yblk app].
    iApply (crash_allocate F HF cf TC (tl M N) with "H T"); [done|rewrite Hbo; by apply TC_intro|].
    iIntros (o s' (Ho1 & Ho2 & Ho3 & Hs')) "H Rw T".
    assert (ainv ((o, n) :: tblocks b M N ++ R) s' ∗ tl M N ∗ raw o (o + n) ⊢ TC) as HC.
    { iIntros "(H & T & Rw)". iApply (TC_intro M N HG). iSplitR "T"; [|done]. rewrite -Hbo -Hs'. iApply acr_leak. iApply (ainv_acr F HF cf with "H"). }
    assert (blk_off_ok v o) as Hoff. { split; [done|]. intros _. lia. }
    iApply (crash_local TC (ainv ((o, n) :: tblocks b M N ++ R) s' ∗ tl M N) o (o + n) with "[H T Rw]").
    - apply HW1.
    - rewrite -HC. iIntros "[[H T] Rw]". iSplitL "H"; [done|]. iSplitL "T"; done.
    - iSplitR "Rw"; [|done]. iSplitL "H"; done.
    - iIntros "[[H T] Rw]". iApply (HW2 with "Rw"); [lia|]. iIntros "Y". iApply ("W" $! o with "[]").
      + iPureIntro. pose proof (venc_type_pos v). rewrite lor_tag; [|done|lia].
        destruct v as [ss|z|d|bb|]; simpl in *; try done.
        * destruct (dlen ss <? 8); [done|]. done.
        * destruct (small_int z); done.
        * destruct (d_zero d); done.
      + iExists s'. cbn [yblk yval]. unfold vblk. rewrite Hv. iSplit; [iPureIntro; split; [congruence|]; by split|].
        iSplitL "H"; [done|]. iSplitL "Y"; [done|]. iSplit; done.
  Qed.
  (** clear_value_slot of a slot without a child node. *)
  Lemma crash_clear_value {A} G Q M N k (K : unit → prog A) : good (vls M) → good (delete k (vls M)) → has_place N k →
    ex Q None M N -∗ (ex Q None (delete k M) N -∗ crash TC (K tt)) -∗
    crash TC (y <- t_clear_slot al G b (place N k) ;; K y).
  Proof using.
    iIntros (HG HG' Hk) "T W".
    assert (∃ X : Z → prog unit, t_clear_slot al G b (place N k) =
      (c <- load64 (place N k) ;;
       if bool_decide (c = 0) then Ret tt
       else if bool_decide (t_type c = 0) then X c
       else if bool_decide (t_type c = 1 ∨ t_type c = 3 ∨ t_type c = 4) then
         store64 (place N k) 0 ;;
         (if bool_decide (t_value c = 0) then Ret tt else al_free al (t_value c)) ;;
         t_items_add b (- 1)
       else if bool_decide (t_type c = 2 ∨ t_type c = 5 ∨ t_type c = 6) then
         store64 (place N k) 0 ;;
         t_items_add b (- 1)
       else Ret tt)) as [X ->].
    { destruct G; cbn [t_clear_slot]; [exists (λ _, NoFuel); done|].
      eexists (λ c, _). reflexivity. }
    wpn. iDestruct (ex_tok with "T") as %HT.
    pose proof (yenc_type _ _ _ k HT) as Hty. pose proof (yenc_zero _ _ _ k HT) as Hz.
    iApply (crash_slot_load with "T"); [done|done|]. iIntros "T". wpn.
    destruct (M !! k) as [[v o]|] eqn:E; cbn [yenc] in Hty, Hz |- *.
    2:{ rewrite (bool_decide_eq_true_2 (0 = 0)) //. wpn. iApply "W". rewrite delete_notin //. }
    pose proof (venc_type_pos v) as Hpos.
    rewrite (bool_decide_eq_false_2 (venc v o = 0)); [|intros H; apply Hz in H; done].
    rewrite (bool_decide_eq_false_2 (t_type (venc v o) = 0)); [|lia].
    destruct (tk_val _ _ _ HT _ _ _ E) as [Hv Ho].
    assert (good (vls (yset k None M))) as HG'' by by rewrite vls_yset.
    assert (good (vls (delete k M))) as HG3 by by rewrite vls_delete.
    destruct (bool_decide_reflect (t_type (venc v o) = 1 ∨ t_type (venc v o) = 3 ∨ t_type (venc v o) = 4)) as [Ht|Ht].
    2:{ rewrite bool_decide_eq_true_2; [|destruct v; simpl in *; repeat case_match; lia]. wpn.
        assert (val_sizes v = []) as Hvs by (destruct v; simpl in *; repeat case_match; lia || done).
        iApply (crash_swap Q None M N k with "T"); [done|done|done|done|]. iIntros "T". rewrite E (ex_inline _ _ _ _ _ Hvs).
        change (yset k None M) with (delete k M). wpn. iApply (crash_items_add with "T"); [done|]. done. }
    wpn. iApply (crash_swap Q None M N k with "T"); [done|done|done|done|]. iIntros "T". rewrite E.
    change (yset k None M) with (delete k M). wpn.
    destruct (val_sizes_cases v) as [Hvs|[n Hvs]].
    { rewrite (ex_inline _ _ _ _ _ Hvs). rewrite (venc_inline v o Hvs); [|lia]. rewrite bool_decide_eq_true_2 //. wpn.
      iApply (crash_items_add with "T"); [done|]. done. }
    rewrite (venc_block v o); [|by rewrite Hvs|done].
    assert (o ≠ 0) as Ho0 by (destruct Ho as [_ Ho]; rewrite Hvs in Ho; specialize (Ho ltac:(done)); lia).
    rewrite (bool_decide_eq_false_2 (o = 0)) //.
    iApply (crash_drop with "T"); [done|by rewrite Hvs|]. iIntros "T". wpn.
    iApply (crash_items_add with "T"); [done|]. done.
  Qed.
End crash.
