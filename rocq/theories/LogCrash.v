(** * LogarithmicAllocator: crashes in the middle of free and of repair.

    [flat L]: the headers of the blocks are those of [L], the free lists are arbitrary.
    This is what a process that dies in the middle of free leaves, and from which repair
    restores the lists. *)
From Verif Require Export LogRepair WPCrash.
From iris.proofmode Require Import tactics.
From iris.prelude Require Import options.
Open Scope Z_scope.
Open Scope prog_scope.
Local Arguments Z.pow : simpl never.
Local Arguments Z.mul : simpl never.
Local Arguments Z.add : simpl never.
Local Arguments bool_decide : simpl never.
Local Arguments u64 : simpl never.
Local Arguments fb_order : simpl never.
Local Arguments fb_prev : simpl never.
Local Arguments fb_allocated : simpl never.

(** ** A list that need not be linked *)
Definition wlist (k : Z) (l : list Z) : hPropI :=
  ((∃ v, word (la_head k) v) ∗ (∃ v, word (la_tail k) v) ∗ [∗ list] o ∈ l, fnode k o)%I.
Lemma flist_wlist k l : flist k l ⊢ wlist k l.
Proof.
  iIntros "(Hh & Ht & Hn & %Hl)". iSplitL "Hh"; [by iExists _|]. iSplitL "Ht"; [by iExists _|].
  iApply (nodes_fnodes with "Hn"); [lia|done].
Qed.
Definition wlists (fl : Z → list Z) : hPropI := (([∗ list] k ∈ seqZ 4 53, wlist k (fl k)) ∗ flist 57 [])%I.
Lemma seqZ_53 k : 4 <= k < 57 → seqZ 4 53 = seqZ 4 (k - 4) ++ k :: seqZ (k + 1) (56 - k).
Proof.
  intros Hk. replace 53 with ((k - 4) + (57 - k)) by lia. rewrite seqZ_app; [|lia|lia]. f_equal.
  replace (4 + (k - 4)) with k by lia. rewrite seqZ_cons; [|lia]. f_equal. rewrite /Z.succ /Z.pred. f_equal; lia.
Qed.
Lemma seqZ_54 : seqZ 4 54 = seqZ 4 53 ++ [57].
Proof. reflexivity. Qed.
Lemma flists_wlists fl : fl 57 = [] → flists fl ⊢ wlists fl.
Proof.
  intros E. unfold flists, wlists. rewrite seqZ_54 big_sepL_app big_sepL_singleton E. iIntros "[H $]".
  iApply (big_sepL_mono with "H"). intros ? k _. apply flist_wlist.
Qed.
Lemma flists_wacc fl k : 4 <= k < 57 → fl 57 = [] →
  flists fl ⊢ flist k (fl k) ∗ (∀ l, wlist k l -∗ wlists (fset fl k l)).
Proof.
  intros Hk E. unfold flists, wlists. rewrite seqZ_54 big_sepL_app big_sepL_singleton E.
  rewrite (seqZ_53 k) // !big_sepL_app !big_sepL_cons. iIntros "((H1 & $ & H2) & $)". iIntros (l) "W".
  rewrite big_sepL_app big_sepL_cons fset_same. iFrame "W". iSplitL "H1".
  - iApply (big_sepL_mono with "H1"). intros i j Hj. apply lookup_seqZ in Hj. rewrite fset_ne; [apply flist_wlist|lia].
  - iApply (big_sepL_mono with "H2"). intros i j Hj. apply lookup_seqZ in Hj. rewrite fset_ne; [apply flist_wlist|lia].
Qed.

Definition flat (L : list tile) : hPropI :=
  (raw 304 728 ∗ raw 736 1160 ∗ flist 57 [] ∗ [∗ list] t ∈ L, stale t)%I.
Definition tiles_in_ok (L : list tile) : Prop := ∀ t, t ∈ L → tile_ok t.
Lemma tiles_tiles_ok s L e : tiles s L e → tiles_in_ok L.
Proof. intros H t Hin. by pose proof (tiles_in _ _ _ _ H Hin) as (? & _). Qed.
Lemma free_of_big L k : tiles_in_ok L → 31 < k <= 57 → free_of k L = [].
Proof.
  intros Ht Hk. destruct (free_of k L) as [|o l] eqn:E; [done|].
  assert (o ∈ free_of k L) as Hin by (rewrite E; by left). apply free_of_in in Hin.
  destruct (Ht _ Hin) as (Hk' & _). lia.
Qed.
Lemma fl_57 fl L : tiles_in_ok L → fl_ok fl L → fl 57 = [].
Proof. intros Ht Hfl. apply Permutation_nil. rewrite (Hfl 57); [|lia]. by rewrite free_of_big; [|done|lia]. Qed.
Lemma wlists_flat fl L : tiles_in_ok L → fl_ok fl L →
  wlists fl -∗ ([∗ list] t ∈ L, tres t) -∗ flat L.
Proof.
  iIntros (Ht Hfl) "[FL H57] T". unfold flat. iFrame "H57". change 53 with (Z.of_nat 53).
  iAssert (([∗ list] k ∈ seqZ 4 (Z.of_nat 53), ∃ v, word (la_head k) v) ∗ ([∗ list] k ∈ seqZ 4 (Z.of_nat 53), ∃ v, word (la_tail k) v) ∗
    ([∗ list] k ∈ seqZ 4 (Z.of_nat 53), [∗ list] o ∈ free_of k L, fnode k o))%I with "[FL]" as "(H & Tl & N)".
  { rewrite -!big_sepL_sep. iApply (big_sepL_mono with "FL"). intros i k Hi. apply lookup_seqZ in Hi.
    iIntros "($ & $ & Hn)". rewrite -(Hfl k); [done|lia]. }
  rewrite (seqZ_seq (λ k, ∃ v, word (la_head k) v)%I) (seqZ_seq (λ k, ∃ v, word (la_tail k) v)%I).
  iSplitL "H".
  { iApply (words_seq 304 53). iApply (big_sepL_mono with "H"). intros j k _. unfold la_head, la_min.
    by replace (304 + 8 * (4 + Z.of_nat k - 4)) with (304 + 8 * Z.of_nat k) by lia. }
  iSplitL "Tl".
  { iApply (words_seq 736 53). iApply (big_sepL_mono with "Tl"). intros j k _. unfold la_tail, la_min.
    by replace (736 + 8 * (4 + Z.of_nat k - 4)) with (736 + 8 * Z.of_nat k) by lia. }
  iAssert ([∗ list] t ∈ L, match t.2 with None => fnode t.1.2 t.1.1 | Some _ => emp end)%I with "[N]" as "N".
  { iApply (lists_tiles fnode L).
    - intros [[o k] a] Hin. destruct (Ht _ Hin) as (Hk & _). cbn [fst snd]. lia.
    - rewrite seqZ_54 big_sepL_app big_sepL_singleton free_of_big; [|done|lia]. by iFrame "N". }
  iCombine "N T" as "T". rewrite -big_sepL_sep. iApply (big_sepL_mono with "T").
  intros j [[o k] [n|]] _; unfold tres, stale; cbn [fst snd]; iIntros "[H1 H2]"; iFrame.
Qed.
Lemma flists_flat fl L : tiles_in_ok L → fl_ok fl L →
  flists fl -∗ ([∗ list] t ∈ L, tres t) -∗ flat L.
Proof.
  iIntros (Ht Hfl) "FL T". iApply (wlists_flat with "[FL] T"); [done|done|]. iApply flists_wlists; [by eapply fl_57|done].
Qed.
Lemma flat_app L1 L2 : flat L1 ∗ ([∗ list] t ∈ L2, stale t) ⊣⊢ flat (L1 ++ L2).
Proof. unfold flat. rewrite big_sepL_app. iSplit; [iIntros "(($ & $ & $ & $) & $)"|iIntros "($ & $ & $ & $ & $)"]. Qed.
Lemma flat_join L1 L2 : flat L1 -∗ ([∗ list] t ∈ L2, stale t) -∗ flat (L1 ++ L2).
Proof. iIntros "F S". rewrite -flat_app. iFrame. Qed.
Lemma flat_perm L1 L2 : L1 ≡ₚ L2 → flat L1 ⊢ flat L2.
Proof. intros H. unfold flat. iIntros "($ & $ & $ & T)". by rewrite H. Qed.

(** ** One list *)
Lemma fnode_intro k o p v : 0 <= p < 2 ^ 57 → off_ok o → word o (k * 2 ^ 57 + p) -∗ word (o + 8) v -∗ fnode k o.
Proof. iIntros (Hp Ho) "H1 H2". iExists p, v. by iFrame. Qed.
Lemma crash_create_free_block k l o v Y Y2 :
  4 <= k <= 57 → off_ok o → (Y ⊢ ∃ w, word (o + 8) w ∗ Y2) →
  flist k l -∗ word o v -∗ Y -∗
  crash ((wlist k l ∗ word o v ∗ Y) ∨ (wlist k (l ++ [o]) ∗ Y2)) (la_create_free_block o k).
Proof.
  iIntros (Hk Ho HY) "(Hh & Ht & Hn & %Hl) H1 Y". unfold la_create_free_block. wpn.
  pose proof (last0_ok l Hl) as Hlast.
  assert (is_u64 o) as Hou by (unfold is_u64, off_ok in *; lia).
  set (C := ((wlist k l ∗ word o v ∗ Y) ∨ (wlist k (l ++ [o]) ∗ Y2))%I).
  assert (∀ vh vt, word (la_head k) vh -∗ word (la_tail k) vt -∗ nodes k 0 l 0 -∗ word o v -∗ Y -∗ C) as Hb.
  { intros vh vt. iIntros "Hh Ht Hn H1 Y". iLeft. iFrame "H1 Y". iSplitL "Hh"; [by iExists _|]. iSplitL "Ht"; [by iExists _|].
    iApply (nodes_fnodes with "Hn"); [lia|done]. }
  assert (∀ vh vt v', word (la_head k) vh -∗ word (la_tail k) vt -∗ ([∗ list] x ∈ l, fnode k x) -∗ word o (k * 2 ^ 57 + last0 0 l) -∗ word (o + 8) v' -∗ Y2 -∗ C) as Ha.
  { intros vh vt v'. iIntros "Hh Ht Hn H1 H2 Y". iRight. iFrame "Y". iSplitL "Hh"; [by iExists _|]. iSplitL "Ht"; [by iExists _|].
    rewrite big_sepL_app big_sepL_singleton. iFrame "Hn". iApply (fnode_intro with "H1 H2"); done. }
  assert (∀ z, nodes k 0 l z ⊢ [∗ list] x ∈ l, fnode k x) as Hnf. { intros z. apply nodes_fnodes; [lia|done]. }
  iApply wpc_load64. iSplit; [iApply (Hb with "Hh Ht Hn H1 Y")|]. iFrame "Ht". iIntros "Ht". wpn.
  rewrite fb_lor; [|done|lia].
  iApply wpc_store64; [apply hdr_u64; [lia|done]|]. iSplit; [iApply (Hb with "Hh Ht Hn H1 Y")|]. iFrame "H1". iIntros "H1". wpn.
  iDestruct (HY with "Y") as (w) "[H2 Y]".
  iApply wpc_store64; [done|]. iSplit; [iDestruct (Hnf with "Hn") as "Hn"; iApply (Ha with "Hh Ht Hn H1 H2 Y")|]. iFrame "H2". iIntros "H2". wpn.
  iApply wpc_load64. iSplit; [iDestruct (Hnf with "Hn") as "Hn"; iApply (Ha with "Hh Ht Hn H1 H2 Y")|]. iFrame "Ht". iIntros "Ht".
  destruct l as [|t l _] using rev_ind.
  - cbn [last0 hd0 app nodes]. cbn [last0] in Ha. rewrite (bool_decide_eq_false_2 (0 ≠ 0)); [|tauto]. wpn.
    iApply wpc_store64; [done|]. iSplit; [iApply (Ha with "Hh Ht [] H1 H2 Y"); done|]. iFrame "Hh". iIntros "Hh". wpn. iApply bind_ret_r.
    iApply wpc_store64; [done|]. iSplit; [iApply (Ha with "Hh Ht [] H1 H2 Y"); done|]. iFrame "Ht". iIntros "Ht". iApply crash_ret. iApply (Ha with "Hh Ht [] H1 H2 Y"). done.
  - rewrite nodes_app. rewrite !last0_app in Ha |- *. sl. cbn [last0 hd0 app nodes] in Ha. rewrite last0_app in Hlast. simpl in Hlast.
    apply Forall_app in Hl as [Hl Hlt]. inversion Hlt as [|? ? Htok _]; subst.
    rewrite (bool_decide_eq_true_2 (t ≠ 0)); [|unfold off_ok in Htok; lia].
    iDestruct "Hn" as "(Hn & Ht1 & Ht2 & _)". wpn.
    pose proof (last0_ok l Hl).
    assert (∀ vh vt v' v2, word (la_head k) vh -∗ word (la_tail k) vt -∗ nodes k 0 l t -∗ word t (k * 2 ^ 57 + last0 0 l) -∗ word (t + 8) v2 -∗
      word o (k * 2 ^ 57 + t) -∗ word (o + 8) v' -∗ Y2 -∗ C) as Hc.
    { intros vh vt v' v2. iIntros "Hh Ht Hn Ht1 Ht2 H1 H2 Y". iApply (Ha with "Hh Ht [Hn Ht1 Ht2] H1 H2 Y"). rewrite big_sepL_app big_sepL_singleton. iSplitL "Hn".
      - iApply (nodes_fnodes with "Hn"); [lia|done].
      - iApply (fnode_intro with "Ht1 Ht2"); done. }
    iApply wpc_load64. iSplit; [iApply (Hc with "Hh Ht Hn Ht1 Ht2 H1 H2 Y")|]. iFrame "Ht1". iIntros "Ht1".
    rewrite fb_order_eq; [|done|lia].
    rewrite (bool_decide_eq_false_2 (k ≠ k)); [|tauto]. wpn.
    iApply wpc_store64; [done|]. iSplit; [iApply (Hc with "Hh Ht Hn Ht1 Ht2 H1 H2 Y")|]. iFrame "Ht2". iIntros "Ht2". wpn. iApply bind_ret_r.
    iApply wpc_store64; [done|]. iSplit; [iApply (Hc with "Hh Ht Hn Ht1 Ht2 H1 H2 Y")|]. iFrame "Ht". iIntros "Ht". iApply crash_ret. iApply (Hc with "Hh Ht Hn Ht1 Ht2 H1 H2 Y").
Qed.

Lemma crash_unlink k l1 o l2 :
  4 <= k <= 57 → flist k (l1 ++ o :: l2) ⊢ crash (wlist k (l1 ++ o :: l2)) (la_unlink o).
Proof.
  iIntros (Hk) "(Hh & Ht & Hn & %Hl)". unfold la_unlink.
  apply Forall_app in Hl as [Hl1 Hl2]. inversion Hl2 as [|? ? Ho Hl2']; subst. clear Hl2.
  rewrite nodes_app. sl. iDestruct "Hn" as "(Hn1 & H1 & H2 & Hn2)".
  pose proof (last0_ok l1 Hl1) as Hp. set (C := wlist k (l1 ++ o :: l2)).
  assert (∀ vh vt v', word (la_head k) vh -∗ word (la_tail k) vt -∗ ([∗ list] x ∈ l1, fnode k x) -∗ word o (k * 2 ^ 57 + last0 0 l1) -∗ word (o + 8) v' -∗
     ([∗ list] x ∈ l2, fnode k x) -∗ C) as Ha.
  { intros vh vt v'. iIntros "Hh Ht Hn H1 H2 Hn2". iSplitL "Hh"; [by iExists _|]. iSplitL "Ht"; [by iExists _|].
    rewrite big_sepL_app big_sepL_cons. iFrame "Hn Hn2". iApply (fnode_intro with "H1 H2"); done. }
  assert (∀ z, nodes k 0 l1 z ⊢ [∗ list] x ∈ l1, fnode k x) as Hnf1. { intros z. apply nodes_fnodes; [lia|done]. }
  assert (∀ p, 0 <= p < 2 ^ 57 → nodes k p l2 0 ⊢ [∗ list] x ∈ l2, fnode k x) as Hnf2. { intros p Hpp. by apply nodes_fnodes. }
  assert (0 <= o < 2 ^ 57) as Hoo by (unfold off_ok in Ho; lia).
  iDestruct (Hnf2 o with "Hn2") as "Hn2"; [done|].
  wpn. iApply wpc_load64. iSplit; [iDestruct (Hnf1 with "Hn1") as "Hn1"; iApply (Ha with "Hh Ht Hn1 H1 H2 Hn2")|]. iFrame "H1". iIntros "H1".
  rewrite fb_order_eq; [|done|lia]. wpn.
  iApply wpc_load64. iSplit; [iDestruct (Hnf1 with "Hn1") as "Hn1"; iApply (Ha with "Hh Ht Hn1 H1 H2 Hn2")|]. iFrame "H2". iIntros "H2".
  assert (is_u64 (hd0 l2 0)) as Hu.
  { destruct l2 as [|y l2]; sl; [done|]. inversion Hl2' as [|? ? Hy _]; subst. unfold is_u64, off_ok in *. lia. }
  assert (∀ vh vt, word (la_head k) vh ∗ word (la_tail k) vt ∗ nodes k 0 l1 o ∗ word o (k * 2 ^ 57 + last0 0 l1) ∗ word (o + 8) (hd0 l2 0) ∗
     ([∗ list] x ∈ l2, fnode k x) ⊢
     crash C (w <- load64 o ;; nx <- load64 (o + 8) ;;
        if bool_decide (fb_prev w <> 0) then store64 (fb_prev w + 8) nx else store64 (la_head k) nx)) as Hrest.
  { intros vh vt. iIntros "(Hh & Ht & Hn & H1 & H2 & Hn2)".
    iApply wpc_load64. iSplit; [iDestruct (Hnf1 with "Hn") as "Hn"; iApply (Ha with "Hh Ht Hn H1 H2 Hn2")|]. iFrame "H1". iIntros "H1".
    iApply wpc_load64. iSplit; [iDestruct (Hnf1 with "Hn") as "Hn"; iApply (Ha with "Hh Ht Hn H1 H2 Hn2")|]. iFrame "H2". iIntros "H2". rewrite fb_prev_eq //.
    destruct l1 as [|t l1 _] using rev_ind.
    - cbn [last0 hd0 app nodes]. cbn [last0] in Ha. rewrite (bool_decide_eq_false_2 (0 ≠ 0)); [|tauto]. iApply bind_ret_r.
      iApply wpc_store64; [done|]. iSplit; [iApply (Ha with "Hh Ht [] H1 H2 Hn2"); done|]. iFrame "Hh". iIntros "Hh". iApply crash_ret. iApply (Ha with "Hh Ht [] H1 H2 Hn2"). done.
    - rewrite !last0_app in Ha |- *. sl. cbn [last0] in Ha. apply Forall_app in Hl1 as [Hl1 Hlt]. inversion Hlt as [|? ? Htok _]; subst.
      rewrite (bool_decide_eq_true_2 (t ≠ 0)); [|unfold off_ok in Htok; lia].
      rewrite nodes_app. sl. iDestruct "Hn" as "(Hn1 & Ht1 & Ht2 & _)". pose proof (last0_ok l1 Hl1).
      assert (∀ vh vt v2, word (la_head k) vh -∗ word (la_tail k) vt -∗ nodes k 0 l1 t -∗ word t (k * 2 ^ 57 + last0 0 l1) -∗ word (t + 8) v2 -∗
        word o (k * 2 ^ 57 + t) -∗ word (o + 8) (hd0 l2 0) -∗ ([∗ list] x ∈ l2, fnode k x) -∗ C) as Hc.
      { intros vh' vt' v2. iIntros "Hh Ht Hn Ht1 Ht2 H1 H2 Hn2". iApply (Ha with "Hh Ht [Hn Ht1 Ht2] H1 H2 Hn2"). rewrite big_sepL_app big_sepL_singleton. iSplitL "Hn".
        - iApply (nodes_fnodes with "Hn"); [lia|done].
        - iApply (fnode_intro with "Ht1 Ht2"); done. }
      iApply bind_ret_r. iApply wpc_store64; [done|]. iSplit; [iApply (Hc with "Hh Ht Hn1 Ht1 Ht2 H1 H2 Hn2")|]. iFrame "Ht2". iIntros "Ht2". iApply crash_ret. iApply (Hc with "Hh Ht Hn1 Ht1 Ht2 H1 H2 Hn2"). }
  destruct l2 as [|y l2].
  - cbn [last0 hd0 app nodes]. rewrite (bool_decide_eq_false_2 (0 ≠ 0)); [|tauto]. wpn.
    rewrite fb_prev_eq //. iApply wpc_store64; [unfold is_u64; lia|]. iSplit; [iDestruct (Hnf1 with "Hn1") as "Hn1"; iApply (Ha with "Hh Ht Hn1 H1 H2 Hn2")|]. iFrame "Ht". iIntros "Ht".
    wpn. iApply (Hrest with "[$Hh $Ht $Hn1 $H1 $H2 $Hn2]").
  - sl. inversion Hl2' as [|? ? Hy Hl2'']; subst.
    rewrite (bool_decide_eq_true_2 (y ≠ 0)); [|unfold off_ok in Hy; lia]. wpn.
    rewrite fb_prev_eq //. rewrite fb_lor; [|done|lia].
    rewrite big_sepL_cons. iDestruct "Hn2" as "[(%p & %vy & [%Hpp _] & Hy1 & Hy2) Hn2]".
    iApply wpc_store64; [apply hdr_u64; [lia|done]|]. iSplit.
    { iDestruct (Hnf1 with "Hn1") as "Hn1". iApply (Ha with "Hh Ht Hn1 H1 H2 [Hy1 Hy2 Hn2]"). rewrite big_sepL_cons. iFrame "Hn2". iApply (fnode_intro with "Hy1 Hy2"); done. }
    iFrame "Hy1". iIntros "Hy1". wpn. iApply Hrest. iSplitL "Hh"; [iExact "Hh"|]. iSplitL "Ht"; [iExact "Ht"|]. iSplitL "Hn1"; [iExact "Hn1"|]. iSplitL "H1"; [iExact "H1"|]. iSplitL "H2"; [iExact "H2"|]. rewrite big_sepL_cons. iFrame "Hn2". iApply (fnode_intro with "Hy1 Hy2"); done.
Qed.
Local Opaque la_create_free_block la_unlink.

(** ** All blocks *)
Lemma crash_weaken {A} C C' (p : prog A) : crash C p -∗ (C -∗ C') -∗ crash C' p.
Proof.
  iIntros "H W". iApply (wpc_strong_mono with "H"). iSplit; [by iIntros (?) "_"|]. iSplit; [by iIntros (?) "_"|]. iIntros "C". by iApply "W".
Qed.
Lemma crash_unlink_tile L1 o k L2 fl :
  tiles_in_ok (L1 ++ (o, k, None) :: L2) → fl_ok fl (L1 ++ (o, k, None) :: L2) →
  flists fl -∗ ([∗ list] t ∈ L1 ++ (o, k, None) :: L2, tres t) -∗
  crash (flat (L1 ++ (o, k, None) :: L2)) (la_unlink o).
Proof.
  iIntros (Hok Hfl) "F T". destruct (Hok (o, k, None)) as (Hk & _). { rewrite elem_of_app. right. by left. }
  assert (o ∈ fl k) as Hin by (rewrite Hfl; [rewrite free_of_app free_of_cons_same elem_of_app elem_of_cons; tauto|lia]).
  apply elem_of_list_split in Hin as (l1 & l2 & Hl). pose proof (fl_57 _ _ Hok Hfl) as E57.
  iDestruct (flists_wacc _ k with "F") as "[Fk F]"; [lia|done|]. rewrite Hl.
  iDestruct (crash_unlink with "Fk") as "H"; [lia|]. iApply (crash_weaken with "H"). iIntros "W".
  iDestruct ("F" with "W") as "F". iApply (wlists_flat with "F T"); [done|].
  intros j Hj. unfold fset. case_decide as Hd; [subst j; rewrite -Hl|]; by apply Hfl.
Qed.
Lemma crash_create_tile L1 o k L2 fl v Y :
  tiles_in_ok (L1 ++ L2) → tile_ok (o, k, None) → off_ok o → fl_ok fl (L1 ++ L2) →
  (Y ⊢ ∃ w, word (o + 8) w ∗ raw (o + 16) (o + 2 ^ k)) →
  flists fl -∗ ([∗ list] t ∈ L1 ++ L2, tres t) -∗ word o v -∗ Y -∗
  crash ((flat (L1 ++ L2) ∗ word o v ∗ Y) ∨ flat (L1 ++ (o, k, None) :: L2)) (la_create_free_block o k).
Proof.
  iIntros (Hok Hto Ho Hfl HY) "F T H1 Y". pose proof Hto as (Hk & _).
  pose proof (fl_57 _ _ Hok Hfl) as E57.
  iDestruct (flists_wacc _ k with "F") as "[Fk F]"; [lia|done|].
  iDestruct (crash_create_free_block with "Fk H1 Y") as "H"; [lia|done|exact HY|]. iApply (crash_weaken with "H"). iIntros "[(W & H1 & H2)|[W R]]".
  - iLeft. iFrame "H1 H2". iDestruct ("F" with "W") as "F". iApply (wlists_flat with "F T"); [done|].
    intros j Hj. unfold fset. case_decide as Hd; [subst j|]; by apply Hfl.
  - iRight. iDestruct ("F" with "W") as "F". iApply (wlists_flat with "F [T R]").
    + intros t. rewrite elem_of_app elem_of_cons. intros [Ht|[->|Ht]]; [apply Hok; rewrite elem_of_app; by left|done|apply Hok; rewrite elem_of_app; by right].
    + by apply fl_ok_add.
    + rewrite !big_sepL_app big_sepL_cons. iDestruct "T" as "[$ $]". iFrame.
Qed.
Lemma wpc_pool_word {A} C c m e (kont : Z → prog A) Φ Ψ :
  pool_inv c m e -∗ ((pool_inv c m e -∗ C) ∧ (pool_inv c m e -∗ wpc C (kont m) Φ Ψ)) -∗ wpc C (x <- load64 0 ;; kont x) Φ Ψ.
Proof.
  iIntros "(Hm & He & Hx & Hl & Hf & H0 & %Hok) W". iApply wpc_load64. iSplit.
  - iDestruct "W" as "[W _]". iApply "W". iFrame. done.
  - iFrame "H0". iIntros "H0". iDestruct "W" as "[_ W]". iApply "W". iFrame. done.
Qed.
Lemma used_None L : Forall (λ t, t.2 = None) L → used L = [].
Proof. induction 1 as [|[[o k] a] L Ha _ IH]; [done|]. simpl in Ha. subst a. exact IH. Qed.

Lemma crash_merge_loop {A} C X U F : ∀ L1 o k Lh L2 fl m c e (kont : Z * Z → prog A),
  32 - k <= Z.of_nat F → m <= 2 ^ 56 →
  tiles o Lh (o + 2 ^ k) → used Lh = [] → used (L1 ++ L2) = U →
  (∀ L', tiles la_start L' m → used L' = U → pool_inv c m e ∗ flat L' ∗ X ⊢ C) →
  pool_inv c m e -∗ la_hole L1 o k L2 fl m -∗ ([∗ list] t ∈ Lh, stale t) -∗ X -∗
  (∀ L1' o' k' Lh' L2' fl',
     ⌜used (L1' ++ L2') = U ∧ tiles o' Lh' (o' + 2 ^ k') ∧ used Lh' = []⌝ -∗
     pool_inv c m e -∗ la_hole L1' o' k' L2' fl' m -∗ ([∗ list] t ∈ Lh', stale t) -∗ X -∗ crash C (kont (o', k'))) -∗
  crash C (x <- la_merge_loop F o k ;; kont x).
Proof.
  induction F as [|F IH]; intros L1 o k Lh L2 fl m c e kont HF Hm56 HLh HuLh HU HC; iIntros "P (FL & T & %H) S X W".
  { lia. }
  destruct H as (H1 & H2 & Hk & Hm & Hfl). cbn [la_merge_loop].
  pose proof (tiles_le _ _ _ H1) as Hle1. pose proof (tiles_le _ _ _ H2) as Hle2.
  assert (la_start = 1168) as Hst by reflexivity.
  assert (16 <= 2 ^ k) as H16 by (change 16 with (2 ^ 4); apply pow_le; lia).
  assert (tiles_in_ok (L1 ++ L2)) as Hok12.
  { intros t. rewrite elem_of_app. intros [Ht|Ht]; [by eapply tiles_tiles_ok in Ht|by eapply tiles_tiles_ok in Ht]. }
  assert (∀ L, L ≡ₚ L1 ++ L2 → pool_inv c m e ∗ flat L ∗ ([∗ list] t ∈ Lh, stale t) ∗ X ⊢ C) as HC2.
  { intros L HL. rewrite -(HC (L1 ++ Lh ++ L2)).
    - iIntros "($ & Fl & S & $)". rewrite (flat_perm _ _ HL). iDestruct (flat_join with "Fl S") as "Fl".
      iApply (flat_perm with "Fl"). rewrite -app_assoc. f_equiv. apply Permutation_app_comm.
    - rewrite tiles_app. exists o. split; [done|]. rewrite tiles_app. by exists (o + 2 ^ k).
    - rewrite -HU !used_app HuLh. done. }
  assert (pool_inv c m e ∗ (flists fl ∗ ([∗ list] t ∈ L1 ++ L2, tres t)) ∗ ([∗ list] t ∈ Lh, stale t) ∗ X ⊢ C) as HC1.
  { rewrite -(HC2 _ (reflexivity _)). iIntros "($ & [FL T] & $ & $)". iApply (flists_flat with "FL T"); done. }
  iAssert ((pool_inv c m e -∗
    flists fl -∗ ([∗ list] t ∈ L1 ++ L2, tres t) -∗ ([∗ list] t ∈ Lh, stale t) -∗ X -∗ crash C (kont (o, k))) ∧ _)%I
    with "[W]" as "W".
  { iSplit; [|iExact "W"]. iIntros "P FL T S X". iApply ("W" $! L1 o k Lh L2 fl with "[] P [FL T] S X").
    - iPureIntro. tauto.
    - iFrame. iPureIntro. tauto. }
  destruct (decide (k = 31)) as [->|Hk31].
  - change (size_for_order 31) with (Ret (A:=Z) (2 ^ 64 - 2 ^ 31)). wpn.
    rewrite buddy31; [|lia|done].
    rewrite (bool_decide_eq_false_2 (_ < la_start)); [|lia]. wpn.
    iApply (wpc_pool_word with "P"). iSplit; [iIntros "P"; iApply HC1; iFrame|]. iIntros "P".
    rewrite (bool_decide_eq_true_2 (u64 _ > m)).
    2:{ unfold u64. assert (2 ^ 64 - 2 ^ 31 - o + (2 ^ 64 - 2 ^ 31) = (2 ^ 64 - 2 ^ 32 - o) + 1 * 2 ^ 64) as -> by lia.
        rewrite Z.mod_add // Z.mod_small; lia. }
    wpn. iDestruct "W" as "[Stop _]". iApply ("Stop" with "P FL T S X").
  - rewrite size_for_order_ok; [|lia]. wpn. fold (buddy o k).
    pose proof (buddy_spec o k ltac:(lia) Hm) as Hb.
    destruct (bool_decide_reflect (buddy o k < la_start)) as [Hlow|Hlow].
    { wpn. iDestruct "W" as "[Stop _]". iApply ("Stop" with "P FL T S X"). }
    wpn. iApply (wpc_pool_word with "P"). iSplit; [iIntros "P"; iApply HC1; iFrame|]. iIntros "P".
    rewrite u64_small; [|lia].
    destruct (bool_decide_reflect (buddy o k + 2 ^ k > m)) as [Hhigh|Hhigh].
    { wpn. iDestruct "W" as "[Stop _]". iApply ("Stop" with "P FL T S X"). }
    destruct (buddy_start la_start L1 o k L2 m ltac:(lia) Hm H1 H2 ltac:(lia) ltac:(lia)) as (t & Hin & Ht).
    assert (tile_ok t) as Htok by (by apply Hok12).
    wpn. iDestruct (header_acc _ _ t Hin Htok Hfl with "FL T") as (w) "(Hw & %Hwt & Hcl)".
    rewrite Ht. iApply wpc_load64. iSplit; [iApply HC1; iFrame; by iApply "Hcl"|]. iFrame "Hw". iIntros "Hw".
    iDestruct ("Hcl" with "Hw") as "[FL T]".
    destruct t as [[ot kt] a]. simpl in Ht. subst ot.
    destruct a as [n|]; simpl in Hwt.
    { rewrite Hwt. wpn. iDestruct "W" as "[Stop _]". iApply ("Stop" with "P FL T S X"). }
    destruct Hwt as [-> ->].
    destruct (bool_decide_reflect (kt ≠ k)) as [Hkt|Hkt].
    { wpn. iDestruct "W" as "[Stop _]". iApply ("Stop" with "P FL T S X"). }
    assert (kt = k) as -> by (destruct (decide (kt = k)); tauto). clear Hkt.
    iDestruct "W" as "[_ W]".
    destruct (buddy_adjacent la_start L1 o k L2 m None ltac:(lia) Hm H1 H2 Hin) as
      [(L2' & -> & Hlt & Hm' & H2')|(L1' & -> & Hlt & Hm' & H1' & He)].
    + assert (buddy o k = o + 2 ^ k) as Hbo by (destruct Hb as [Hb|Hb]; lia).
      wpn. iApply crash_seq. iSplit.
      { iDestruct (crash_unlink_tile with "FL T") as "H"; [done|done|]. iApply (crash_weaken with "H"). iIntros "Fl".
        iApply HC2; [reflexivity|]. iFrame. }
      iApply bind_ret_r. iApply (wp_unlink_tile L1 (buddy o k) k L2' with "FL T"); [done|done|].
      iIntros (fl' p v (Hfl' & Hp & _)) "FL T B1 B2 R". iApply wp_ret.
      rewrite bool_decide_eq_false_2; [|lia].
      iApply (IH L1 o (k + 1) (Lh ++ [(buddy o k, k, None)]) L2' fl' m c e kont with "P [FL T] [S B1 B2 R] X W"); [lia|done| | | |done| |].
      * rewrite tiles_app. exists (o + 2 ^ k). split; [done|]. cbn [tiles fst snd]. split; [done|]. split; [done|]. rewrite pow_succ; lia.
      * rewrite used_app HuLh. done.
      * rewrite -HU !used_app. done.
      * iFrame. iPureIntro. split_and!; try done; lia.
      * rewrite big_sepL_app big_sepL_singleton. iFrame "S". unfold stale. cbn [fst snd]. iFrame "R".
        iApply (fnode_intro with "B1 B2"); [done|]. unfold off_ok. lia.
    + assert (buddy o k + 2 ^ k = o) as Hbo by (destruct Hb as [Hb|Hb]; lia).
      wpn. iEval (rewrite -app_assoc) in "T". rewrite -app_assoc in Hfl. rewrite -app_assoc in Hok12. sl. cbn [app] in *.
      iApply crash_seq. iSplit.
      { iDestruct (crash_unlink_tile with "FL T") as "H"; [done|done|]. iApply (crash_weaken with "H"). iIntros "Fl".
        iApply HC2; [|iFrame]. by rewrite -app_assoc. }
      iApply bind_ret_r. iApply (wp_unlink_tile L1' (buddy o k) k L2 with "FL T"); [by apply Htok|done|].
      iIntros (fl' p v (Hfl' & Hp & _)) "FL T B1 B2 R". iApply wp_ret.
      rewrite bool_decide_eq_true_2; [|lia].
      iApply (IH L1' (buddy o k) (k + 1) ((buddy o k, k, None) :: Lh) L2 fl' m c e kont with "P [FL T] [S B1 B2 R] X W"); [lia|done| | | |done| |].
      * cbn [tiles fst snd]. split; [done|]. split; [done|]. rewrite Hbo He. by replace (o + 2 ^ k) with (o + 2 ^ k) by lia.
      * done.
      * rewrite -HU !used_app. cbn [used omap list_omap]; simpl; rewrite app_nil_r; done.
      * iFrame. iPureIntro. split_and!; try done; try lia. by rewrite He.
      * rewrite big_sepL_cons. iFrame "S". unfold stale. cbn [fst snd]. iFrame "R".
        iApply (fnode_intro with "B1 B2"); [done|]. unfold off_ok.
        pose proof (tiles_le _ _ _ H1'). lia.
Qed.
Local Opaque la_merge_loop.

(** ** free *)
Definition la_D (L : list tile) (bo m : Z) : hPropI :=
  ((∃ ba bc, sa_rest bo ba bc) ∗ flat L ∗ ⌜tiles la_start L m⌝)%I.
Lemma la_R_D L fl bo m : la_R L fl bo m ⊢ la_D L bo m.
Proof.
  iIntros "(R & FL & T & %H)". destruct H as [Ht Hfl]. iSplitL "R"; [by iExists _, _|]. iSplit; [|done].
  iApply (flists_flat with "FL T"); [by eapply tiles_tiles_ok|done].
Qed.
Lemma stale_raw L : ∀ s e, tiles s L e → used L = [] → ([∗ list] t ∈ L, stale t) ⊢ raw s e.
Proof.
  induction L as [|[[o k] a] L IH]; intros s e Ht Hu.
  { cbn [tiles] in Ht. subst. iIntros "_". iApply raw_empty. }
  cbn [tiles fst snd] in Ht. destruct Ht as (-> & Hok & Ht). destruct a as [n|]; [done|].
  pose proof (tiles_le _ _ _ Ht). destruct Hok as (Hk & _).
  assert (16 <= 2 ^ k) as H16 by (change 16 with (2 ^ 4); apply pow_le; lia).
  rewrite big_sepL_cons. iIntros "[S T]". iDestruct (IH _ _ Ht Hu with "T") as "T".
  unfold stale. cbn [fst snd]. iDestruct "S" as "[(%p & %v & _ & H1 & H2) R]".
  iApply (words_raw1 with "H1"); [lia|]. iApply (words_raw1 with "H2"); [lia|].
  replace (s + 8 + 8) with (s + 16) by lia. iApply (raw_split (s + 16) (s + 2 ^ k)); [lia|]. iFrame.
Qed.
Lemma crash_la_free X C c L1 o k n L2 fl bo m e :
  m <= 2 ^ 56 → (X ⊢ raw (o + 8) (o + 8 + n)) →
  (pool_inv c m e ∗ la_D (L1 ++ (o, k, Some n) :: L2) bo m ∗ X ⊢ C) →
  (∀ L', used L' = used (L1 ++ L2) → pool_inv c m e ∗ la_D L' bo m ⊢ C) →
  pool_inv c m e -∗ la_R (L1 ++ (o, k, Some n) :: L2) fl bo m -∗ X -∗ crash C (la_free (o + 8)).
Proof.
  iIntros (Hm56 HX HC0 HC1) "P (R & FL & T & %H) X". destruct H as [Ht Hfl].
  pose proof Ht as Ht0. apply tiles_mid in Ht as (H1 & Hok & H2).
  pose proof (tiles_tiles_ok _ _ _ Ht0) as Hok0.
  pose proof Hok as Hok'. destruct Hok' as (Hk & Hmod & Hn1 & Hk30 & Hn).
  pose proof (tiles_le _ _ _ H1) as Hle1. pose proof (tiles_le _ _ _ H2) as Hle2.
  assert (la_start = 1168) as Hst by reflexivity.
  assert (2 ^ k <= 2 ^ 30) as Hk2 by (apply pow_le; lia).
  assert (16 <= 2 ^ k) as H16 by (change 16 with (2 ^ 4); apply pow_le; lia).
  assert (tiles_in_ok (L1 ++ L2)) as Hok12.
  { intros t. rewrite elem_of_app. intros [Hi|Hi]; [by eapply tiles_tiles_ok in Hi|by eapply tiles_tiles_ok in Hi]. }
  assert (tile_ok (o, k, None)) as HokN by done.
  assert (fl_ok fl (L1 ++ L2)) as Hfl' by (by apply fl_ok_used in Hfl).
  iAssert (∃ ba bc, sa_rest bo ba bc)%I with "[R]" as (ba bc) "R"; [by iExists _, _|].
  assert (∀ ba bc, pool_inv c m e -∗ sa_rest bo ba bc -∗ flists fl -∗ ([∗ list] t ∈ L1 ++ (o, k, Some n) :: L2, tres t) -∗ X -∗ C) as Hb.
  { intros ba' bc'. iIntros "P R FL T X". iApply HC0. iFrame "P X". iSplitL "R"; [by iExists _, _|]. iSplit; [|done].
    iApply (flists_flat with "FL T"); done. }
  assert (∀ L' ba bc, tiles la_start L' m → used L' = used (L1 ++ L2) → pool_inv c m e -∗ sa_rest bo ba bc -∗ flat L' -∗ C) as Hd.
  { intros L' ba' bc' Ht' Hu. iIntros "P R F". iApply (HC1 L' Hu). iFrame "P F". iSplit; [by iExists _, _|done]. }
  unfold la_free. wpn. iApply (wpc_pool_word with "P"). iSplit; [iIntros "P"; iApply (Hb with "P R FL T X")|]. iIntros "P".
  rewrite bool_decide_eq_false_2; [|unfold la_sizeof_data; lia].
  rewrite (u64_small (o + 8 - 8)); [|lia]. replace (o + 8 - 8) with o by lia.
  iAssert (([∗ list] t ∈ L1 ++ L2, tres t) ∗ tres (o, k, Some n))%I with "[T]" as "[T Th]".
  { rewrite !big_sepL_app big_sepL_cons. iDestruct "T" as "($ & $ & $)". }
  assert (([∗ list] t ∈ L1 ++ L2, tres t) ∗ tres (o, k, Some n) ⊢ [∗ list] t ∈ L1 ++ (o, k, Some n) :: L2, tres t) as Hj.
  { rewrite !big_sepL_app big_sepL_cons. iIntros "(($ & $) & $)". }
  assert (∀ ba bc, pool_inv c m e -∗ sa_rest bo ba bc -∗ flists fl -∗ ([∗ list] t ∈ L1 ++ L2, tres t) -∗
    tres (o, k, Some n) -∗ X -∗ C) as Hb'.
  { intros ba' bc'. iIntros "P R FL T Th X". iApply (Hb with "P R FL [T Th] X"). iApply Hj. iFrame "T Th". }
  unfold tres at 2. cbn [fst snd]. iDestruct "Th" as "[Hh Hs]".
  wpn. iApply wpc_load64. iSplit.
  { iApply (Hb' with "P R FL T [Hh Hs] X"). unfold tres. cbn [fst snd]. iFrame. }
  iFrame "Hh". iIntros "Hh".
  rewrite ab_allocated; [|lia]. cbn [negb]. rewrite ab_size_eq; [|lia].
  rewrite (u64_small (n + 8)); [|lia]. rewrite (order_for_size_spec (n + 8) k); [|lia|lia].
  rewrite size_for_order_ok; [|lia]. wpn.
  iDestruct "R" as "(Ri & Rb & Ra & Rc)".
  iApply (wpc_add64 with "Ra"). iSplit.
  { iIntros (v) "Ra". iApply (Hb' with "P [Ri Rb Ra Rc] FL T [Hh Hs] X"); [iFrame|unfold tres; cbn [fst snd]; iFrame]. }
  iIntros "Ra". wpn.
  iApply (wpc_add64 with "Rc"). iSplit.
  { iIntros (v) "Rc". iApply (Hb' with "P [Ri Rb Ra Rc] FL T [Hh Hs] X"); [iFrame|unfold tres; cbn [fst snd]; iFrame]. }
  iIntros "Rc". wpn.
  iAssert (∃ ba bc, sa_rest bo ba bc)%I with "[Ri Rb Ra Rc]" as (ba' bc') "R".
  { iExists _, _. iFrame "Rb Ra Rc". iExact "Ri". }
  clear ba bc. rename ba' into ba, bc' into bc.
  assert (X ∗ raw (o + 8 + n) (o + 2 ^ k) ⊢ ∃ w, word (o + 8) w ∗ raw (o + 16) (o + 2 ^ k)) as HY.
  { iIntros "[X Hs]". iDestruct (HX with "X") as "U".
    iDestruct (raw_split (o + 8) (o + 8 + n) (o + 2 ^ k) with "[$U $Hs]") as "U"; [lia|].
    iDestruct (raw_words1 with "U") as "[[%v Hv] U]"; [lia|]. replace (o + 8 + 8) with (o + 16) by lia. iExists _. iFrame. }
  assert (tiles la_start (L1 ++ (o, k, None) :: L2) m) as HtN by (apply tiles_mid; done).
  assert (used (L1 ++ (o, k, None) :: L2) = used (L1 ++ L2)) as HuN by apply used_free.
  iApply crash_seq. iSplit.
  { iDestruct (crash_create_tile with "FL T Hh [X Hs]") as "H"; [done|done|unfold off_ok; lia|done|exact HY|iFrame|].
    iApply (crash_weaken with "H"). iIntros "[(F & Hh & X & Hs)|F]".
    - iApply HC0. iFrame "P X". iSplitL "R"; [by iExists _, _|]. iSplit; [|done].
      iDestruct (flat_join _ [(o, k, Some n)] with "F [Hh Hs]") as "F".
      { rewrite big_sepL_singleton. unfold stale. cbn [fst snd]. iFrame. }
      iApply (flat_perm with "F"). rewrite -app_assoc. f_equiv. apply Permutation_app_comm.
    - iApply (Hd with "P R F"); done. }
  iDestruct (HY with "[$X $Hs]") as (v) "[Hv U]".
  iApply bind_ret_r. iApply (wp_create_tile L1 o k L2 with "FL T Hh Hv U"); [lia|unfold off_ok; lia|done|].
  iIntros (fl1 (_ & Hfl1)) "FL T". iApply wp_ret.
  unfold la_merge_blocks_at. wpn.
  iDestruct (header_acc _ _ (o, k, None) with "FL T") as (w) "(Hw & %Hwt & Hcl)"; [rewrite elem_of_app elem_of_cons; tauto|done|done|].
  simpl in Hwt. destruct Hwt as [_ Hwt].
  pose proof (tiles_tiles_ok _ _ _ HtN) as HokT.
  iApply wpc_load64. iSplit.
  { iDestruct ("Hcl" with "Hw") as "[FL T]". iApply (Hd with "P R [FL T]"); [done|done|]. iApply (flists_flat with "FL T"); done. }
  iFrame "Hw". iIntros "Hw". rewrite Hwt. iDestruct ("Hcl" with "Hw") as "[FL T]". wpn.
  iApply crash_seq. iSplit.
  { iDestruct (crash_unlink_tile with "FL T") as "H"; [done|done|]. iApply (crash_weaken with "H"). iIntros "F". iApply (Hd with "P R F"); done. }
  iApply bind_ret_r. iApply (wp_unlink_tile L1 o k L2 with "FL T"); [done|done|].
  iIntros (fl2 p v' (Hfl2 & Hp & _)) "FL T B1 B2 U". iApply wp_ret. wpn.
  iApply (crash_merge_loop C (sa_rest bo ba bc) (used (L1 ++ L2)) 64 L1 o k [(o, k, None)] L2 fl2 m c e with "P [FL T] [B1 B2 U] R"); [lia|done| |done|done| | | |].
  { cbn [tiles fst snd]. done. }
  { intros L' HL' HU. iIntros "(P & F & R)". iApply (Hd with "P R F"); done. }
  { iFrame. iPureIntro. split_and!; try done; lia. }
  { rewrite big_sepL_singleton. unfold stale. cbn [fst snd]. iFrame "U". iApply (fnode_intro with "B1 B2"); [done|]. unfold off_ok. lia. }
  clear dependent fl fl1 fl2 k n v w v' p.
  iIntros (L1' o' k' Lh L2' fl' (HU & HLh & HuLh)) "P (FL & T & %H) S R".
  destruct H as (H1' & H2' & Hk' & Hmod' & Hfl3). cbv beta iota. wpn.
  pose proof (tiles_le _ _ _ H1') as Hle1'. pose proof (tiles_le _ _ _ H2') as Hle2'.
  assert (16 <= 2 ^ k') as H16' by (change 16 with (2 ^ 4); apply pow_le; lia).
  assert (off_ok o') as Hoff by (unfold off_ok; lia).
  assert (tile_ok (o', k', None)) as Hok2 by done.
  assert (tiles_in_ok (L1' ++ L2')) as Hok12'.
  { intros t. rewrite elem_of_app. intros [Hi|Hi]; [by eapply tiles_tiles_ok in Hi|by eapply tiles_tiles_ok in Hi]. }
  destruct Lh as [|[[oh kh] ah] Lh]; [cbn [tiles] in HLh; lia|].
  pose proof HLh as HLh'. cbn [tiles fst snd] in HLh'. destruct HLh' as (-> & Hokh & HLh').
  destruct ah as [nh|]; [done|]. assert (used Lh = []) as HuLh' by exact HuLh.
  rewrite big_sepL_cons. iDestruct "S" as "[Sh S]". unfold stale at 1. cbn [fst snd].
  iDestruct "Sh" as "[(%ph & %vh & [%Hph _] & Hw & Hv) U]".
  pose proof (tiles_le _ _ _ HLh') as Hleh.
  assert (16 <= 2 ^ kh) as H16h by (change 16 with (2 ^ 4); apply pow_le; destruct Hokh; lia).
  assert (word (o' + 8) vh ∗ raw (o' + 16) (o' + 2 ^ kh) ∗ ([∗ list] t ∈ Lh, stale t) ⊢ ∃ w, word (o' + 8) w ∗ raw (o' + 16) (o' + 2 ^ k')) as HY2.
  { iIntros "(Hv & U & S)". iExists vh. iFrame "Hv". iDestruct (stale_raw _ _ _ HLh' HuLh' with "S") as "S".
    iApply (raw_split _ (o' + 2 ^ kh)); [lia|]. iFrame. }
  assert (tiles la_start (L1' ++ (o', k', None) :: L2') m) as Htl by (apply tiles_mid; done).
  assert (used (L1' ++ (o', k', None) :: L2') = used (L1 ++ L2)) as HU' by (rewrite used_free //).
  iApply crash_seq. iSplit.
  - iDestruct (crash_create_tile L1' o' k' L2' _ _ _ Hok12' Hok2 Hoff Hfl3 HY2 with "FL T Hw [$Hv $U $S]") as "H".
    iApply (crash_weaken with "H"). iIntros "[(F & Hw & Hv & U & S)|F]".
    + iApply (Hd (L1' ++ ((o', kh, None) :: Lh) ++ L2') with "P R [F Hw Hv U S]").
      * rewrite tiles_app. exists o'. split; [done|]. rewrite tiles_app. by exists (o' + 2 ^ k').
      * rewrite !used_app. rewrite !used_app in HU. rewrite HuLh. exact HU.
      * iDestruct (flat_join _ ((o', kh, None) :: Lh) with "F [Hw Hv U S]") as "F".
        { rewrite big_sepL_cons. iFrame "S". unfold stale. cbn [fst snd]. iFrame "U". iApply (fnode_intro with "Hw Hv"); done. }
        iApply (flat_perm with "F"). rewrite -app_assoc. f_equiv. apply Permutation_app_comm.
    + iApply (Hd with "P R F"); done.
  - iDestruct (HY2 with "[$Hv $U $S]") as (w) "[Hv U]".
    iApply bind_ret_r. iApply (wp_create_tile L1' o' k' L2' with "FL T Hw Hv U"); [lia|done|done|].
    iIntros (fl4 (_ & Hfl4)) "FL T". iApply wp_ret. wpn. iApply crash_ret.
    iApply (Hd with "P R [FL T]"); [done|done|]. iApply (flists_flat with "FL T"); [by eapply tiles_tiles_ok|done].
Qed.
Local Opaque la_free.

(** ** repair *)
Lemma crash_clear_words n : ∀ a, raw a (a + 8 * Z.of_nat n) ⊢ crash (raw a (a + 8 * Z.of_nat n)) (clear_words n a).
Proof.
  induction n as [|n IH]; intros a; iIntros "R"; cbn [clear_words]; [by iApply crash_ret|].
  iDestruct (raw_words1 with "R") as "[[%v H] R]"; [lia|]. iApply wpc_store64; [done|]. iSplit.
  { iApply (words_raw1 with "H R"). lia. }
  iFrame "H". iIntros "H". replace (a + 8 * Z.of_nat (S n)) with (a + 8 + 8 * Z.of_nat n) by lia.
  iDestruct (IH with "R") as "W". iApply (crash_weaken with "W"). iIntros "R". iApply (words_raw1 with "H R"). lia.
Qed.
Lemma crash_repair_loop {A} C X L2 : ∀ F L1 fl m c e bo ba bc (kont : Z * Z → prog A), m < 2 ^ 32 → is_u64 ba → is_u64 bc →
  (length L2 <= F)%nat → tiles la_start L1 bo → tiles bo L2 m → fl_ok fl L1 →
  (pool_inv c m e ∗ flat (L1 ++ L2) ∗ X ⊢ C) →
  pool_inv c m e -∗ flists fl -∗ ([∗ list] t ∈ L1, tres t) -∗ ([∗ list] t ∈ L2, stale t) -∗ X -∗
  (∀ x, ⌜is_u64 x.1 ∧ is_u64 x.2⌝ -∗ pool_inv c m e -∗ flat (L1 ++ L2) -∗ X -∗ crash C (kont x)) -∗
  crash C (x <- la_repair_loop F bo ba bc ;; kont x).
Proof.
  induction L2 as [|[[o k] a] L2 IH]; intros F L1 fl m c e bo ba bc kont Hm56 Hba Hbc HF Ht1 Ht2 Hfl HC; iIntros "P FL T1 T2 X W".
  - cbn [tiles] in Ht2. subst bo. pose proof (tiles_tiles_ok _ _ _ Ht1) as Hok1.
    assert (pool_inv c m e -∗ flists fl -∗ ([∗ list] t ∈ L1, tres t) -∗ X -∗ C) as Hb.
    { iIntros "P FL T X". iApply HC. iFrame "P X". rewrite app_nil_r. iApply (flists_flat with "FL T"); done. }
    destruct F; cbn [la_repair_loop]; wpn; iApply (wpc_pool_word with "P"); (iSplit; [iIntros "P"; iApply (Hb with "P FL T1 X")|]); iIntros "P";
      (rewrite bool_decide_eq_false_2; [|lia]); wpn; iApply ("W" $! (ba, bc) with "[//] P [FL T1] X"); rewrite app_nil_r; iApply (flists_flat with "FL T1"); done.
  - destruct F as [|F]; [simpl in HF; lia|]. cbn [length] in HF. cbn [la_repair_loop].
    destruct Ht2 as (Ho & Hok & Ht2). cbn [fst snd] in Ho, Ht2. subst o.
    pose proof (tile_pos _ Hok) as H16. cbn [fst snd] in H16.
    pose proof (tiles_le _ _ _ Ht1) as Hle1. pose proof (tiles_le _ _ _ Ht2) as Hle2.
    assert (la_start = 1168) as Hst by reflexivity. pose proof (tiles_tiles_ok _ _ _ Ht1) as Hok1.
    assert (pool_inv c m e -∗ flat L1 -∗ stale (bo, k, a) -∗ ([∗ list] t ∈ L2, stale t) -∗ X -∗ C) as Hb0.
    { iIntros "P F S T2 X". iApply HC. iFrame "P X". iApply (flat_join with "F"). rewrite big_sepL_cons. iFrame. }
    assert (pool_inv c m e -∗ flists fl -∗ ([∗ list] t ∈ L1, tres t) -∗ stale (bo, k, a) -∗ ([∗ list] t ∈ L2, stale t) -∗ X -∗ C) as Hb.
    { iIntros "P FL T S T2 X". iApply (Hb0 with "P [FL T] S T2 X"). iApply (flists_flat with "FL T"); done. }
    rewrite big_sepL_cons. iDestruct "T2" as "[S T2]".
    wpn. iApply (wpc_pool_word with "P"). iSplit; [iIntros "P"; iApply (Hb with "P FL T1 S T2 X")|]. iIntros "P".
    rewrite (bool_decide_eq_true_2 (bo < m)); [|lia].
    destruct a as [n|]; unfold stale at 1; cbn [fst snd].
    + pose proof Hok as Hok'. destruct Hok' as (Hk & Hmod & Hn & Hk30 & Hnk).
      assert (2 ^ k <= 2 ^ 30) as Hk2 by (apply pow_le; lia).
      iDestruct "S" as "[Hh Hs]". wpn. iApply wpc_load64. iSplit; [iApply (Hb with "P FL T1 [Hh Hs] T2 X"); unfold stale; cbn [fst snd]; iFrame|].
      iFrame "Hh". iIntros "Hh".
      rewrite ab_allocated; [|lia]. rewrite ab_size_eq; [|lia]. rewrite (u64_small (n + 8)); [|lia].
      rewrite (order_for_size_spec (n + 8) k); [|lia|lia]. rewrite size_for_order_ok; [|lia]. wpn.
      rewrite (u64_small (bo + 2 ^ k)); [|lia].
      iApply (IH F (L1 ++ [(bo, k, Some n)]) fl m c e with "P FL [T1 Hh Hs] T2 X"); [done|apply u64_range|apply u64_range|lia| |done| | | |].
      * apply tiles_app. exists bo. split; [done|]. cbn [tiles fst snd]. split; [done|]. split; done.
      * rewrite -(app_nil_r L1) in Hfl. by apply fl_ok_used.
      * rewrite -app_assoc. exact HC.
      * rewrite big_sepL_app big_sepL_singleton. iFrame "T1". unfold tres. cbn [fst snd]. iFrame.
      * iIntros (x) "Hx P F X". rewrite -(app_assoc L1). by iApply ("W" with "Hx P F X").
    + pose proof Hok as Hok'. destruct Hok' as (Hk & Hmod & _).
      iDestruct "S" as "[(%p & %v & [%Hp %Hoff] & Hh & Hn) Hs]".
      assert (word bo (k * 2 ^ 57 + p) -∗ word (bo + 8) v -∗ raw (bo + 16) (bo + 2 ^ k) -∗ stale (bo, k, None)) as Hst1.
      { iIntros "H1 H2 R". unfold stale. cbn [fst snd]. iFrame "R". iApply (fnode_intro with "H1 H2"); done. }
      wpn. iApply wpc_load64. iSplit; [iApply (Hb with "P FL T1 [Hh Hs Hn] T2 X"); iApply (Hst1 with "Hh Hn Hs")|].
      iFrame "Hh". iIntros "Hh".
      rewrite fb_allocated_eq; [|done|lia]. rewrite fb_order_eq; [|done|lia]. wpn.
      assert (tiles la_start (L1 ++ [(bo, k, None)]) (bo + 2 ^ k)) as Ht1'.
      { apply tiles_app. exists bo. split; [done|]. cbn [tiles fst snd]. split; [done|]. split; done. }
      iApply crash_seq. iSplit.
      * assert (tiles_in_ok (L1 ++ [])) as Hokn by (by rewrite app_nil_r).
        assert (fl_ok fl (L1 ++ [])) as Hfln by (by rewrite app_nil_r).
        assert (word (bo + 8) v ∗ raw (bo + 16) (bo + 2 ^ k) ⊢ ∃ w, word (bo + 8) w ∗ raw (bo + 16) (bo + 2 ^ k)) as HY.
        { iIntros "[H ?]". iExists _. iFrame. }
        iDestruct (crash_create_tile L1 bo k [] _ _ _ Hokn Hok Hoff Hfln HY with "FL [T1] Hh [$Hn $Hs]") as "H"; [by rewrite app_nil_r|].
        iApply (crash_weaken with "H"). iIntros "[(F & Hh & Hn & Hs)|F]".
        -- rewrite app_nil_r. iApply (Hb0 with "P F [Hh Hs Hn] T2 X"). iApply (Hst1 with "Hh Hn Hs").
        -- iApply HC. iFrame "P X". iDestruct (flat_join with "F T2") as "F". by rewrite -app_assoc.
      * iApply bind_ret_r. iApply (wp_create_tile L1 bo k [] with "FL [T1] Hh Hn Hs"); [lia|done|by rewrite app_nil_r|by rewrite app_nil_r|].
        iIntros (fl1 (_ & Hfl1)) "FL T1". iApply wp_ret.
        assert (k <= 30) as Hk30.
        { destruct (decide (k <= 30)); [done|]. assert (k = 31) as -> by lia. exfalso.
          pose proof (Z.div_mod bo (2 ^ 31) ltac:(lia)). assert (0 < bo / 2 ^ 31) by (apply Z.div_str_pos; lia). lia. }
        rewrite size_for_order_ok; [|lia]. wpn. rewrite (u64_small (bo + 2 ^ k)); [|lia].
        iApply (IH F (L1 ++ [(bo, k, None)]) fl1 m c e with "P FL T1 T2 X"); [done|done|done|lia|done|done|done| |].
        -- rewrite -app_assoc. exact HC.
        -- iIntros (x) "Hx P F X". rewrite -(app_assoc L1). by iApply ("W" with "Hx P F X").
Qed.
Local Opaque la_repair_loop.

Lemma tiles_length s L e : tiles s L e → 16 * Z.of_nat (length L) <= e - s.
Proof.
  revert s. induction L as [|t L IH]; intros s Ht; cbn [tiles] in Ht; [subst; cbn [length]; lia|].
  destruct Ht as (? & Hok & Ht). pose proof (tile_pos _ Hok). specialize (IH _ Ht). cbn [length]. lia.
Qed.
Lemma wp_la_repair_D {A} F c L bo m e (kont : unit → prog A) Φ Ψ :
  m < 2 ^ 32 → 2 ^ 28 <= Z.of_nat F →
  pool_inv c m e -∗ la_D L bo m -∗
  (∀ fl', pool_inv c m e -∗ la_R L fl' bo m -∗ wp (kont tt) Φ Ψ) -∗
  wp (x <- la_repair F ;; kont x) Φ Ψ.
Proof.
  iIntros (Hm HF) "P ((%ba & %bc & R) & (H1 & H2 & H57 & T) & %Ht) W".
  pose proof (tiles_le _ _ _ Ht) as Hle. assert (la_start = 1168) as Hst by reflexivity. pose proof (tiles_length _ _ _ Ht) as Hlen.
  pose proof (used_bounds _ _ _ Ht ltac:(lia)) as (Hu1 & Hu2 & Hu3).
  unfold la_repair. wpn.
  iApply (wp_clear_words 53 304 with "H1"). iIntros "H1". wpn.
  iApply (wp_clear_words 53 736 with "H2"). iIntros "H2". wpn.
  iDestruct (flists_clear with "H1 H2 H57") as "FL".
  iApply (wp_repair_loop L F [] (λ _, []) m with "P FL [] T"); [lia|lia|done|done|by intros ? ?|done|].
  iIntros (fl') "%Hfl' P FL T". cbn [app] in *. wpn.
  iDestruct "R" as "(Ri & Rb & Ra & Rc)".
  iApply (wp_store64 with "Ra"); [unfold is_u64; lia|]. iIntros "Ra". wpn.
  iApply (wp_store64 with "Rc"); [unfold is_u64; lia|]. iIntros "Rc". wpn.
  iApply ("W" with "P"). iFrame. done.
Qed.
Lemma crash_la_repair F c L bo m e :
  m < 2 ^ 32 → 2 ^ 28 <= Z.of_nat F →
  pool_inv c m e -∗ la_D L bo m -∗ crash (pool_inv c m e ∗ la_D L bo m) (la_repair F).
Proof.
  iIntros (Hm HF) "P ((%ba & %bc & R) & (H1 & H2 & H57 & T) & %Ht)".
  pose proof (tiles_le _ _ _ Ht) as Hle. assert (la_start = 1168) as Hst by reflexivity. pose proof (tiles_length _ _ _ Ht) as Hlen.
  pose proof (used_bounds _ _ _ Ht ltac:(lia)) as (Hu1 & Hu2 & Hu3).
  set (C := (pool_inv c m e ∗ la_D L bo m)%I).
  assert (∀ ba bc, pool_inv c m e -∗ sa_rest bo ba bc -∗ flat L -∗ C) as Hd.
  { intros ba' bc'. iIntros "P R F". iFrame "P F". iSplit; [by iExists _, _|done]. }
  unfold la_repair. change 728 with (304 + 8 * Z.of_nat 53). change 1160 with (736 + 8 * Z.of_nat 53).
  iApply crash_seq. iSplit.
  { iDestruct (crash_clear_words with "H1") as "H". iApply (crash_weaken with "H"). iIntros "H1". iApply (Hd with "P R"). iFrame. }
  iApply bind_ret_r. iApply (wp_clear_words 53 304 with "H1"). iIntros "H1". iApply wp_ret.
  iApply crash_seq. iSplit.
  { iDestruct (crash_clear_words with "H2") as "H". iApply (crash_weaken with "H"). iIntros "H2". iApply (Hd with "P R"). iFrame.
    change (304 + 8 * Z.of_nat 53) with 728. iApply (words_seq 304 53). iApply (big_sepL_mono with "H1"). intros. iIntros "H". by iExists _. }
  iApply bind_ret_r. iApply (wp_clear_words 53 736 with "H2"). iIntros "H2". iApply wp_ret.
  iDestruct (flists_clear with "H1 H2 H57") as "FL".
  iApply (crash_repair_loop C (sa_rest bo ba bc) L F [] (λ _, []) m c e with "P FL [] T R"); [lia|done|done|lia|done|done|by intros ? ?| |done|].
  { iIntros "(P & F & R)". iApply (Hd with "P R F"). }
  iIntros ([ba' bc'] [Hba Hbc]) "P F R". cbv beta iota. cbn [app fst snd] in *.
  iDestruct "R" as "(Ri & Rb & Ra & Rc)".
  iApply wpc_store64; [done|]. iSplit; [iApply (Hd with "P [Ri Rb Ra Rc] F"); iFrame|]. iFrame "Ra". iIntros "Ra".
  iApply bind_ret_r. iApply wpc_store64; [done|]. iSplit; [iApply (Hd with "P [Ri Rb Ra Rc] F"); iFrame|]. iFrame "Rc". iIntros "Rc".
  iApply crash_ret. iApply (Hd with "P [Ri Rb Ra Rc] F"). iFrame.
Qed.
Local Opaque la_repair.

(** ** The allocator, with a repair due or not *)
Definition la_St (d : bool) (L : list tile) (fl : Z → list Z) (bo m : Z) : hPropI :=
  (if d then la_D L bo m else la_R L fl bo m)%I.
Lemma la_St_D d L fl bo m : la_St d L fl bo m ⊢ la_D L bo m.
Proof. destruct d; [done|apply la_R_D]. Qed.
Lemma crash_store_bytes bs : ∀ a cs, length cs = length bs → bytes_ok bs →
  pts a cs ⊢ crash (∃ j, ⌜(j <= length bs)%nat⌝ ∗ pts a (take j bs ++ drop j cs)) (store_bytes a bs).
Proof.
  induction bs as [|b bs IH]; intros a cs Hl Hok; destruct cs as [|c cs]; simpl in Hl; try done.
  - iIntros "H". cbn [store_bytes]. iApply crash_ret. iExists 0%nat. by iFrame.
  - inversion Hok as [|?? Hb Hbs]; subst. cbn [store_bytes pts]. iIntros "[Hc Hcs]".
    change (store8 a b ;; store_bytes (a + 1) bs) with (Op (EStore 1 a b) (fun _ => store_bytes (a+1) bs)).
    iApply (wpc_store _ 1 a [c]); [done|done|]. iSplit; [iExists 0%nat; cbn [take drop app pts]; iFrame; iPureIntro; lia|].
    iSplitL "Hc"; [simpl; by iFrame|]. iIntros "Hc".
    iDestruct (IH with "Hcs") as "H"; [lia|done|]. iApply (crash_weaken with "H"). iIntros "(%j & %Hj & Hcs)".
    iExists (S j). iSplit; [iPureIntro; cbn [length]; lia|]. cbn [take drop app pts le_bytes]. rewrite Z.mod_small; [|done]. iDestruct "Hc" as "[$ _]". done.
Qed.
