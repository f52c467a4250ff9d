(** * PrefixTree: lookups and insertions. *)
From Verif Require Export PrefixMake.
From iris.proofmode Require Import tactics.
From iris.prelude Require Import options.
Open Scope Z_scope.
Open Scope prog_scope.

Local Arguments Z.pow : simpl never.
Local Arguments Z.mul : simpl never.
Local Arguments Z.add : simpl never.
Local Arguments u64 : simpl never.
Local Opaque t_init_node t_extend t_chain_nodes t_walk.

(** ** What a slot holds *)
Definition yok (y : option vl) : Prop := match y with Some (v, o) => sval_ok v ∧ blk_off_ok v o | None => True end.
Definition yenc (y : option vl) : Z := match y with Some (v, o) => venc v o | None => 0 end.
Definition yblk (y : option vl) : blocks := match y with Some (v, o) => vblk v o | None => [] end.
Definition yval (y : option vl) : hPropI := match y with Some (v, o) => vblock v o | None => emp end%I.
Definition yset (k : bytes) (y : option vl) (M : vlmap) : vlmap := partial_alter (λ _, y) k M.
Lemma yset_lookup k y M : yset k y M !! k = y.
Proof. apply lookup_partial_alter. Qed.
Lemma yset_ne k y M k' : k' ≠ k → yset k y M !! k' = M !! k'.
Proof. intros H. apply lookup_partial_alter_ne. congruence. Qed.
Lemma yset_delete k y M : yset k y (delete k M) = yset k y M.
Proof.
  apply map_eq. intros j. destruct (decide (j = k)) as [->|]; [by rewrite !yset_lookup|].
  rewrite !yset_ne // lookup_delete_ne //.
Qed.
Lemma yset_id k M : yset k (M !! k) M = M.
Proof.
  apply map_eq. intros j. destruct (decide (j = k)) as [->|]; [by rewrite !yset_lookup|].
  rewrite !yset_ne //.
Qed.
Lemma vblocks_yset k y M : vblocks (yset k y M) ≡ₚ yblk y ++ vblocks (delete k M).
Proof.
  destruct y as [[v o]|].
  - rewrite -yset_delete. apply vblocks_insert. apply lookup_delete.
  - done.
Qed.
Lemma tvals_yset k y M : tvals (yset k y M) ⊣⊢ yval y ∗ tvals (delete k M).
Proof.
  unfold tvals. destruct y as [[v o]|].
  - rewrite -yset_delete. apply (big_sepM_insert (λ _ (x : vl), vblock x.1 x.2) (delete k M) k (v, o)). apply lookup_delete.
  - rewrite left_id. done.
Qed.
Lemma tblocks_yset b k y M N R : tblocks b (yset k y M) N ++ R ≡ₚ yblk y ++ tblocks b (delete k M) N ++ R.
Proof.
  unfold tblocks. rewrite vblocks_yset. cbn [app]. apply Permutation_cons_app. rewrite !assoc.
  do 2 f_equiv. apply Permutation_app_comm.
Qed.

Lemma vblock_raw v o n : val_sizes v = [n] → vblock v o ⊢ raw o (o + n).
Proof.
  iIntros (Hvs) "Y". unfold vblock. rewrite Hvs. destruct v as [st|z|bb|bb|]; simpl in Hvs; try done.
  - destruct (dlen st <? 8); [done|]. injection Hvs as <-. by iApply (pts_raw with "Y").
  - destruct (small_int z); [done|]. injection Hvs as <-. by iApply (word_raw with "Y").
  - destruct (d_zero bb); [done|]. injection Hvs as <-. by iApply (word_raw with "Y").
Qed.

Section ops.
  Context `{ne : NodeErr}.
  Context {RR : Rep} {PR : PoolRep} {al : allocator} (S : alloc_spec al) (cf : cfg) (F : nat).
  Notation ainv := (ainv S cf).
  Notation tst := (tst S cf).
  Notation lk := (lk S).

  Lemma tst_open b M N x R s k : has_place N k →
    tst b M N x R s ⊢
      ⌜tok b M N⌝ ∗ ainv (yblk (M !! k) ++ tblocks b (delete k M) N ++ R) s ∗ yval (M !! k) ∗
      word (place N k) (yenc (M !! k)) ∗ word b (u64 (Z.of_nat (size M) + x)) ∗
      (∀ y s' z, ⌜yok y⌝ -∗ ainv (yblk y ++ tblocks b (delete k M) N ++ R) s' -∗ yval y -∗
         word (place N k) (yenc y) -∗ word b (u64 z) -∗
         tst b (yset k y M) N (z - Z.of_nat (size (yset k y M))) R s').
  Proof using.
    iIntros (Hk) "[H (%HT & Wi & Wn & T & V)]". iSplit; [done|].
    iSplitL "H". { iApply (ainv_perm with "H"). rewrite -{1}(yset_id k M). apply tblocks_yset. }
    iDestruct (place_acc M N k Hk with "T") as "[W T]". rewrite -{2}(yset_id k M) tvals_yset.
    iDestruct "V" as "[$ V]". iFrame "W Wi". iIntros (y s' z Hy) "H Y W Wi". iSplitL "H".
    { iApply (ainv_perm with "H"). by rewrite tblocks_yset. }
    iSplit.
    { iPureIntro. destruct y as [[v o]|]; [|by apply tok_del]. destruct Hy. by apply tok_put. }
    iFrame "Wn". iSplitL "Wi". { by replace (Z.of_nat (size (yset k y M)) + (z - Z.of_nat (size (yset k y M)))) with z by lia. }
    iSplitL "T W".
    - iApply ("T" $! (yset k y M) with "[]").
      + iPureIntro. intros k' Hk'. unfold vword. by rewrite yset_ne.
      + unfold vword. by rewrite yset_lookup.
    - rewrite tvals_yset. iFrame.
  Qed.
  Lemma tst_tok b M N x R s : tst b M N x R s ⊢ ⌜tok b M N⌝.
  Proof using. iIntros "[_ [% _]]". done. Qed.

  (** ** Elementary steps *)
  Lemma wp_items_add {A} b M N x R s d (K : unit → prog A) Φ Ψ :
    tst b M N x R s -∗ (tst b M N (x + d) R s -∗ wp (K tt) Φ Ψ) -∗ wp (y <- t_items_add b d ;; K y) Φ Ψ.
  Proof using.
    iIntros "[H (%HT & Wi & Wn)] W". iApply (wp_t_items_add with "Wi"). iIntros "Wi". iApply "W". iFrame "H".
    iSplit; [done|]. iFrame. by rewrite Z.add_assoc.
  Qed.
  Lemma wp_slot_load {A} b M N x R s k (K : Z → prog A) Φ Ψ : has_place N k →
    tst b M N x R s -∗ (tst b M N x R s -∗ wp (K (yenc (M !! k))) Φ Ψ) -∗ wp (y <- load64 (place N k) ;; K y) Φ Ψ.
  Proof using.
    iIntros (Hk) "[H (%HT & Wi & Wn & T & V)] W". iDestruct (place_acc M N k Hk with "T") as "[Wd T]".
    iApply (wp_load64 with "Wd"). iIntros "Wd". iApply "W". iFrame "H". iSplit; [done|]. iFrame.
    iApply ("T" $! M with "[//] Wd").
  Qed.
  Lemma yenc_type b M N k : tok b M N → t_type (yenc (M !! k)) = match M !! k with Some (v, _) => venc_type v | None => 0 end.
  Proof using.
    intros HT. destruct (M !! k) as [[v o]|] eqn:E; [|done]. simpl.
    destruct (tk_val _ _ _ HT _ _ _ E) as [Hv Ho]. by destruct (venc_facts v o Hv Ho) as (? & _).
  Qed.
  Lemma yenc_zero b M N k : tok b M N → yenc (M !! k) = 0 ↔ M !! k = None.
  Proof using. apply (vword_pos b M N k). Qed.
  Lemma yenc_u64 b M N k : tok b M N → is_u64 (yenc (M !! k)).
  Proof using.
    intros HT. destruct (M !! k) as [[v o]|] eqn:E; [|done]. simpl.
    destruct (tk_val _ _ _ HT _ _ _ E) as [Hv Ho]. by destruct (venc_facts v o Hv Ho) as (_ & ? & _).
  Qed.
  Lemma place_pos b M N k : tok b M N → has_place N k → 0 < place N k.
  Proof using.
    intros HT Hk. destruct (N !! k) as [[r o]|] eqn:E.
    - rewrite (place_node _ _ _ _ E). destruct (tk_off _ _ _ HT _ _ _ E). lia.
    - destruct Hk as [[? ?]|(p & c & r & o & -> & Hp & Hc)]; [congruence|].
      rewrite (place_child _ _ _ _ _ E Hp). destruct (tk_off _ _ _ HT _ _ _ Hp). unfold in_range in Hc. lia.
  Qed.

  (** clear_value_slot of a slot without a child node. *)
  Lemma wp_clear_value {A} G b M N x R s k (K : unit → prog A) Φ Ψ : has_place N k →
    tst b M N x R s -∗
    (∀ s', ⌜ext cf 0 (lk (val_sizes_at (vls M) k)) s s'⌝ -∗ tst b (delete k M) N x R s' -∗ wp (K tt) Φ Ψ) -∗
    wp (y <- t_clear_slot al G b (place N k) ;; K y) Φ Ψ.
  Proof using.
    iIntros (Hk) "T W".
    assert (∃ X : Z → prog unit, t_clear_slot al G b (place N k) =
      (c <- load64 (place N k) ;;
       if bool_decide (c = 0) then Ret tt
       else if bool_decide (t_type c = 0) then X c
       else if bool_decide (t_type c = 1 ∨ t_type c = 3 ∨ t_type c = 4) then
         store64 (place N k) 0 ;;
         (if bool_decide (t_value c = 0) then Ret tt else al_free al (t_value c)) ;;
         t_items_add b (- 1)
       else if bool_decide (t_type c = 2 ∨ t_type c = 5 ∨ t_type c = 6) then
         store64 (place N k) 0 ;;
         t_items_add b (- 1)
       else Ret tt)) as [X ->].
    { destruct G; cbn [t_clear_slot]; [exists (λ _, NoFuel); done|].
      eexists (λ c, _). reflexivity. }
    wpn. iDestruct (tst_tok with "T") as %HT.
    pose proof (yenc_type _ _ _ k HT) as Hty. pose proof (yenc_zero _ _ _ k HT) as Hz.
    iApply (wp_slot_load with "T"); [done|]. iIntros "T". wpn.
    destruct (M !! k) as [[v o]|] eqn:E; cbn [yenc] in Hty, Hz |- *.
    2:{ rewrite (bool_decide_eq_true_2 (0 = 0)) //. wpn. iApply ("W" $! s).
      - iPureIntro; eapply ext_weaken; [apply ext_refl|done|done].
      - rewrite delete_notin //. }
    pose proof (venc_type_pos v) as Hpos.
    rewrite (bool_decide_eq_false_2 (venc v o = 0)); [|intros H; apply Hz in H; done].
    rewrite (bool_decide_eq_false_2 (t_type (venc v o) = 0)); [|lia].
    destruct (tk_val _ _ _ HT _ _ _ E) as [Hv Ho].
    iDestruct (tst_open _ _ _ _ _ _ k Hk with "T") as "(_ & H & Y & Wd & Wi & T)". rewrite E. cbn [yblk yval yenc].
    assert (val_sizes_at (vls M) k = val_sizes v) as Evs by (unfold val_sizes_at, vls; by rewrite lookup_fmap E).
    assert (Z.of_nat (size M) = Z.of_nat (size (delete k M)) + 1) as Esz.
    { rewrite -{1}(insert_delete M k (v, o)) // map_size_insert lookup_delete. simpl. lia. }
    iAssert (∀ s', ⌜ext cf 0 (lk (val_sizes_at (vls M) k)) s s'⌝ -∗ ainv (tblocks b (delete k M) N ++ R) s' -∗
        word (place N k) 0 -∗ word b (u64 (Z.of_nat (size M) + x + -1)) -∗ wp (K tt) Φ Ψ)%I with "[W T]" as "W".
    { iIntros (s' Hs') "H Wd Wi". iApply ("W" $! s' with "[//]"). iSpecialize ("T" $! None s' with "[//] H [//] Wd Wi").
      change (yset k None M) with (delete k M).
      by replace (Z.of_nat (size M) + x + -1 - Z.of_nat (size (delete k M))) with x by lia. }
    destruct (bool_decide_reflect (t_type (venc v o) = 1 ∨ t_type (venc v o) = 3 ∨ t_type (venc v o) = 4)) as [Ht|Ht].
    2:{ rewrite bool_decide_eq_true_2; [|destruct v; simpl in *; repeat case_match; lia]. wpn.
        iApply (wp_store64 with "Wd"); [done|]. iIntros "Wd". wpn.
        assert (val_sizes v = []) as Hvs by (destruct v; simpl in *; repeat case_match; lia || done).
        unfold vblk. rewrite Hvs. cbn [List.map app].
        iApply (wp_t_items_add with "Wi"). iIntros "Wi". iApply ("W" $! s with "[] H Wd Wi"). iPureIntro.
        eapply ext_weaken; [apply ext_refl|done|done]. }
    wpn. iApply (wp_store64 with "Wd"); [done|]. iIntros "Wd". wpn.
    destruct (val_sizes_cases v) as [Hvs|[n Hvs]].
    { rewrite (venc_inline v o Hvs); [|lia]. rewrite bool_decide_eq_true_2 //. wpn.
        unfold vblk. rewrite Hvs. cbn [List.map app].
        iApply (wp_t_items_add with "Wi"). iIntros "Wi". iApply ("W" $! s with "[] H Wd Wi"). iPureIntro.
        eapply ext_weaken; [apply ext_refl|done|done]. }
    rewrite (venc_block v o); [|by rewrite Hvs|done].
    assert (o ≠ 0) as Ho0 by (destruct Ho as [_ Ho]; rewrite Hvs in Ho; specialize (Ho ltac:(done)); lia).
    rewrite (bool_decide_eq_false_2 (o = 0)) //. unfold vblk. rewrite Hvs. cbn [List.map app].
    iDestruct (vblock_raw _ _ _ Hvs with "Y") as "Y".
    iApply (wp_free with "H Y"). iIntros (s' Hs') "H". wpn.
    iApply (wp_t_items_add with "Wi"). iIntros "Wi". iApply ("W" $! s' with "[] H Wd Wi"). iPureIntro.
    eapply ext_weaken; [exact Hs'|done|]. intros Hl. exists n. split; [rewrite Evs Hvs; by left|done].
  Qed.

  Lemma wp_slot_put {A} b M N x R s k v o (K : unit → prog A) Φ Ψ :
    has_place N k → M !! k = None → sval_ok v → blk_off_ok v o →
    ainv (vblk v o ++ tblocks b M N ++ R) s -∗ tinv b M N x -∗ vblock v o -∗
    (tst b (<[k := (v, o)]> M) N (x - 1) R s -∗ wp (K tt) Φ Ψ) -∗
    wp (y <- store64 (place N k) (venc v o) ;; K y) Φ Ψ.
  Proof using.
    iIntros (Hk HM Hv Ho) "H (%HT & Wi & Wn & T & V) Y W".
    destruct (venc_facts v o Hv Ho) as (_ & Hu & _).
    iDestruct (place_acc M N k Hk with "T") as "[Wd T]". iApply (wp_store64 with "Wd"); [done|]. iIntros "Wd".
    change (<[k := (v, o)]> M) with (yset k (Some (v, o)) M).
    iApply "W". iSplitL "H".
    { iApply (ainv_perm with "H"). rewrite tblocks_yset. cbn [yblk]. by rewrite delete_notin. }
    iSplit; [iPureIntro; by apply tok_put|]. iFrame "Wn". iSplitL "Wi".
    { change (yset k (Some (v, o)) M) with (<[k := (v, o)]> M). rewrite map_size_insert HM. 
      by replace (Z.of_nat (Datatypes.S (size M)) + (x - 1)) with (Z.of_nat (size M) + x) by lia. }
    iSplitL "T Wd".
    - iApply ("T" with "[] [Wd]").
      + iPureIntro. intros k' Hk'. unfold vword. by rewrite yset_ne.
      + unfold vword. by rewrite yset_lookup.
    - rewrite tvals_yset delete_notin //. iFrame.
  Qed.
  (** The same when the value has no block. *)
  Lemma wp_slot_put_inline {A} b M N x R s k v w (K : unit → prog A) Φ Ψ :
    has_place N k → M !! k = None → sval_ok v → val_sizes v = [] → w = venc v 0 →
    tst b M N x R s -∗
    (tst b (<[k := (v, 0)]> M) N (x - 1) R s -∗ wp (K tt) Φ Ψ) -∗
    wp (y <- store64 (place N k) w ;; K y) Φ Ψ.
  Proof using.
    iIntros (Hk HM Hv Hs ->) "[H T] W".
    iApply (wp_slot_put with "[H] T [] W"); [done|done|done|by split| |].
    - unfold vblk. rewrite Hs. done.
    - unfold vblock. by rewrite Hs.
  Qed.

  (** ** Lookups *)
  Lemma wp_t_find {A} b M N x R s k (K : Z → prog A) Φ Ψ :
    tst b M N x R s -∗
    (∀ slot, ⌜(slot = place N k ∧ slot ≠ 0 ∧ has_place N k ∧ (is_Some (M !! k) ∨ is_Some (N !! k))) ∨
              (slot = 0 ∧ M !! k = None ∧ N !! k = None)⌝ -∗ tst b M N x R s -∗ wp (K slot) Φ Ψ) -∗
    wp (y <- t_find b k ;; K y) Φ Ψ.
  Proof using.
    iIntros "[H (%HT & Wi & Wn & T & V)] W". unfold t_find, t_traverse. wpn.
    iApply (wp_t_walk with "T"); [done|exact (tk_root _ _ _ HT)|]. iIntros (w Hw) "T". wpn.
    iAssert (tst b M N x R s) with "[H Wi Wn T V]" as "T".
    { iFrame "H". iSplit; [done|]. iFrame. }
    destruct w as [slot ns|par no rest]; unfold walk_post in Hw; cbn [app] in Hw; wpn.
    - destruct Hw as (-> & Hpl & Hin & _). iApply ("W" with "[] T"). iPureIntro. left.
      pose proof (place_pos _ _ _ _ HT Hpl). split_and!; [done|lia|done|done].
    - destruct Hw as (q & c & k' & r & -> & -> & Hq & Hqc & Hcase & Hpar & Hreach & Hsizes & Hfrees & HM & HN).
      iApply ("W" with "[] T"). iPureIntro. by right.
  Qed.
  Local Opaque t_find.

  Lemma wp_t_lookup {A} b M N x R s k v o (K : pval → prog A) Φ Ψ : M !! k = Some (v, o) →
    tst b M N x R s -∗ (tst b M N x R s -∗ wp (K v) Φ Ψ) -∗ wp (y <- t_lookup al (venc v o) ;; K y) Φ Ψ.
  Proof using.
    iIntros (Hk) "T W". iDestruct (tst_tok with "T") as %HT.
    destruct (tk_val _ _ _ HT _ _ _ Hk) as [Hv Ho]. destruct (venc_facts v o Hv Ho) as (Hty & Hu & Hne).
    unfold t_lookup. rewrite Hty. destruct v as [st|z|bb|bb|]; cbn [venc_type venc] in *.
    - cbn [val_sizes] in *. destruct (Z.ltb_spec (dlen st) 8) as [Hl|Hl].
      + destruct (Z.eqb_spec (dlen st) 0) as [H0|H0].
        * rewrite bool_decide_eq_true_2 //. wpn. assert (st = []) as -> by (destruct st; [done|unfold dlen in H0; simpl in H0; lia]).
          by iApply "W".
        * wpn. rewrite short_word_len; [|by destruct Hv|done].
          unfold dlen. rewrite Nat2Z.id t_unpack_word; [|by destruct Hv|done]. by iApply "W".
      + pose proof (venc_block (PStr st) o) as Hb. cbn [val_sizes venc] in Hb. rewrite (proj2 (Z.ltb_ge _ _) Hl) in Hb.
        specialize (Hb ltac:(done) Ho). rewrite Hb.
        assert (0 < o) as Ho0. { destruct Ho as [_ Ho]. cbn [val_sizes] in Ho. rewrite (proj2 (Z.ltb_ge _ _) Hl) in Ho. specialize (Ho ltac:(done)). lia. }
        rewrite bool_decide_eq_false_2; [|lia]. wpn. iDestruct "T" as "[H (_ & Wi & Wn & T & V)]".
        iApply (wp_block_size with "H").
        { apply in_app_l. unfold tblocks. right. apply elem_of_app. right. apply (elem_of_Permutation_proper _ _ _ (vblocks_delete _ _ _ _ Hk)).
          apply in_app_l. unfold vblk. cbn [val_sizes]. rewrite (proj2 (Z.ltb_ge _ _) Hl). by left. }
        iIntros "H". wpn. iDestruct (big_sepM_lookup_acc _ _ _ _ Hk with "V") as "[Y V]". unfold vblock at 1. cbn [val_sizes fst snd].
        rewrite (proj2 (Z.ltb_ge _ _) Hl). iApply (wp_load_bytes_b with "Y"); [unfold dlen; by rewrite Nat2Z.id|]. iIntros "Y". wpn.
        iApply "W". iFrame "H". iSplit; [done|]. iFrame. iApply "V". unfold vblock. cbn [val_sizes fst snd].
        by rewrite (proj2 (Z.ltb_ge _ _) Hl).
    - destruct (small_int z) eqn:Es.
      + wpn. rewrite t_int_word //. by iApply "W".
      + pose proof (venc_block (PInt z) o) as Hb. cbn [val_sizes venc] in Hb. rewrite Es in Hb. rewrite Hb //. wpn.
        iDestruct "T" as "[H (_ & Wi & Wn & T & V)]".
        iDestruct (big_sepM_lookup_acc _ _ _ _ Hk with "V") as "[Y V]". unfold vblock at 1. cbn [val_sizes fst snd]. rewrite Es.
        iApply (wp_load64 with "Y"). iIntros "Y". wpn. rewrite s64_u64; [|by destruct Hv]. iApply "W". iFrame "H". iSplit; [done|]. iFrame.
        iApply "V". unfold vblock. cbn [val_sizes fst snd]. by rewrite Es.
    - destruct (d_zero bb) eqn:Es.
      + rewrite bool_decide_eq_true_2 //. wpn. destruct Hv as [_ Hv]. rewrite (Hv Es). by iApply "W".
      + pose proof (venc_block (PDouble bb) o) as Hb. cbn [val_sizes venc] in Hb. rewrite Es in Hb. rewrite Hb //. wpn.
        assert (0 < o) as Ho0. { destruct Ho as [_ Ho]. cbn [val_sizes] in Ho. rewrite Es in Ho. specialize (Ho ltac:(done)). lia. }
        rewrite bool_decide_eq_false_2; [|lia]. wpn. iDestruct "T" as "[H (_ & Wi & Wn & T & V)]".
        iDestruct (big_sepM_lookup_acc _ _ _ _ Hk with "V") as "[Y V]". unfold vblock at 1. cbn [val_sizes fst snd]. rewrite Es.
        iApply (wp_load64 with "Y"). iIntros "Y". wpn. iApply "W". iFrame "H". iSplit; [done|]. iFrame.
        iApply "V". unfold vblock. cbn [val_sizes fst snd]. by rewrite Es.
    - destruct bb.
      + change (Z.shiftr (t_value 13) 3) with 1. cbn -[bind]. wpn. by iApply "W".
      + change (Z.shiftr (t_value 5) 3) with 0. cbn -[bind]. wpn. by iApply "W".
    - change (Z.shiftr (t_value 21) 3) with 2. cbn -[bind]. wpn. by iApply "W".
  Qed.
  Local Opaque t_lookup.

  Lemma wp_t_allowed {A} b M N x R s c (K : bool → prog A) Φ Ψ :
    tst b M N x R s -∗ (tst b M N x R s -∗ wp (K (t_holds (vls M) c)) Φ Ψ) -∗
    wp (y <- t_allowed al b c ;; K y) Φ Ψ.
  Proof using.
    iIntros "T W". destruct c as [[k e]|]; unfold t_allowed, t_check; cbn [fst snd]; wpn; [|by iApply "W"].
    iApply (wp_t_find with "T"). iIntros (slot Hs) "T". wpn. iDestruct (tst_tok with "T") as %HT.
    unfold t_holds, vls. rewrite lookup_fmap. cbn [fst snd].
    destruct Hs as [(-> & Hne & Hpl & Hin)|(-> & HM & HN)].
    - rewrite bool_decide_eq_false_2 //. wpn. iApply (wp_slot_load with "T"); [done|]. iIntros "T". wpn.
      pose proof (yenc_zero _ _ _ k HT) as Hz. destruct (M !! k) as [[v o]|] eqn:E; cbn [yenc] in *.
      + rewrite bool_decide_eq_false_2; [|intros H; apply Hz in H; done]. wpn. iApply (wp_t_lookup with "T"); [done|].
        iIntros "T". wpn. by iApply "W".
      + rewrite bool_decide_eq_true_2 //. wpn. by iApply "W".
    - rewrite bool_decide_eq_true_2 //. wpn. rewrite HM. by iApply "W".
  Qed.
  Local Opaque t_allowed.
End ops.
