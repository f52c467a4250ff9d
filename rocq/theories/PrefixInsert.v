(** * PrefixTree: insert and incr. *)
From Verif Require Export PrefixOps.
From iris.proofmode Require Import tactics.
From iris.prelude Require Import options.
Open Scope Z_scope.
Open Scope prog_scope.

Local Arguments Z.pow : simpl never.
Local Arguments Z.mul : simpl never.
Local Arguments Z.add : simpl never.
Local Arguments u64 : simpl never.
Local Opaque t_init_node t_extend t_chain_nodes t_walk t_find t_lookup t_allowed t_make t_clear_slot t_items_add.

Lemma reached_all k N : partly_reached k N (t_reach N [] k).
Proof. exists (length k). by rewrite take_ge. Qed.
Lemma vls_yset k y M : vls (yset k y M) = match y with Some (v, _) => <[k := v]> (vls M) | None => delete k (vls M) end.
Proof. destruct y as [[v o]|]; [apply vls_insert|apply vls_delete]. Qed.
Lemma vls_lookup M k : vls M !! k = fst <$> M !! k.
Proof. unfold vls. by rewrite lookup_fmap. Qed.
Lemma size_delete_Some (M : vlmap) k y : M !! k = Some y → Z.of_nat (size M) = Z.of_nat (size (delete k M)) + 1.
Proof. intros H. rewrite -{1}(insert_delete M k y) // map_size_insert lookup_delete. simpl. lia. Qed.

Section insert.
  Context `{ne : NodeErr}.
  Context {RR : Rep} {PR : PoolRep} {al : allocator} (S : alloc_spec al) (cf : cfg) (F : nat).
  Notation ainv := (ainv S cf).
  Notation tst := (tst S cf).
  Notation lk := (lk S).

  Definition ins_sizes (M : vlmap) (N : ndmap) k v : list Z :=
    reach_sizes (rng N) [] k ++ insert_sizes (PT (vls M) (rng N) 0 0) k v.
  Definition ins_frees (M : vlmap) (N : ndmap) k : list Z := reach_frees (rng N) [] k ++ val_sizes_at (vls M) k.
  Definition ins_post (b : Z) (M : vlmap) (N : ndmap) x R s k v (Φ : hPropI) (Ψ : exn → hPropI) : hPropI :=
    ((∀ o N' s', ⌜rng N' = t_reach (rng N) [] k ∧
          ext cf (space (ins_sizes M N k v)) (lk (ins_frees M N k)) s s'⌝ -∗
        tst b (<[k := (stored v, o)]> M) N' x R s' -∗ Φ) ∧
     (∀ M' N' s', ⌜(M' = M ∨ M' = delete k M) ∧ partly_reached k (rng N) (rng N') ∧
          ext cf (space (ins_sizes M N k v)) (lk (ins_frees M N k)) s s' ∧ ins_sizes M N k v ≠ [] ∧
          ¬ grow_allowed cf (s_m s + space (ins_sizes M N k v))⌝ -∗
        tst b M' N' x R s' -∗ Ψ RuntimeError))%I.

  Lemma ins_frees_l M N k : lk (reach_frees (rng N) [] k) → lk (ins_frees M N k).
  Proof using. apply lk_sub. intros n Hn. apply elem_of_app. by left. Qed.
  Lemma ins_frees_r M N k : lk (val_sizes_at (vls M) k) → lk (ins_frees M N k).
  Proof using. apply lk_sub. intros n Hn. apply elem_of_app. by right. Qed.
  Lemma insert_sizes_cases t k v : insert_sizes t k v = [] ∨ insert_sizes t k v = val_sizes v.
  Proof using. unfold insert_sizes. repeat case_match; eauto. Qed.
  Lemma val_sizes_nonneg v : Forall (λ n, 0 <= n) (val_sizes v).
  Proof using. destruct v; simpl; repeat case_match; repeat constructor; unfold dlen; lia. Qed.
  Lemma insert_space t k v : 0 <= space (insert_sizes t k v).
  Proof using.
    apply space_nonneg'. destruct (insert_sizes_cases t k v) as [->| ->]; [constructor|apply val_sizes_nonneg].
  Qed.

  Lemma ins_post_ret (Φ : bool → hPropI) b M N x R s k v Ψ :
    ins_post b M N x R s k v (Φ true) Ψ ⊢ ins_post b M N x R s k v (wp (Ret true) Φ Ψ) Ψ.
  Proof using.
    iIntros "P". iSplit.
    - iDestruct "P" as "[P _]". iIntros (o N' s') "H T". iApply wp_ret. iApply ("P" with "H T").
    - iDestruct "P" as "[_ P]". iExact "P".
  Qed.
  (** The first step of every insertion. *)
  Lemma wp_ins_make {A} b M N x R s k v (K : Z → prog A) Φ Ψ Φ0 :
    bytes_ok k → Forall (as_size_ok S) (ins_sizes M N k v) →
    tst b M N x R s -∗ ins_post b M N x R s k v Φ0 Ψ -∗
    (∀ N' s', ⌜rng N' = t_reach (rng N) [] k ∧ has_place N' k ∧
          ext cf (space (reach_sizes (rng N) [] k)) (lk (reach_frees (rng N) [] k)) s s'⌝ -∗
        ins_post b M N x R s k v Φ0 Ψ -∗
        tst b M N' x R s' -∗ wp (K (place N' k)) Φ Ψ) -∗
    wp (y <- t_make al b k ;; K y) Φ Ψ.
  Proof using.
    iIntros (Hk Hsz) "T P W". apply Forall_app in Hsz as [Hsz _]. pose proof (insert_space (PT (vls M) (rng N) 0 0) k v).
    iApply (wp_t_make with "T"); [done|done|]. iSplit.
    - iIntros (N' s' H') "T". iApply ("W" with "[//] P T").
    - iDestruct "P" as "[_ P]". iIntros (N' s' (H1 & H2 & H3 & H4)) "T". iApply ("P" $! M with "[] T"). iPureIntro.
      unfold ins_sizes. rewrite space_app. split_and!; [by left|done| | |].
      + eapply ext_weaken; [exact H2|lia|apply ins_frees_l].
      + intros Hn. apply app_eq_nil in Hn as [? _]. done.
      + intros Hg. apply H4. eapply grow_allowed_mono; [|exact Hg]. lia.
  Qed.

  (** The block of the value. *)
  Lemma wp_ins_alloc {A} b M N x R s k v n M1 N' s1 (K : Z → prog A) Φ Ψ Φ0 :
    insert_sizes (PT (vls M) (rng N) 0 0) k v = [n] → as_size_ok S n →
    (M1 = M ∨ M1 = delete k M) →
    rng N' = t_reach (rng N) [] k →
    ext cf (space (reach_sizes (rng N) [] k)) (lk (ins_frees M N k)) s s1 →
    ainv (tblocks b M1 N' ++ R) s1 -∗ tinv b M1 N' x -∗ ins_post b M N x R s k v Φ0 Ψ -∗
    (∀ o s2, ⌜ext cf (space (ins_sizes M N k v)) (lk (ins_frees M N k)) s s2 ∧ o mod 8 = 0 ∧ 0 < o <= 2 ^ 62⌝ -∗
        ainv ((o, n) :: tblocks b M1 N' ++ R) s2 -∗ raw o (o + n) -∗ tinv b M1 N' x -∗ ins_post b M N x R s k v Φ0 Ψ -∗
        wp (K o) Φ Ψ) -∗
    wp (y <- al_allocate al n ;; K y) Φ Ψ.
  Proof using.
    iIntros (Hs Hn HM HN He) "H T P W".
    assert (0 <= n) as Hn0.
    { pose proof (insert_sizes_cases (PT (vls M) (rng N) 0 0) k v) as [E|E]; [congruence|].
      pose proof (val_sizes_nonneg v) as Hv. rewrite -E Hs in Hv. by inversion Hv. }
    assert (space (ins_sizes M N k v) = space (reach_sizes (rng N) [] k) + room n) as Esp.
    { unfold ins_sizes. rewrite space_app Hs. change (space [n]) with (room n + 0). lia. }
    iApply (wp_allocate with "H"); [done|]. iSplit.
    - iIntros (o s2 (He2 & Ho1 & Ho2 & Ho3)) "H Rw". iApply ("W" $! o s2 with "[] H Rw T P"). iPureIntro.
      rewrite Esp. split_and!; [|done|lia|lia]. eapply ext_weaken; [eapply ext_trans; [exact He|exact He2]|done|tauto].
    - iDestruct "P" as "[_ P]". iIntros (Hg) "H". iApply ("P" $! M1 N' s1 with "[] [H T]"); [|iFrame].
      iPureIntro. rewrite Esp. split_and!; [done|rewrite HN; apply reached_all| | |].
      + eapply ext_weaken; [exact He|unfold room; lia|done].
      + unfold ins_sizes. rewrite Hs. intros H0. apply app_eq_nil in H0 as [_ ?]. done.
      + intros Hgr. apply Hg. eapply grow_allowed_mono; [|exact Hgr]. destruct He as (? & _). lia.
  Qed.

  Lemma wp_t_insert_string b M N x R s k st Φ Ψ :
    bytes_ok k → bytes_ok st → Forall (as_size_ok S) (ins_sizes M N k (PStr st)) →
    tst b M N x R s -∗ ins_post b M N x R s k (PStr st) (Φ tt) Ψ -∗ wp (t_insert_string al F b k st) Φ Ψ.
  Proof using.
    iIntros (Hk Hst Hsz) "T P". unfold t_insert_string.
    iApply (wp_ins_make with "T P"); [done|done|]. iIntros (N' s1 (HN & Hpl & He1)) "P T". wpn.
    iApply (wp_clear_value with "T"); [done|]. iIntros (s2 He2) "T". wpn.
    assert (ext cf (space (reach_sizes (rng N) [] k)) (lk (ins_frees M N k)) s s2) as He.
    { eapply ext_weaken; [eapply ext_trans; [exact He1|exact He2]|lia|]. intros [?|?]; [by apply ins_frees_l|by apply ins_frees_r]. }
    change (Z.of_nat (length st)) with (dlen st).
    destruct (bool_decide_reflect (dlen st = 0)) as [H0|H0].
    { assert (st = []) as -> by (destruct st; [done|unfold dlen in H0; simpl in H0; lia]).
      iApply (wp_slot_put_inline _ _ _ _ _ _ _ _ k (PStr []) with "T"); [done|apply lookup_delete|done|done|done|].
      iIntros "T". wpn. iApply bind_ret_r. iApply (wp_items_add with "T"). iIntros "T". iApply wp_ret.
      iDestruct "P" as "[P _]". iApply ("P" $! 0 N' s2).
      - iPureIntro. split; [done|]. eapply ext_weaken; [exact He|unfold ins_sizes; rewrite space_app|done].
        pose proof (insert_space (PT (vls M) (rng N) 0 0) k (PStr [])). lia.
      - replace (x - 1 + 1) with x by lia. by rewrite insert_delete_insert. }
    destruct (bool_decide_reflect (dlen st < 8)) as [H8|H8].
    { assert (val_sizes (PStr st) = []) as Hvs by (simpl; by rewrite (proj2 (Z.ltb_lt _ _) H8)).
      iApply (wp_slot_put_inline _ _ _ _ _ _ _ _ k (PStr st) with "T"); [done|apply lookup_delete|done|done| |].
      { simpl. rewrite (proj2 (Z.ltb_lt _ _) H8). rewrite (proj2 (Z.eqb_neq _ _) H0). done. }
      iIntros "T". wpn. iApply bind_ret_r. iApply (wp_items_add with "T"). iIntros "T". iApply wp_ret.
      iDestruct "P" as "[P _]". iApply ("P" $! 0 N' s2).
      - iPureIntro. split; [done|]. eapply ext_weaken; [exact He|unfold ins_sizes; rewrite space_app|done].
        pose proof (insert_space (PT (vls M) (rng N) 0 0) k (PStr st)). lia.
      - replace (x - 1 + 1) with x by lia. by rewrite insert_delete_insert. }
    assert (8 <= dlen st) as H8' by lia. assert ((dlen st <? 8) = false) as Elt by by apply Z.ltb_ge.
    assert (val_sizes (PStr st) = [dlen st]) as Hvs by (simpl; by rewrite Elt).
    assert (insert_sizes (PT (vls M) (rng N) 0 0) k (PStr st) = [dlen st]) as His by done.
    assert (as_size_ok S (dlen st)) as Hso.
    { apply Forall_app in Hsz as [_ Hsz]. rewrite His in Hsz. by inversion Hsz. }
    wpn. iDestruct "T" as "[H T]".
    iApply (wp_ins_alloc with "H T P"); [exact His|done|by right|done|done|].
    iIntros (o s3 (He3 & Ho1 & Ho2)) "H Rw T P". wpn.
    iApply (wp_store_bytes_b with "Rw"); [done|done|]. iIntros "Y". wpn.
    rewrite lor_tag; [|done|lia].
    assert (venc (PStr st) o = o + 1) as <- by (simpl; by rewrite Elt).
    iApply (wp_slot_put with "[H] T [Y]"); [done|apply lookup_delete|done|by split| | |].
    { unfold vblk. rewrite Hvs. done. }
    { unfold vblock. rewrite Hvs. done. }
    iIntros "T". wpn. iApply bind_ret_r. iApply (wp_items_add with "T"). iIntros "T". iApply wp_ret.
    iDestruct "P" as "[P _]". iApply ("P" $! o N' s3); [done|].
    replace (x - 1 + 1) with x by lia. by rewrite insert_delete_insert.
  Qed.

  Lemma ins_ext_l M N k v s s' : ext cf (space (reach_sizes (rng N) [] k)) (lk (ins_frees M N k)) s s' →
    ext cf (space (ins_sizes M N k v)) (lk (ins_frees M N k)) s s'.
  Proof using.
    intros He. eapply ext_weaken; [exact He|unfold ins_sizes; rewrite space_app|done].
    pose proof (insert_space (PT (vls M) (rng N) 0 0) k v). lia.
  Qed.

  Lemma wp_t_insert_int b M N x R s k z Φ Ψ :
    bytes_ok k → is_s64 z → Forall (as_size_ok S) (ins_sizes M N k (PInt z)) →
    tst b M N x R s -∗ ins_post b M N x R s k (PInt z) (Φ tt) Ψ -∗ wp (t_insert_int al F b k z) Φ Ψ.
  Proof using.
    iIntros (Hk Hst Hsz) "T P". unfold t_insert_int.
    iApply (wp_ins_make with "T P"); [done|done|]. iIntros (N' s1 (HN & Hpl & He1)) "P T". wpn.
    iApply (wp_clear_value with "T"); [done|]. iIntros (s2 He2) "T". wpn.
    assert (ext cf (space (reach_sizes (rng N) [] k)) (lk (ins_frees M N k)) s s2) as He.
    { eapply ext_weaken; [eapply ext_trans; [exact He1|exact He2]|lia|]. intros [?|?]; [by apply ins_frees_l|by apply ins_frees_r]. }
    rewrite t_small_spec //. destruct (small_int z) eqn:Es.
    { assert (val_sizes (PInt z) = []) as Hvs by (simpl; by rewrite Es).
      iApply (wp_slot_put_inline _ _ _ _ _ _ _ _ k (PInt z) with "T"); [done|apply lookup_delete|done|done| |].
      { simpl. rewrite Es. apply int_word_eq. }
      iIntros "T". wpn. iApply bind_ret_r. iApply (wp_items_add with "T"). iIntros "T". iApply wp_ret.
      iDestruct "P" as "[P _]". iApply ("P" $! 0 N' s2).
      - iPureIntro. split; [done|]. by apply ins_ext_l.
      - replace (x - 1 + 1) with x by lia. by rewrite insert_delete_insert. }
    assert (val_sizes (PInt z) = [8]) as Hvs by (simpl; by rewrite Es).
    assert (insert_sizes (PT (vls M) (rng N) 0 0) k (PInt z) = [8]) as His by done.
    assert (as_size_ok S 8) as Hso.
    { apply Forall_app in Hsz as [_ Hsz]. rewrite His in Hsz. by inversion Hsz. }
    wpn. iDestruct "T" as "[H T]".
    iApply (wp_ins_alloc with "H T P"); [exact His|done|by right|done|done|].
    iIntros (o s3 (He3 & Ho1 & Ho2)) "H Rw T P". wpn.
    iDestruct (raw_word with "Rw") as "[%w0 Y]"; [done|]. iApply (wp_store64 with "Y"); [apply u64_range|]. iIntros "Y". wpn.
    rewrite lor_tag; [|done|lia].
    assert (venc (PInt z) o = o + 3) as <- by (simpl; by rewrite Es).
    iApply (wp_slot_put with "[H] T [Y]"); [done|apply lookup_delete|done|by split| | |].
    { unfold vblk. rewrite Hvs. done. }
    { unfold vblock. rewrite Hvs. done. }
    iIntros "T". wpn. iApply bind_ret_r. iApply (wp_items_add with "T"). iIntros "T". iApply wp_ret.
    iDestruct "P" as "[P _]". iApply ("P" $! o N' s3); [done|].
    replace (x - 1 + 1) with x by lia. by rewrite insert_delete_insert.
  Qed.

  Lemma wp_t_insert_trivial b M N x R s k v id Φ Ψ :
    bytes_ok k → v = PNull ∧ id = 2 ∨ v = PBool true ∧ id = 1 ∨ v = PBool false ∧ id = 0 → Forall (as_size_ok S) (ins_sizes M N k v) →
    tst b M N x R s -∗ ins_post b M N x R s k v (Φ tt) Ψ -∗ wp (t_insert_trivial al F b k id) Φ Ψ.
  Proof using.
    iIntros (Hk Hv Hsz) "T P". unfold t_insert_trivial.
    iApply (wp_ins_make with "T P"); [done|done|]. iIntros (N' s1 (HN & Hpl & He1)) "P T". wpn.
    iApply (wp_clear_value with "T"); [done|]. iIntros (s2 He2) "T". wpn.
    assert (ext cf (space (reach_sizes (rng N) [] k)) (lk (ins_frees M N k)) s s2) as He.
    { eapply ext_weaken; [eapply ext_trans; [exact He1|exact He2]|lia|]. intros [?|?]; [by apply ins_frees_l|by apply ins_frees_r]. }
    assert (sval_ok v ∧ val_sizes v = [] ∧ Z.lor (Z.shiftl id 3) 5 = venc v 0 ∧ stored v = v) as (Hv1 & Hv2 & Hv3 & Hv4).
    { destruct Hv as [[-> ->]|[[-> ->]|[-> ->]]]; done. }
    iApply (wp_slot_put_inline _ _ _ _ _ _ _ _ k v with "T"); [done|apply lookup_delete|done|done|done|].
    iIntros "T". wpn. iApply bind_ret_r. iApply (wp_items_add with "T"). iIntros "T". iApply wp_ret.
    iDestruct "P" as "[P _]". iApply ("P" $! 0 N' s2).
    - iPureIntro. split; [done|]. by apply ins_ext_l.
    - replace (x - 1 + 1) with x by lia. by rewrite insert_delete_insert Hv4.
  Qed.

  Lemma wp_t_insert_double b M N x R s k d Φ Ψ :
    bytes_ok k → is_u64 d → Forall (as_size_ok S) (ins_sizes M N k (PDouble d)) →
    tst b M N x R s -∗ ins_post b M N x R s k (PDouble d) (Φ tt) Ψ -∗ wp (t_insert_double al F b k d) Φ Ψ.
  Proof using.
    iIntros (Hk Hd Hsz) "T P". unfold t_insert_double.
    iApply (wp_ins_make with "T P"); [done|done|]. iIntros (N' s1 (HN & Hpl & He1)) "P T". wpn.
    iDestruct (tst_tok with "T") as %HT. pose proof (yenc_type _ _ _ k HT) as Hty.
    iApply (wp_slot_load with "T"); [done|]. iIntros "T". wpn.
    assert (ext cf (space (reach_sizes (rng N) [] k)) (lk (ins_frees M N k)) s s1) as He.
    { eapply ext_weaken; [exact He1|lia|]. apply ins_frees_l. }
    assert (∀ s', ext cf 0 (lk (val_sizes_at (vls M) k)) s1 s' →
       ext cf (space (reach_sizes (rng N) [] k)) (lk (ins_frees M N k)) s s') as Hegen.
    { intros s' Hs'. eapply ext_weaken; [eapply ext_trans; [exact He|exact Hs']|lia|].
      intros [?|?]; [done|by apply ins_frees_r]. }
    destruct (d_zero d) eqn:Ez.
    { iApply (wp_clear_value with "T"); [done|]. iIntros (s2 He2) "T". wpn.
      iApply (wp_slot_put_inline _ _ _ _ _ _ _ _ k (PDouble 0) with "T"); [done|apply lookup_delete|done|done|done|].
      iIntros "T". wpn. iApply bind_ret_r. iApply (wp_items_add with "T"). iIntros "T". iApply wp_ret.
      iDestruct "P" as "[P _]". iApply ("P" $! 0 N' s2).
      - iPureIntro. split; [done|]. apply ins_ext_l. by apply Hegen.
      - replace (x - 1 + 1) with x by lia. rewrite insert_delete_insert. cbn [stored]. by rewrite Ez. }
    assert (val_sizes (PDouble d) = [8]) as Hvs by (simpl; by rewrite Ez).
    assert (stored (PDouble d) = PDouble d) as Hst by (simpl; by rewrite Ez).
    assert (sval_ok (PDouble d)) as Hsv by (split; [done|]; by rewrite Ez).
    destruct (bool_decide_reflect ((t_type (yenc (M !! k)) = 4 ∨ t_type (yenc (M !! k)) = 3) ∧ yenc (M !! k) ≠ 4)) as [Hc|Hc].
    { (* the block is taken over *)
      rewrite Hty in Hc |- *. destruct (M !! k) as [[v o]|] eqn:E; [|lia]. cbn [yenc] in *.
      destruct (tk_val _ _ _ HT _ _ _ E) as [Hv Ho].
      assert (val_sizes v = [8] ∧ t_value (venc v o) = o ∧ ((∃ d0, v = PDouble d0 ∧ d_zero d0 = false) ∨ ∃ z, v = PInt z ∧ small_int z = false)) as (Hv1 & Hv2 & Hv3).
      { destruct v as [st|z|d0|bb|]; simpl in Hc.
        - repeat case_match; lia.
        - destruct (small_int z) eqn:Es; [lia|]. split_and!; [simpl; by rewrite Es| |right; eauto].
          apply (venc_block (PInt z)); [simpl; by rewrite Es|done].
        - destruct (d_zero d0) eqn:Es; [lia|]. split_and!; [simpl; by rewrite Es| |left; eauto].
          apply (venc_block (PDouble d0)); [simpl; by rewrite Es|done].
        - lia.
        - lia. }
      rewrite Hv2. iDestruct (tst_open _ _ _ _ _ _ _ _ k Hpl with "T") as "(_ & H & Y & Wd & Wi & T)". rewrite E. cbn [yblk yval yenc].
      iDestruct (vblock_raw _ _ _ Hv1 with "Y") as "Y". iDestruct (raw_word with "Y") as "[%w0 Y]"; [done|].
      iApply (wp_store64 with "Y"); [done|]. iIntros "Y". wpn.
      iAssert (word (place N' k) (o + 4) -∗ Φ tt)%I with "[H Y Wi T P]" as "W".
      { iIntros "Wd". iSpecialize ("T" $! (Some (PDouble d, o)) s1 (Z.of_nat (size M) + x) with "[] [H] [Y] [Wd] Wi").
        - iPureIntro. split; [done|]. destruct Ho as [Ho1 Ho2]. split; [done|]. intros _. apply Ho2. by rewrite Hv1.
        - cbn [yblk]. unfold vblk. rewrite Hvs Hv1. done.
        - cbn [yval]. unfold vblock. rewrite Hvs. done.
        - cbn [yenc venc]. by rewrite Ez.
        - iDestruct "P" as "[P _]". iApply ("P" $! o N' s1).
          + iPureIntro. split; [done|]. by apply ins_ext_l.
          + rewrite Hst. change (yset k (Some (PDouble d, o)) M) with (<[k := (PDouble d, o)]> M).
            rewrite map_size_insert E. unfold id.
            by replace (Z.of_nat (size M) + x - Z.of_nat (size M)) with x by lia. }
      destruct Hv3 as [(d0 & -> & Hz0)|(z & -> & Hz0)].
      - rewrite bool_decide_eq_false_2; [|simpl; lia]. iApply wp_ret. iApply "W". cbn [venc]. by rewrite Hz0.
      - rewrite bool_decide_eq_true_2; [|simpl; by rewrite Hz0]. rewrite lor_tag; [|by destruct Ho|lia].
        iApply bind_ret_r. iApply (wp_store64 with "Wd").
        { destruct Ho as [_ Ho]. rewrite Hv1 in Ho. specialize (Ho ltac:(done)). unfold is_u64. lia. }
        iIntros "Wd". iApply wp_ret. by iApply "W". }
    assert (insert_sizes (PT (vls M) (rng N) 0 0) k (PDouble d) = [8]) as His.
    { unfold insert_sizes, val_sizes_at. cbn [t_map]. rewrite vls_lookup.
      destruct (M !! k) as [[v o]|] eqn:E; [|done]. cbn [fmap option_fmap option_map fst]. destruct (val_sizes v) as [|n l] eqn:Ev; [done|].
      destruct (tk_val _ _ _ HT _ _ _ E) as [Hv Ho]. cbn [yenc] in *.
      destruct v as [st|z|d0|bb|]; try done; exfalso; apply Hc; cbn [venc_type] in Hty; simpl in Ev.
      - destruct (small_int z) eqn:Es; [done|]. split; [lia|]. cbn [venc]. rewrite Es.
        destruct Ho as [Ho1 _]. intros Ho. assert (o = 1) by lia. subst. done.
      - destruct (d_zero d0) eqn:Es; [done|]. split; [lia|]. cbn [venc]. rewrite Es.
        destruct Ho as [Ho1 Ho2]. cbn [val_sizes] in Ho2. rewrite Es in Ho2. specialize (Ho2 ltac:(done)). lia. }
    assert (as_size_ok S 8) as Hso.
    { apply Forall_app in Hsz as [_ Hsz]. rewrite His in Hsz. by inversion Hsz. }
    wpn. iDestruct "T" as "[H T]".
    iApply (wp_ins_alloc with "H T P"); [exact His|done|by left|done|done|].
    iIntros (o s3 (He3 & Ho1 & Ho2)) "H Rw T P". wpn.
    iDestruct (raw_word with "Rw") as "[%w0 Y]"; [done|]. iApply (wp_store64 with "Y"); [done|]. iIntros "Y". wpn.
    iApply (wp_clear_value _ _ _ _ _ _ _ ((o, 8) :: R) with "[H T]"); [done| |].
    { iFrame "T". iApply (ainv_perm with "H"). apply Permutation_middle. }
    iIntros (s4 He4) "[H T]". wpn. rewrite lor_tag; [|done|lia].
    assert (venc (PDouble d) o = o + 4) as <- by (simpl; by rewrite Ez).
    iApply (wp_slot_put _ _ _ _ _ _ R with "[H] T [Y]"); [done|apply lookup_delete|done|by split| | |].
    { unfold vblk. rewrite Hvs. iApply (ainv_perm with "H"). rewrite -(Permutation_middle (tblocks b (delete k M) N') R (o, 8)). done. }
    { unfold vblock. rewrite Hvs. done. }
    iIntros "T". wpn. iApply bind_ret_r. iApply (wp_items_add with "T"). iIntros "T". iApply wp_ret.
    iDestruct "P" as "[P _]". iApply ("P" $! o N' s4).
    - iPureIntro. split; [done|]. eapply ext_weaken; [eapply ext_trans; [exact He3|exact He4]|lia|].
      intros [?|?]; [done|by apply ins_frees_r].
    - replace (x - 1 + 1) with x by lia. by rewrite insert_delete_insert Hst.
  Qed.
  Local Opaque t_insert_string t_insert_int t_insert_double t_insert_trivial.

  Lemma wp_t_insert b M N x R s k v c Φ Ψ :
    bytes_ok k → pval_ok v → (t_holds (vls M) c = true → Forall (as_size_ok S) (ins_sizes M N k v)) →
    tst b M N x R s -∗
    ((⌜t_holds (vls M) c = false⌝ -∗ tst b M N x R s -∗ Φ false) ∧
     (⌜t_holds (vls M) c = true⌝ -∗ ins_post b M N x R s k v (Φ true) Ψ)) -∗
    wp (t_insert al F b k v c) Φ Ψ.
  Proof using.
    iIntros (Hk Hv Hsz) "T P". unfold t_insert. iApply (wp_t_allowed with "T"). iIntros "T".
    destruct (t_holds (vls M) c) eqn:Eh; cbn [negb].
    2:{ iDestruct "P" as "[P _]". iApply wp_ret. by iApply "P". }
    iDestruct "P" as "[_ P]". iSpecialize ("P" with "[//]"). specialize (Hsz eq_refl). iApply wp_bind.
    destruct v as [st|z|d|bb|].
    - iApply (wp_t_insert_string with "T"); [done|done|done|]. by iApply (ins_post_ret with "P").
    - iApply (wp_t_insert_int with "T"); [done|done|done|]. by iApply (ins_post_ret with "P").
    - iApply (wp_t_insert_double with "T"); [done|done|done|]. by iApply (ins_post_ret with "P").
    - iApply (wp_t_insert_trivial _ _ _ _ _ _ _ (PBool bb) with "T"); [done| |done|]. { destruct bb; [right; by left|right; by right]. }
      by iApply (ins_post_ret with "P").
    - iApply (wp_t_insert_trivial _ _ _ _ _ _ _ PNull with "T"); [done|by left|done|]. by iApply (ins_post_ret with "P").
  Qed.
End insert.
