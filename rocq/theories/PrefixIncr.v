(** * PrefixTree: incr. *)
From Verif Require Export PrefixInsert.
From iris.proofmode Require Import tactics.
From iris.prelude Require Import options.
Open Scope Z_scope.
Open Scope prog_scope.

Local Arguments Z.pow : simpl never.
Local Arguments Z.mul : simpl never.
Local Arguments Z.add : simpl never.
Local Arguments u64 : simpl never.
Local Opaque t_init_node t_extend t_chain_nodes t_walk t_find t_lookup t_allowed t_make t_clear_slot t_items_add.

Definition absent (M : vlmap) k : Z := match M !! k with None => 1 | Some _ => 0 end.
Lemma size_put (M : vlmap) k y : Z.of_nat (size (<[k := y]> M)) = Z.of_nat (size M) + absent M k.
Proof. rewrite map_size_insert. unfold absent. destruct (M !! k); unfold id; lia. Qed.
Lemma val_at_lookup (M : vlmap) k v o : M !! k = Some (v, o) → val_sizes_at (vls M) k = val_sizes v.
Proof. intros H. unfold val_sizes_at. by rewrite vls_lookup H. Qed.
Lemma val_at_none (M : vlmap) k : M !! k = None → val_sizes_at (vls M) k = [].
Proof. intros H. unfold val_sizes_at. by rewrite vls_lookup H. Qed.
(** Nothing has to be made for a key that is there. *)
Lemma reach_key b M N k : tok b M N → is_Some (M !! k) →
  t_reach (rng N) [] k = rng N ∧ reach_sizes (rng N) [] k = [] ∧ reach_frees (rng N) [] k = [].
Proof.
  intros HT.
  assert (is_Some (N !! [])) as Hp by (rewrite (tk_root _ _ _ HT); eauto). revert Hp.
  cut (∀ p : bytes, is_Some (N !! p) → is_Some (M !! (p ++ k)) →
     t_reach (rng N) p k = rng N ∧ reach_sizes (rng N) p k = [] ∧ reach_frees (rng N) p k = []); [intros H; apply (H [])|].
  induction k as [|c k IH]; intros p Hp HM; [done|].
  destruct (N !! (p ++ [c])) as [y|] eqn:E.
  - assert (is_Some (rng N !! (p ++ [c]))) as Hs by (rewrite rng_Some E; eauto).
    rewrite reach_step // sizes_step // frees_step //. apply IH; [eauto|]. by rewrite -assoc.
  - assert (k = []) as ->.
    { destruct k as [|c' k]; [done|]. destruct (tok_no_node _ _ _ _ (c' :: k) HT E) as [_ H]. specialize (H ltac:(done)).
      rewrite -assoc in H. simpl in H. rewrite H in HM. by destruct HM. }
    destruct (tok_key' _ _ _ _ _ HT HM) as (r & o & Hr & Hc).
    assert (rng N !! p = Some r) as Hrn by (apply rng_lookup; eauto).
    apply rng_None in E. rewrite reach_stop // (sizes_stop _ _ _ _ _ E Hrn) (frees_stop _ _ _ _ _ E Hrn).
    rewrite (alter_widen_in _ _ _ _ Hrn Hc). rewrite (proj2 (in_range_b r c) Hc). done.
Qed.

Section incr.
  Context `{ne : NodeErr}.
  Context {RR : Rep} {PR : PoolRep} {al : allocator} (S : alloc_spec al) (cf : cfg) (F : nat).
  Notation ainv := (ainv S cf).
  Notation tst := (tst S cf).
  Notation lk := (lk S).

  Definition inc_own (M : vlmap) k (new : option pval) : list Z := incr_sizes (PT (vls M) ∅ 0 0) k new.
  Definition inc_sizes (M : vlmap) (N : ndmap) k (new : option pval) : list Z := reach_sizes (rng N) [] k ++ inc_own M k new.
  Definition inc_post (drift : bool) (b : Z) (M : vlmap) (N : ndmap) x R s k (new : option pval) (Φ : hPropI) (Ψ : exn → hPropI) : hPropI :=
    ((∀ v o N' s', ⌜new = Some v ∧ rng N' = t_reach (rng N) [] k ∧
          ext cf (space (inc_sizes M N k new)) (lk (ins_frees M N k)) s s'⌝ -∗
        tst b (<[k := (stored v, o)]> M) N' x R s' -∗ Φ) ∧
     (∀ N' s', ⌜new = None ∧ rng N' = rng N ∧ ext cf 0 False s s'⌝ -∗ tst b M N' x R s' -∗ Ψ OutOfRange) ∧
     (∀ x' N' s', ⌜(x' = x ∨ drift = true ∧ M !! k = None ∧ x' = (x + 1)%Z) ∧ partly_reached k (rng N) (rng N') ∧
          ext cf (space (inc_sizes M N k new)) (lk (ins_frees M N k)) s s' ∧ inc_sizes M N k new ≠ [] ∧
          ¬ grow_allowed cf (s_m s + space (inc_sizes M N k new))⌝ -∗
        tst b M N' x' R s' -∗ Ψ RuntimeError))%I.

  Lemma inc_own_cases M k v : inc_own M k (Some v) = [] ∨ inc_own M k (Some v) = val_sizes v ∧ val_sizes_at (vls M) k = [].
  Proof using. unfold inc_own, incr_sizes. cbn [t_map]. destruct (val_sizes_at (vls M) k); eauto. Qed.
  Lemma inc_space M k new : 0 <= space (inc_own M k new).
  Proof using.
    apply space_nonneg'. destruct new as [v|]; [|constructor].
    destruct (inc_own_cases M k v) as [->|[-> _]]; [constructor|apply val_sizes_nonneg].
  Qed.

  (** The new value is written. *)
  Definition put_post (b : Z) (M : vlmap) (N : ndmap) x R s k v (Φ : hPropI) (Ψ : exn → hPropI) : hPropI :=
    ((∀ o s', ⌜ext cf (space (inc_own M k (Some v))) (lk (val_sizes_at (vls M) k)) s s'⌝ -∗
        tst b (<[k := (stored v, o)]> M) N (x - absent M k) R s' -∗ Φ) ∧
     (∀ s', ⌜ext cf 0 False s s' ∧ inc_own M k (Some v) ≠ [] ∧ ¬ grow_allowed cf (s_m s + space (inc_own M k (Some v)))⌝ -∗
        tst b M N x R s' -∗ Ψ RuntimeError))%I.
  Lemma inc_put (drift : bool) b M N N' x x' R s s1 k v Φ Ψ :
    (x' = x ∧ (M !! k = None → False) ∨ x' = x + absent M k ∧ drift = true) →
    rng N' = t_reach (rng N) [] k →
    ext cf (space (reach_sizes (rng N) [] k)) (lk (reach_frees (rng N) [] k)) s s1 →
    inc_post drift b M N x R s k (Some v) Φ Ψ ⊢ put_post b M N' x' R s1 k v Φ Ψ.
  Proof using.
    iIntros (Hx HN He) "P".
    assert (x' - absent M k = x) as Ex.
    { destruct Hx as [[-> H]|[-> _]]; [|lia]. unfold absent. destruct (M !! k); [lia|]. exfalso. auto. }
    iSplit.
    - iIntros (o s' He') "T". iDestruct "P" as "[P _]". rewrite Ex. iApply ("P" $! v o N' s' with "[] T"). iPureIntro.
      split_and!; [done|done|]. unfold inc_sizes. rewrite space_app.
      eapply ext_weaken; [eapply ext_trans; [exact He|exact He']|lia|].
      intros [?|?]; [by apply ins_frees_l|by apply ins_frees_r].
    - iIntros (s' (He' & H1 & H2)) "T". iDestruct "P" as "[_ [_ P]]". iApply ("P" $! x' N' s' with "[] T"). iPureIntro.
      unfold inc_sizes. rewrite space_app. pose proof (inc_space M k (Some v)). split_and!.
      + destruct Hx as [[-> H']|[-> ->]]; [by left|]. unfold absent. destruct (M !! k); [left; lia|by right].
      + rewrite HN. apply reached_all.
      + eapply ext_weaken; [eapply ext_trans; [exact He|exact He']|lia|]. intros [?|?]; [by apply ins_frees_l|done].
      + intros Hn. apply app_eq_nil in Hn as [_ ?]. done.
      + intros Hg. apply H2. eapply grow_allowed_mono; [|exact Hg]. destruct He as (He & _). lia.
  Qed.

  (** The value of a key is replaced. *)
  Lemma tinv_swap b M N x k y : has_place N k → yok (Some y) →
    tinv b M N x ⊢
      yval (M !! k) ∗ word (place N k) (yenc (M !! k)) ∗
      ((yval (Some y) -∗ word (place N k) (yenc (Some y)) -∗ tinv b (<[k := y]> M) N (x - absent M k)) ∧
       (yval (M !! k) -∗ word (place N k) (yenc (M !! k)) -∗ tinv b M N x)).
  Proof using.
    iIntros (Hk Hy) "(%HT & Wi & Wn & T & V)". 
    iDestruct (place_acc M N k Hk with "T") as "[$ T]". rewrite -{2}(yset_id k M) tvals_yset.
    iDestruct "V" as "[$ V]". iSplit; iIntros "Y W".
    - change (<[k := y]> M) with (yset k (Some y) M). iSplit.
      { iPureIntro. destruct y as [v o]. destruct Hy. by apply tok_put. }
      iFrame "Wn". iSplitL "Wi".
      { change (yset k (Some y) M) with (<[k := y]> M). rewrite size_put.
        by replace (Z.of_nat (size M) + absent M k + (x - absent M k)) with (Z.of_nat (size M) + x) by lia. }
      iSplitL "T W".
      + iApply ("T" $! (yset k (Some y) M) with "[]").
        * iPureIntro. intros k' Hk'. unfold vword. by rewrite yset_ne.
        * unfold vword. by rewrite yset_lookup.
      + rewrite tvals_yset. iFrame.
    - iSplit; [done|]. iFrame "Wi Wn". iSplitL "T W".
      + by iApply ("T" $! M with "[//] W").
      + iAssert (tvals (yset k (M !! k) M)) with "[Y V]" as "V"; [rewrite tvals_yset; iFrame|]. by rewrite yset_id.
  Qed.
  Lemma tblocks_open b M N R k : tblocks b M N ++ R ≡ₚ yblk (M !! k) ++ tblocks b (delete k M) N ++ R.
  Proof using. rewrite -{1}(yset_id k M). apply tblocks_yset. Qed.
  Lemma tst_swap b M N x R s k y : has_place N k → yok (Some y) →
    tst b M N x R s ⊢
      ainv (yblk (M !! k) ++ tblocks b (delete k M) N ++ R) s ∗ yval (M !! k) ∗ word (place N k) (yenc (M !! k)) ∗
      ((∀ s', ainv (yblk (Some y) ++ tblocks b (delete k M) N ++ R) s' -∗ yval (Some y) -∗
         word (place N k) (yenc (Some y)) -∗ tst b (<[k := y]> M) N (x - absent M k) R s') ∧
       (∀ s', ainv (yblk (M !! k) ++ tblocks b (delete k M) N ++ R) s' -∗ yval (M !! k) -∗
         word (place N k) (yenc (M !! k)) -∗ tst b M N x R s')).
  Proof using.
    iIntros (Hk Hy) "[H T]". iSplitL "H". { iApply (ainv_perm with "H"). apply tblocks_open. }
    iDestruct (tinv_swap _ _ _ _ k y Hk Hy with "T") as "($ & $ & T)". iSplit; iIntros (s') "H Y W".
    - iSplitL "H".
      + iApply (ainv_perm with "H"). change (<[k := y]> M) with (yset k (Some y) M). by rewrite tblocks_yset.
      + iDestruct "T" as "[T _]". iApply ("T" with "Y W").
    - iSplitL "H".
      + iApply (ainv_perm with "H"). by rewrite -tblocks_open.
      + iDestruct "T" as "[_ T]". iApply ("T" with "Y W").
  Qed.

  (** Four ways of writing it. *)
  Lemma wp_put_inline {A} b M N x R s k v w (K : unit → prog A) Φ Ψ Φ0 :
    has_place N k → sval_ok v → val_sizes v = [] → w = venc v 0 → val_sizes_at (vls M) k = [] →
    tst b M N x R s -∗ put_post b M N x R s k v Φ0 Ψ -∗ (Φ0 -∗ wp (K tt) Φ Ψ) -∗
    wp (y <- store64 (place N k) w ;; K y) Φ Ψ.
  Proof using.
    iIntros (Hk Hv Hs -> Hold) "T P W".
    destruct (venc_facts v 0 Hv) as (_ & Hu & _). { by split. }
    iDestruct (tst_swap _ _ _ _ _ _ k (v, 0) with "T") as "(H & Y & Wd & T)"; [done|by split|].
    iApply (wp_store64 with "Wd"); [done|]. iIntros "Wd". iApply "W". iDestruct "P" as "[P _]".
    iApply ("P" $! 0 s).
    - iPureIntro. eapply ext_weaken; [apply ext_refl|apply inc_space|done].
    - iDestruct "T" as "[T _]". rewrite (stored_id v Hv). iApply ("T" with "[H] [] Wd").
      + cbn [yblk]. unfold vblk. rewrite Hs. cbn [List.map app].
        destruct (M !! k) as [[v' o']|] eqn:E; [|done]. rewrite (val_at_lookup _ _ _ _ E) in Hold.
        cbn [yblk]. unfold vblk. by rewrite Hold.
      + cbn [yval]. unfold vblock. by rewrite Hs.
  Qed.
  Lemma wp_put_free {A} b M N x R s k v v0 o0 w (K : unit → prog A) Φ Ψ Φ0 :
    has_place N k → sval_ok v → val_sizes v = [] → w = venc v 0 → M !! k = Some (v0, o0) → val_sizes v0 ≠ [] →
    tst b M N x R s -∗ put_post b M N x R s k v Φ0 Ψ -∗ (Φ0 -∗ wp (K tt) Φ Ψ) -∗
    wp (store64 (place N k) w ;; y <- al_free al o0 ;; K y) Φ Ψ.
  Proof using.
    iIntros (Hk Hv Hs -> Hold Hold') "T P W".
    destruct (venc_facts v 0 Hv) as (_ & Hu & _). { by split. }
    iDestruct (tst_swap _ _ _ _ _ _ k (v, 0) with "T") as "(H & Y & Wd & T)"; [done|by split|].
    iApply (wp_store64 with "Wd"); [done|]. iIntros "Wd". wpn. rewrite Hold. cbn [yblk yval].
    destruct (val_sizes_cases v0) as [?|[n Hn]]; [done|]. unfold vblk at 1. rewrite Hn. cbn [List.map app].
    iDestruct (vblock_raw _ _ _ Hn with "Y") as "Y".
    iApply (wp_free with "H Y"). iIntros (s' Hs') "H". iApply "W". iDestruct "P" as "[P _]". iApply ("P" $! 0 s').
    - iPureIntro. eapply ext_weaken; [exact Hs'|apply inc_space|].
      intros Hl. exists n. split; [rewrite (val_at_lookup _ _ _ _ Hold) Hn; by left|done].
    - iDestruct "T" as "[T _]". rewrite (stored_id v Hv). iApply ("T" with "[H] [] Wd").
      + cbn [yblk]. unfold vblk. by rewrite Hs.
      + cbn [yval]. unfold vblock. by rewrite Hs.
  Qed.
  (** [w] is the contents of an 8-byte block. *)
  Definition num_block (v : pval) (w : Z) : Prop :=
    match v with PInt z => small_int z = false ∧ w = u64 z | PDouble d => d_zero d = false ∧ w = d | _ => False end.
  Lemma num_block_facts v w o : sval_ok v → num_block v w →
    val_sizes v = [8] ∧ (vblock v o ⊣⊢ word o w) ∧ is_u64 w ∧ venc v o = o + venc_type v.
  Proof using.
    intros Hv Hn. destruct v as [st|z|d|bb|]; try done; destruct Hn as [Hz ->]; unfold vblock; simpl; rewrite Hz; split_and!; try done.
    all: first [apply u64_range | by destruct Hv as [[? ?] _]].
  Qed.
  Lemma wp_put_over {A} b M N x R s k v v0 o0 w w0 (K : unit → prog A) Φ Ψ Φ0 :
    has_place N k → sval_ok v → num_block v w → M !! k = Some (v0, o0) → num_block v0 w0 → venc_type v0 = venc_type v →
    tst b M N x R s -∗ put_post b M N x R s k v Φ0 Ψ -∗ (Φ0 -∗ wp (K tt) Φ Ψ) -∗
    wp (y <- store64 o0 w ;; K y) Φ Ψ.
  Proof using.
    iIntros (Hk Hv Hn Hold Hn0 Hty) "T P W". iDestruct (tst_tok with "T") as %HT.
    destruct (tk_val _ _ _ HT _ _ _ Hold) as [Hv0 Ho0].
    destruct (num_block_facts v w o0 Hv Hn) as (E1 & E2 & E3 & E4).
    destruct (num_block_facts v0 w0 o0 Hv0 Hn0) as (F1 & F2 & F3 & F4).
    iDestruct (tst_swap _ _ _ _ _ _ k (v, o0) with "T") as "(H & Y & Wd & T)"; [done| |].
    { split; [done|]. destruct Ho0 as [Ho1 Ho2]. split; [done|]. intros _. apply Ho2. by rewrite F1. }
    rewrite Hold. cbn [yblk yval yenc].
    iAssert (word o0 w0) with "[Y]" as "Y"; [iApply (F2 with "Y")|]. iApply (wp_store64 with "Y"); [done|]. iIntros "Y".
    iApply "W". iDestruct "P" as "[P _]". iApply ("P" $! o0 s).
    - iPureIntro. eapply ext_weaken; [apply ext_refl|apply inc_space|done].
    - iDestruct "T" as "[T _]". rewrite (stored_id v Hv). iApply ("T" with "[H] [Y] [Wd]").
      + unfold vblk. by rewrite E1 F1.
      + iApply (E2 with "Y").
      + by rewrite E4 F4 Hty.
  Qed.
  Lemma wp_put_new {A} b M N x R s k v w tag (K : unit → prog A) Φ Ψ Φ0 :
    has_place N k → sval_ok v → num_block v w → val_sizes_at (vls M) k = [] → as_size_ok S 8 → tag = venc_type v →
    tst b M N x R s -∗ put_post b M N x R s k v Φ0 Ψ -∗ (Φ0 -∗ wp (K tt) Φ Ψ) -∗
    wp (o <- al_allocate al 8 ;; store64 o w ;; y <- store64 (place N k) (Z.lor o tag) ;; K y) Φ Ψ.
  Proof using.
    iIntros (Hk Hv Hn Hold Hsz ->) "T P W".
    assert (val_sizes v = [8]) as Hvs by (by destruct (num_block_facts v w 0 Hv Hn) as (? & _)).
    assert (inc_own M k (Some v) = [8]) as Hio.
    { unfold inc_own, incr_sizes. cbn [t_map]. by rewrite Hold. }
    iDestruct "T" as "[H T]". iApply (wp_allocate with "H"); [done|]. iSplit.
    - iIntros (o s' (He & Ho1 & Ho2 & Ho3)) "H Rw". wpn.
      destruct (num_block_facts v w o Hv Hn) as (E1 & E2 & E3 & E4).
      assert (blk_off_ok v o) as Hoff by (split; [done|lia]).
      destruct (venc_facts v o Hv Hoff) as (_ & Hu & _).
      iDestruct (raw_word with "Rw") as "[%w0 Y]"; [done|]. iApply (wp_store64 with "Y"); [done|]. iIntros "Y". wpn.
      pose proof (venc_type_pos v). rewrite lor_tag; [|done|lia]. rewrite -E4.
      iDestruct (tinv_swap b M N x k (v, o) with "T") as "(Y' & Wd & T)"; [done|by split|].
      iApply (wp_store64 with "Wd"); [done|]. iIntros "Wd". iApply "W". iDestruct "P" as "[P _]".
      iApply ("P" $! o s').
      + iPureIntro. rewrite Hio. change (space [8]) with (room 8 + 0). eapply ext_weaken; [exact He|lia|done].
      + rewrite (stored_id v Hv). iSplitL "H".
        * iApply (ainv_perm with "H"). rewrite (tblocks_open b M N R k).
          change (<[k := (v, o)]> M) with (yset k (Some (v, o)) M). rewrite tblocks_yset. cbn [yblk]. unfold vblk. rewrite Hvs.
          cbn [List.map app]. assert (yblk (M !! k) = []) as ->; [|done].
          destruct (M !! k) as [[v' o']|] eqn:E; [|done]. rewrite (val_at_lookup _ _ _ _ E) in Hold.
          cbn [yblk]. unfold vblk. by rewrite Hold.
        * iDestruct "T" as "[T _]". iApply ("T" with "[Y] Wd"). iApply (E2 with "Y").
    - iIntros (Hg) "H". iDestruct "P" as "[_ P]". iApply ("P" $! s with "[] [H T]"); [|iFrame].
      iPureIntro. rewrite Hio. change (space [8]) with (room 8 + 0). rewrite Z.add_0_r. split_and!; [apply ext_refl|done|done].
  Qed.

  (** ** incr of an integer *)
  Definition new_int (M : vlmap) k delta : option pval := PInt <$> t_incr (vls M) k delta.
  Lemma wp_t_incr_int b M N x R s k delta Φ Ψ :
    bytes_ok k → Forall (as_size_ok S) (inc_sizes M N k (new_int M k delta)) →
    tst b M N x R s -∗
    inc_post true b M N x R s k (new_int M k delta) (match t_incr (vls M) k delta with Some z => Φ z | None => True end)%I Ψ -∗
    wp (t_incr_int al b k delta) Φ Ψ.
  Proof using.
    iIntros (Hk Hsz) "T P". unfold t_incr_int. iDestruct (tst_tok with "T") as %HT0.
    iAssert (inc_post true b M N x R s k (new_int M k delta) (match t_incr (vls M) k delta with Some z => Φ z | None => True end)%I Ψ ∧
      (∀ N' s', ⌜partly_reached k (rng N) (rng N') ∧
          ext cf (space (reach_sizes (rng N) [] k)) (lk (reach_frees (rng N) [] k)) s s' ∧ reach_sizes (rng N) [] k ≠ [] ∧
          ¬ grow_allowed cf (s_m s + space (reach_sizes (rng N) [] k))⌝ -∗
        tst b M N' x R s' -∗ Ψ RuntimeError))%I with "[P]" as "P".
    { iSplit; [done|]. iDestruct "P" as "[_ [_ P]]". iIntros (N' s' (H1 & H2 & H3 & H4)) "T".
      iApply ("P" $! x N' s' with "[] T"). iPureIntro. pose proof (inc_space M k (new_int M k delta)).
      unfold inc_sizes. rewrite space_app. split_and!; [by left|done| | |].
      - eapply ext_weaken; [exact H2|lia|apply ins_frees_l].
      - intros Hn. apply app_eq_nil in Hn as [? _]. done.
      - intros Hg. apply H4. eapply grow_allowed_mono; [|exact Hg]. lia. }
    pose proof Hsz as Hsz'. apply Forall_app in Hsz' as [Hsz1 Hsz2].
    iApply (wp_t_make with "T"); [done|done|]. iSplit; [|by iDestruct "P" as "[_ P]"]. iDestruct "P" as "[P _]".
    iIntros (N' s1 (HN & Hpl & He1)) "T". wpn. iDestruct (tst_tok with "T") as %HT.
    iApply (wp_slot_load with "T"); [done|]. iIntros "T". wpn.
    pose proof (yenc_type _ _ _ k HT) as Hty. pose proof (yenc_zero _ _ _ k HT) as Hz.
    assert (∀ old x', t_incr (vls M) k delta = Some (wrap64 (old + delta)) →
       (x' = x ∧ (M !! k = None → False) ∨ x' = x + absent M k ∧ true = true) →
       (M !! k = None ∨ ∃ z o, M !! k = Some (PInt z, o)) →
       tst b M N' x' R s1 -∗
       inc_post true b M N x R s k (new_int M k delta) (match t_incr (vls M) k delta with Some z => Φ z | None => True end)%I Ψ -∗
       wp ((if t_small (wrap64 (old + delta)) then
             store64 (place N' k) (Z.lor (u64 (Z.shiftl (wrap64 (old + delta)) 3)) 2) ;;
             if bool_decide (t_type (yenc (M !! k)) = 3) then al_free al (t_value (yenc (M !! k))) else Ret tt
           else if bool_decide (t_type (yenc (M !! k)) = 3) then store64 (t_value (yenc (M !! k))) (u64 (wrap64 (old + delta)))
           else
             o <- al_allocate al 8 ;;
             store64 o (u64 (wrap64 (old + delta))) ;;
             store64 (place N' k) (Z.lor o 3)) ;;
          Ret (wrap64 (old + delta))) Φ Ψ) as Htail.
    { clear Hz. intros old x' Hnew Hx Hcase. iIntros "T P". unfold new_int in *. rewrite Hnew. rewrite Hnew in Hsz2. cbn [fmap option_fmap option_map] in *.
      set (v := wrap64 (old + delta)) in *. pose proof (s64_ok (old + delta) : is_s64 v) as Hv. iDestruct (inc_put _ _ _ _ _ _ _ _ _ _ _ _ _ _ Hx HN He1 with "P") as "P".
      rewrite t_small_spec //. destruct (small_int v) eqn:Es.
      - assert (val_sizes (PInt v) = []) as Hvs by (simpl; by rewrite Es).
        assert (Z.lor (u64 (Z.shiftl v 3)) 2 = venc (PInt v) 0) as Hve by (simpl; rewrite Es; apply int_word_eq).
        destruct (bool_decide_reflect (t_type (yenc (M !! k)) = 3)) as [H3|H3].
        + destruct Hcase as [Hc|(z & o & Hc)]; rewrite Hc in Hty H3 |- *; [lia|]. cbn [yenc] in *.
          destruct (tk_val _ _ _ HT _ _ _ Hc) as [Hv0 Ho0]. simpl in H3, Hty.
          assert (val_sizes (PInt z) = [8]) as Hvs0 by (simpl in *; destruct (small_int z); [lia|done]).
          rewrite venc_block; [|by rewrite Hvs0|done]. wpn.
          iApply (wp_put_free with "T P"); [done|by split|done|done|done|by rewrite Hvs0|]. iIntros "P". by iApply wp_ret.
        + wpn. iApply (wp_put_inline with "T P"); [done|by split|done|done| |].
          * destruct Hcase as [Hc|(z & o & Hc)]; [by rewrite val_at_none|]. rewrite (val_at_lookup _ _ _ _ Hc).
            rewrite Hc in Hty H3. cbn [yenc] in *. simpl in *. destruct (small_int z); [done|lia].
          * iIntros "P". wpn. by iApply wp_ret.
      - assert (num_block (PInt v) (u64 v)) as Hnb by done.
        assert (val_sizes (PInt v) = [8]) as Hvs by (simpl; by rewrite Es).
        destruct (bool_decide_reflect (t_type (yenc (M !! k)) = 3)) as [H3|H3].
        + destruct Hcase as [Hc|(z & o & Hc)]; rewrite Hc in Hty H3 |- *; [lia|]. cbn [yenc] in *.
          destruct (tk_val _ _ _ HT _ _ _ Hc) as [Hv0 Ho0]. simpl in H3, Hty.
          destruct (small_int z) eqn:Esz; [lia|].
          assert (val_sizes (PInt z) = [8]) as Hvs0 by (simpl in *; by rewrite Esz).
          rewrite (venc_block (PInt z) o); [|by rewrite Hvs0|done].
          iApply (wp_put_over _ _ _ _ _ _ _ _ _ _ _ (u64 z) with "T P"); [done|by split|done|done|done| |].
          { simpl. by rewrite Es Esz. }
          iIntros "P". by iApply wp_ret.
        + assert (val_sizes_at (vls M) k = []) as Hold.
          { destruct Hcase as [Hc|(z & o & Hc)]; [by rewrite val_at_none|]. rewrite (val_at_lookup _ _ _ _ Hc).
            rewrite Hc in Hty H3. cbn [yenc] in *. simpl in *. destruct (small_int z); [done|lia]. }
          assert (as_size_ok S 8) as Hso.
          { unfold inc_own, incr_sizes in Hsz2. cbn [t_map] in Hsz2. rewrite Hold Hvs in Hsz2. by inversion Hsz2. }
          wpn. iApply (wp_put_new with "T P"); [done|by split|done|done|done|simpl; by rewrite Es|].
          iIntros "P". wpn. by iApply wp_ret. }
    destruct (M !! k) as [[v o]|] eqn:E; cbn [yenc] in *.
    2:{ rewrite (bool_decide_eq_false_2 (t_type 0 = 2)); [|done]. rewrite (bool_decide_eq_false_2 (t_type 0 = 3)) in Htail |- *; [|done..].
        rewrite (bool_decide_eq_true_2 (0 = 0)); [|done]. wpn. iApply (wp_items_add with "T"). iIntros "T". wpn.
        iApply (Htail 0 (x + 1) with "T P").
        - unfold t_incr. by rewrite vls_lookup E.
        - right. split; [|done]. unfold absent. by rewrite E.
        - by left. }
    destruct (tk_val _ _ _ HT _ _ _ E) as [Hv0 Ho0]. destruct (venc_facts v o Hv0 Ho0) as (_ & _ & Hne).
    assert (is_Some (M !! k)) as HMk by (rewrite E; eauto).
    destruct (reach_key b M N k HT0 HMk) as (HR1 & HR2 & HR3).
    assert (∀ z, v = PInt z → t_incr (vls M) k delta = Some (wrap64 (z + delta))) as Hincr.
    { intros z ->. unfold t_incr. by rewrite vls_lookup E. }
    destruct (bool_decide_reflect (t_type (venc v o) = 2)) as [H2|H2].
    { wpn. assert (∃ z, v = PInt z ∧ small_int z = true) as (z & -> & Esz).
      { rewrite Hty in H2. clear -H2. destruct v as [st|z|d|bb|]; simpl in H2; repeat case_match; try lia. eauto. }
      assert (t_int (venc (PInt z) o) = z) as Hti by (cbn [venc]; rewrite Esz; by apply t_int_word).
      rewrite Hti. iApply (Htail z x with "T P"); [by apply Hincr|left; done|right; eauto]. }
    destruct (bool_decide_reflect (t_type (venc v o) = 3)) as [H3|H3].
    { assert (∃ z, v = PInt z ∧ small_int z = false) as (z & -> & Esz).
      { rewrite Hty in H3. clear -H3. destruct v as [st|z|d|bb|]; simpl in H3; repeat case_match; try lia. eauto. }
      assert (val_sizes (PInt z) = [8]) as Hvs by (simpl; by rewrite Esz).
      rewrite (venc_block (PInt z) o) in Htail |- *; [|by rewrite Hvs|done]. wpn.
      iDestruct "T" as "[H (HTT & Wi & Wn & T & V)]".
      iDestruct (big_sepM_lookup_acc _ _ _ _ E with "V") as "[Y V]". unfold vblock at 1. rewrite Hvs. cbn [fst snd].
      iApply (wp_load64 with "Y"). iIntros "Y". wpn. rewrite s64_u64; [|by destruct Hv0].
      iApply (Htail z x with "[H HTT Wi Wn T V Y] P"); [by apply Hincr|left; done|right; eauto|].
      iFrame. iApply "V". unfold vblock. by rewrite Hvs. }
    rewrite (bool_decide_eq_false_2 (venc v o = 0)); [|intros ?; by apply Hne]. wpn. iApply wp_throw.
    iDestruct "P" as "[_ [P _]]". iApply ("P" $! N' s1 with "[] T"). iPureIntro. split_and!.
    - unfold new_int, t_incr. rewrite vls_lookup E. cbn [fmap option_fmap option_map fst].
      rewrite Hty in H2, H3. clear -H2 H3.
      destruct v as [st|z|d|bb|]; try done. cbn [venc_type] in H2, H3. destruct (small_int z); lia.
    - by rewrite HN HR1.
    - rewrite HR2 HR3 in He1. eapply ext_weaken; [exact He1|done|apply lk_nil].
  Qed.

  (** ** incr of a double *)
  Definition new_double (fadd : Z → Z → Z) (M : vlmap) k delta : option pval := PDouble <$> t_incr_double fadd (vls M) k delta.
  Lemma wp_t_incr_dbl (fadd : Z → Z → Z) b M N x R s k delta Φ Ψ :
    bytes_ok k → is_u64 delta → (M !! k = None → d_zero delta = false) →
    Forall (as_size_ok S) (inc_sizes M N k (new_double fadd M k delta)) →
    tst b M N x R s -∗
    inc_post false b M N x R s k (new_double fadd M k delta) (match t_incr_double fadd (vls M) k delta with Some z => Φ z | None => True end)%I Ψ -∗
    wp (t_incr_dbl al fadd b k delta) Φ Ψ.
  Proof using.
    iIntros (Hk Hdelta Hnz Hsz) "T P". unfold t_incr_dbl. iDestruct (tst_tok with "T") as %HT0.
    iAssert (inc_post false b M N x R s k (new_double fadd M k delta) (match t_incr_double fadd (vls M) k delta with Some z => Φ z | None => True end)%I Ψ ∧
      (∀ N' s', ⌜partly_reached k (rng N) (rng N') ∧
          ext cf (space (reach_sizes (rng N) [] k)) (lk (reach_frees (rng N) [] k)) s s' ∧ reach_sizes (rng N) [] k ≠ [] ∧
          ¬ grow_allowed cf (s_m s + space (reach_sizes (rng N) [] k))⌝ -∗
        tst b M N' x R s' -∗ Ψ RuntimeError))%I with "[P]" as "P".
    { iSplit; [done|]. iDestruct "P" as "[_ [_ P]]". iIntros (N' s' (H1 & H2 & H3 & H4)) "T".
      iApply ("P" $! x N' s' with "[] T"). iPureIntro. pose proof (inc_space M k (new_double fadd M k delta)).
      unfold inc_sizes. rewrite space_app. split_and!; [by left|done| | |].
      - eapply ext_weaken; [exact H2|lia|apply ins_frees_l].
      - intros Hn. apply app_eq_nil in Hn as [? _]. done.
      - intros Hg. apply H4. eapply grow_allowed_mono; [|exact Hg]. lia. }
    pose proof Hsz as Hsz'. apply Forall_app in Hsz' as [Hsz1 Hsz2].
    iApply (wp_t_make with "T"); [done|done|]. iSplit; [|by iDestruct "P" as "[_ P]"]. iDestruct "P" as "[P _]".
    iIntros (N' s1 (HN & Hpl & He1)) "T". wpn. iDestruct (tst_tok with "T") as %HT.
    iApply (wp_slot_load with "T"); [done|]. iIntros "T". wpn.
    pose proof (yenc_type _ _ _ k HT) as Hty.
    destruct (M !! k) as [[v o]|] eqn:E; cbn [yenc] in *.
    2:{ rewrite (bool_decide_eq_false_2 (t_type 0 = 4)); [|done]. rewrite (bool_decide_eq_true_2 (0 = 0)); [|done].
        rewrite Hnz //. wpn. unfold new_double, t_incr_double in *. rewrite vls_lookup E. rewrite vls_lookup E in Hsz2.
        cbn [fmap option_fmap option_map] in *. specialize (Hnz eq_refl).
        assert (stored (PDouble delta) = PDouble delta) as Hst by (simpl; by rewrite Hnz).
        assert (sval_ok (PDouble delta)) as Hsv by (split; [done|]; by rewrite Hnz).
        assert (inc_own M k (Some (PDouble delta)) = [8]) as Hio.
        { unfold inc_own, incr_sizes. cbn [t_map]. rewrite val_at_none //. simpl. by rewrite Hnz. }
        rewrite Hio in Hsz2.
        iAssert (put_post b M N' x R s1 k (PDouble delta)
          (∃ o s2, ⌜ext cf (space (inc_sizes M N k (Some (PDouble delta)))) (lk (ins_frees M N k)) s s2⌝ ∗
             tst b (<[k := (PDouble delta, o)]> M) N' (x - 1) R s2 ∗
             (tst b (<[k := (PDouble delta, o)]> M) N' x R s2 -∗ Φ delta)) Ψ)%I with "[P]" as "P".
        { iSplit.
          - iIntros (o s' He') "T". iExists o, s'. rewrite Hst. unfold absent at 1. rewrite E. iFrame "T".
            assert (ext cf (space (inc_sizes M N k (Some (PDouble delta)))) (lk (ins_frees M N k)) s s') as He.
            { unfold inc_sizes. rewrite space_app. eapply ext_weaken; [eapply ext_trans; [exact He1|exact He']|lia|].
              intros [?|?]; [by apply ins_frees_l|by apply ins_frees_r]. }
            iSplit; [done|]. iIntros "T". iDestruct "P" as "[P _]". iApply ("P" $! (PDouble delta) o N' s'); [done|].
            by rewrite Hst.
          - iIntros (s' (He' & H1 & H2)) "T". iDestruct "P" as "[_ [_ P]]". iApply ("P" $! x N' s' with "[] T"). iPureIntro.
            unfold inc_sizes. rewrite space_app. pose proof (inc_space M k (Some (PDouble delta))). split_and!.
            + by left.
            + rewrite HN. apply reached_all.
            + eapply ext_weaken; [eapply ext_trans; [exact He1|exact He']|lia|]. intros [?|?]; [by apply ins_frees_l|done].
            + intros Hn. apply app_eq_nil in Hn as [_ ?]. done.
            + intros Hg. apply H2. eapply grow_allowed_mono; [|exact Hg]. destruct He1 as (He1 & _). lia. }
        iApply (wp_put_new with "T P"); [done|done|done|by apply val_at_none|by inversion Hsz2|done|].
        iIntros "(%o & %s2 & %He & T & P)". wpn. iApply (wp_items_add with "T"). iIntros "T". iApply wp_ret. iApply "P".
        by replace (x - 1 + 1) with x by lia. }
    destruct (tk_val _ _ _ HT _ _ _ E) as [Hv0 Ho0]. destruct (venc_facts v o Hv0 Ho0) as (_ & _ & Hne).
    assert (is_Some (M !! k)) as HMk by (rewrite E; eauto).
    destruct (reach_key b M N k HT0 HMk) as (HR1 & HR2 & HR3).
    destruct (bool_decide_reflect (t_type (venc v o) = 4)) as [H4|H4].
    2:{ rewrite (bool_decide_eq_false_2 (venc v o = 0)); [|intros ?; by apply Hne]. iApply wp_throw.
        iDestruct "P" as "[_ [P _]]". iApply ("P" $! N' s1 with "[] T"). iPureIntro. split_and!.
        - unfold new_double, t_incr_double. rewrite vls_lookup E. cbn [fmap option_fmap option_map fst].
          rewrite Hty in H4. by destruct v.
        - by rewrite HN HR1.
        - rewrite HR2 HR3 in He1. eapply ext_weaken; [exact He1|done|apply lk_nil]. }
    assert (∃ d, v = PDouble d) as [d ->].
    { rewrite Hty in H4. clear -H4. destruct v as [st|z|d|bb|]; cbn [venc_type] in H4; repeat case_match; try lia. eauto. }
    assert (t_incr_double fadd (vls M) k delta = Some (u64 (fadd d delta))) as Hincr.
    { unfold t_incr_double. by rewrite vls_lookup E. }
    unfold new_double in *. rewrite Hincr. rewrite Hincr in Hsz2. cbn [fmap option_fmap option_map] in *.
    set (new := u64 (fadd d delta)) in *. assert (is_u64 new) as Hnew by apply u64_range.
    iDestruct (inc_put false _ _ _ N' x x _ _ s1 _ (PDouble new) with "P") as "P"; [left; by rewrite E|done|done|].
    assert (t_value (venc (PDouble d) o) = 0 ∧ d = 0 ∧ val_sizes (PDouble d) = [] ∨
            t_value (venc (PDouble d) o) = o ∧ d_zero d = false ∧ val_sizes (PDouble d) = [8] ∧ o ≠ 0) as Hcase.
    { destruct (d_zero d) eqn:Ez.
      - left. cbn [venc val_sizes]. rewrite Ez. destruct Hv0 as [_ Hv0]. split_and!; [done|by apply Hv0|done].
      - right. assert (val_sizes (PDouble d) = [8]) as Hvs by (simpl; by rewrite Ez).
        split_and!; [|done|done|].
        + apply venc_block; [by rewrite Hvs|done].
        + destruct Ho0 as [_ Ho0]. rewrite Hvs in Ho0. specialize (Ho0 ltac:(done)). lia. }
    iAssert (∀ K : Z → prog Z, (tst b M N' x R s1 -∗ wp (K d) Φ Ψ) -∗ tst b M N' x R s1 -∗
       wp (old <- (if bool_decide (t_value (venc (PDouble d) o) = 0) then Ret 0 else load64 (t_value (venc (PDouble d) o))) ;; K old) Φ Ψ)%I as "Hold".
    { iIntros (K) "W T". destruct Hcase as [(-> & -> & _)|(-> & Ez & Hvs & Ho)].
      - rewrite (bool_decide_eq_true_2 (0 = 0)) //. wpn. by iApply "W".
      - rewrite (bool_decide_eq_false_2 (o = 0)) //. iDestruct "T" as "[H (HTT & Wi & Wn & T & V)]".
        iDestruct (big_sepM_lookup_acc _ _ _ _ E with "V") as "[Y V]". unfold vblock at 1. rewrite Hvs. cbn [fst snd].
        iApply (wp_load64 with "Y"). iIntros "Y". iApply "W". iFrame "H HTT Wi Wn T". iApply "V". unfold vblock. by rewrite Hvs. }
    iApply ("Hold" with "[P] T"). iIntros "T". wpn. fold new.
    destruct (d_zero new) eqn:Ez.
    { assert (stored (PDouble new) = PDouble 0) as Hst by (simpl; by rewrite Ez).
      iAssert (put_post b M N' x R s1 k (PDouble 0) (Φ new) Ψ) with "[P]" as "P".
      { assert (inc_own M k (Some (PDouble 0)) = inc_own M k (Some (PDouble new))) as Hio.
        { unfold inc_own, incr_sizes. simpl. by rewrite Ez. }
        unfold put_post. rewrite Hst Hio. done. }
      wpn. destruct Hcase as [(-> & -> & Hvs)|(-> & Ez0 & Hvs & Ho)].
      - rewrite (bool_decide_eq_true_2 (0 = 0)) //.
        iApply (wp_put_inline with "T P"); [done|done|done|done|by rewrite (val_at_lookup _ _ _ _ E)|].
        iIntros "P". wpn. by iApply wp_ret.
      - rewrite (bool_decide_eq_false_2 (o = 0)) //.
        iApply (wp_put_free with "T P"); [done|done|done|done|done|by rewrite Hvs|].
        iIntros "P". by iApply wp_ret. }
    assert (sval_ok (PDouble new)) as Hsv by (split; [done|]; by rewrite Ez).
    destruct Hcase as [(-> & -> & Hvs)|(-> & Ez0 & Hvs & Ho)].
    - rewrite (bool_decide_eq_true_2 (0 = 0)) //. wpn.
      assert (inc_own M k (Some (PDouble new)) = [8]) as Hio.
      { unfold inc_own, incr_sizes. cbn [t_map]. rewrite (val_at_lookup _ _ _ _ E) Hvs. simpl. by rewrite Ez. }
      rewrite Hio in Hsz2.
      iApply (wp_put_new with "T P"); [done|done|done|by rewrite (val_at_lookup _ _ _ _ E)|by inversion Hsz2|done|].
      iIntros "P". wpn. by iApply wp_ret.
    - rewrite (bool_decide_eq_false_2 (o = 0)) //.
      iApply (wp_put_over _ _ _ _ _ _ _ _ _ _ _ d with "T P"); [done|done|done|done|done|done|].
      iIntros "P". by iApply wp_ret.
  Qed.
End incr.
