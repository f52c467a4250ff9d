(** * PrefixTree over a SimpleAllocator: what a crash leaves.  insert and incr. *)
From Verif Require Export PrefixCrashMake.
From iris.proofmode Require Import tactics.
From iris.prelude Require Import options.
Open Scope Z_scope.
Open Scope prog_scope.

Local Arguments Z.pow : simpl never.
Local Arguments Z.mul : simpl never.
Local Arguments Z.add : simpl never.
Local Arguments u64 : simpl never.
Local Opaque simple_allocator sa_allocate sa_free t_init_node t_extend t_chain_nodes t_walk t_find t_lookup t_allowed t_make t_clear_slot t_items_add.

Section ops.
  Context (F : nat) (HF : 2 ^ 62 <= Z.of_nat F) (cf : cfg) (b : Z) (R : blocks) (bo : Z).
  Context (good : gmap bytes pval → Prop).
  Notation al := (simple_allocator F).
  Notation S := (simple_spec F HF).
  Notation ainv := (ainv S cf).
  Notation tl := (PrefixCrash.tl b).
  Notation ex := (ex F HF cf b R bo).
  Notation st := (ex None None).
  Notation TC := (TC cf b R bo good).

  (** A block of the tree is overwritten. *)
  Lemma crash_over {A : Type} (Q Y : option vl) (M : vlmap) (N : ndmap) (k : bytes) (v v0 : pval) (o0 w w0 : Z) (K : unit → prog A) :
    good (vls M) → good (<[k := v]> (vls M)) → has_place N k → sval_ok v → num_block v w →
    M !! k = Some (v0, o0) → num_block v0 w0 → venc_type v0 = venc_type v →
    ex Q Y M N -∗ (ex Q Y (<[k := (v, o0)]> M) N -∗ crash TC (K tt)) -∗ crash TC (y <- store64 o0 w ;; K y).
  Proof using.
    iIntros (HG HG' Hk Hv Hn Hold Hn0 Hty) "(%s & (%Hs & %HY & %HQ) & H & Y & Q & %HT & W1 & W2 & T & V) W".
    destruct (tk_val _ _ _ HT _ _ _ Hold) as [Hv0 Ho0].
    destruct (num_block_facts v w o0 Hv Hn) as (E1 & E2 & E3 & E4).
    destruct (num_block_facts v0 w0 o0 Hv0 Hn0) as (F1 & F2 & F3 & F4).
    assert (blk_off_ok v o0) as Ho. { destruct Ho0 as [Ho1 Ho2]. split; [done|]. intros _. apply Ho2. by rewrite F1. }
    iAssert (yval (M !! k) ∗ tvals (delete k M))%I with "[V]" as "[Y0 V]"; [rewrite -tvals_yset yset_id //|].
    rewrite {1}Hold. cbn [yval]. iAssert (word o0 w0) with "[Y0]" as "Y0"; [iApply (F2 with "Y0")|].
    iApply crash_store64; [done|]. iExists _. iFrame "Y0". iSplit.
    - iIntros "Y0". iApply (ex_TC F HF cf b R bo good Q Y M N HG). iExists s. iSplit; [done|]. iFrame "H Y Q W1 W2 T". iSplit; [done|].
      iAssert (tvals (yset k (M !! k) M)) with "[Y0 V]" as "V"; [|by rewrite yset_id]. rewrite tvals_yset Hold. iFrame "V".
      iApply (F2 with "Y0").
    - iIntros "Y0". iApply "W". change (<[k := (v, o0)]> M) with (yset k (Some (v, o0)) M).
      iExists s. iSplit; [done|]. iFrame "Y Q W1 W2". iSplitL "H".
      { iApply (ainv_perm with "H"). apply Permutation_app_head, Permutation_app_head.
        rewrite tblocks_yset (tblocks_open b M N R k) Hold. cbn [yblk]. unfold vblk. by rewrite E1 F1. }
      iSplit. { iPureIntro. by apply tok_put. }
      iSplitL "T".
      + iDestruct (place_acc M N k Hk with "T") as "[Wd T]". iApply ("T" $! (yset k (Some (v, o0)) M) with "[]").
        * iPureIntro. intros k' Hk'. unfold vword. by rewrite yset_ne.
        * unfold vword. rewrite yset_lookup Hold. cbn [yenc]. by rewrite E4 F4 Hty.
      + rewrite tvals_yset. iFrame "V". cbn [yval]. iApply (E2 with "Y0").
  Qed.
  (** An 8-byte block. *)
  Lemma crash_num {A : Type} (M : vlmap) (N : ndmap) (v : pval) (w tag : Z) (K : Z → prog A) : good (vls M) → sval_ok v → num_block v w → tag = venc_type v →
    st M N -∗ (∀ o, ⌜Z.lor o tag = venc v o⌝ -∗ ex None (Some (v, o)) M N -∗ crash TC (K o)) -∗
    crash TC (o <- al_allocate al 8 ;; store64 o w ;; K o).
  Proof using.
    iIntros (HG Hs Hn ->) "T W". destruct (num_block_facts v w 0 Hs Hn) as (E1 & _ & E3 & _).
    iApply (crash_block F HF cf b R bo good M N v 8 _ (λ o, store64 o w) with "T W"); [done|done|done|lia| | |done].
    - intros o. apply si_store1; lia.
    - iIntros (o Φ Ho) "Rw W". destruct (num_block_facts v w o Hs Hn) as (_ & E2 & _).
      iDestruct (raw_word with "Rw") as "[%w0 Y]"; [lia|]. iApply bind_ret_r. iApply (wp_store64 with "Y"); [done|].
      iIntros "Y". iApply wp_ret. iApply "W". iApply (E2 with "Y").
  Qed.
  Lemma crash_end {A : Type} (Q Y : option vl) (M : vlmap) (N : ndmap) (a : A) : good (vls M) → ex Q Y M N ⊢ crash TC (Ret a).
  Proof using. intros HG. rewrite (ex_TC _ _ _ _ _ _ good _ _ _ _ HG). apply crash_ret. Qed.
  Lemma crash_fail {A : Type} (Q Y : option vl) (M : vlmap) (N : ndmap) e : good (vls M) → ex Q Y M N ⊢ crash TC (Throw (A:=A) e).
  Proof using. intros HG. rewrite (ex_TC _ _ _ _ _ _ good _ _ _ _ HG). apply crash_throw. Qed.

  (** ** insert *)
  Lemma crash_insert_string (M : vlmap) (N : ndmap) (k d : bytes) :
    good (vls M) → good (delete k (vls M)) → good (<[k := PStr d]> (vls M)) → bytes_ok k → bytes_ok d → dlen d <= 2 ^ 62 →
    st M N ⊢ crash TC (t_insert_string al F b k d ;; Ret true).
  Proof using.
    iIntros (HG1 HG2 HG3 Hk Hd Hlen) "T". unfold t_insert_string. wpn.
    iApply (crash_t_make with "T"); [done|done|]. iIntros (N' Hpl) "T". wpn.
    iApply (crash_clear_value with "T"); [done|done|done|]. iIntros "T". wpn.
    assert (good (vls (delete k M))) as HG4 by by rewrite vls_delete.
    assert (good (<[k := PStr d]> (vls (delete k M)))) as HG5 by by rewrite vls_delete insert_delete_insert.
    assert (∀ o, good (vls (<[k := (PStr d, o)]> (delete k M)))) as HG6 by (intros o; by rewrite vls_insert).
    change (Z.of_nat (length d)) with (dlen d).
    destruct (bool_decide_reflect (dlen d = 0)) as [H0|H0].
    { assert (d = []) as -> by (destruct d; [done|unfold dlen in H0; simpl in H0; lia]).
      iApply (crash_put _ _ _ _ _ _ _ None (delete k M) N' k (PStr []) with "T"); [done|done|done|done|done|done|].
      rewrite lookup_delete. iIntros "T". wpn. iApply (crash_items_add with "T"); [done|]. iIntros "T". by iApply (crash_end with "T"). }
    destruct (bool_decide_reflect (dlen d < 8)) as [H8|H8].
    { assert (val_sizes (PStr d) = []) as Hvs by (simpl; by rewrite (proj2 (Z.ltb_lt _ _) H8)).
      iApply (crash_put _ _ _ _ _ _ _ None (delete k M) N' k (PStr d) with "T"); [done|done|done|done|done| |].
      { simpl. rewrite (proj2 (Z.ltb_lt _ _) H8). rewrite (proj2 (Z.eqb_neq _ _) H0). done. }
      rewrite lookup_delete. iIntros "T". wpn. iApply (crash_items_add with "T"); [done|]. iIntros "T". by iApply (crash_end with "T"). }
    assert (8 <= dlen d) as H8' by lia. assert ((dlen d <? 8) = false) as Elt by by apply Z.ltb_ge.
    assert (val_sizes (PStr d) = [dlen d]) as Hvs by (simpl; by rewrite Elt).
    wpn. iApply (wpc_peq (o <- al_allocate al (dlen d) ;; store_bytes o d ;; store64 (place N' k) (Z.lor o 1) ;; t_items_add b 1 ;; Ret true)); [peqt|].
    iApply (crash_block F HF cf b R bo good (delete k M) N' (PStr d) (dlen d) 1 (λ o, store_bytes o d) with "T"); [done|done|done|lia| | | |].
    - intros o. apply si_store_bytes; unfold dlen; lia.
    - iIntros (o Φ Ho) "Rw W". iApply bind_ret_r. iApply (wp_store_bytes_b with "Rw"); [done|done|]. iIntros "Y". iApply wp_ret. iApply "W".
      unfold vblock. rewrite Hvs. done.
    - simpl. by rewrite Elt.
    - iIntros (o Ho) "T". iApply (crash_swap _ _ _ _ _ _ _ None (Some (PStr d, o)) (delete k M) N' k with "T"); [done| |done|done|].
      { by rewrite vls_yset. }
      rewrite lookup_delete. iIntros "T". wpn. change (yset k (Some (PStr d, o)) (delete k M)) with (<[k := (PStr d, o)]> (delete k M)).
      iApply (crash_items_add with "T"); [done|]. iIntros "T". by iApply (crash_end with "T").
  Qed.
  Lemma crash_insert_int (M : vlmap) (N : ndmap) (k : bytes) (z : Z) :
    good (vls M) → good (delete k (vls M)) → good (<[k := PInt z]> (vls M)) → bytes_ok k → is_s64 z →
    st M N ⊢ crash TC (t_insert_int al F b k z ;; Ret true).
  Proof using.
    iIntros (HG1 HG2 HG3 Hk Hd) "T". unfold t_insert_int. wpn.
    iApply (crash_t_make with "T"); [done|done|]. iIntros (N' Hpl) "T". wpn.
    iApply (crash_clear_value with "T"); [done|done|done|]. iIntros "T". wpn.
    assert (good (vls (delete k M))) as HG4 by by rewrite vls_delete.
    assert (good (<[k := PInt z]> (vls (delete k M)))) as HG5 by by rewrite vls_delete insert_delete_insert.
    assert (∀ o, good (vls (<[k := (PInt z, o)]> (delete k M)))) as HG6 by (intros o; by rewrite vls_insert).
    rewrite t_small_spec //. destruct (small_int z) eqn:Es.
    { assert (val_sizes (PInt z) = []) as Hvs by (simpl; by rewrite Es).
      iApply (crash_put _ _ _ _ _ _ _ None (delete k M) N' k (PInt z) with "T"); [done|done|done|done|done| |].
      { simpl. rewrite Es. apply int_word_eq. }
      rewrite lookup_delete. iIntros "T". wpn. iApply (crash_items_add with "T"); [done|]. iIntros "T". by iApply (crash_end with "T"). }
    wpn. iApply (wpc_peq (o <- al_allocate al 8 ;; store64 o (u64 z) ;; store64 (place N' k) (Z.lor o 3) ;; t_items_add b 1 ;; Ret true)); [peqt|].
    iApply (crash_num (delete k M) N' (PInt z) with "T"); [done|by split|done|simpl; by rewrite Es|].
    iIntros (o Ho) "T". iApply (crash_swap _ _ _ _ _ _ _ None (Some (PInt z, o)) (delete k M) N' k with "T"); [done| |done|done|].
    { by rewrite vls_yset. }
    rewrite lookup_delete. iIntros "T". wpn. change (yset k (Some (PInt z, o)) (delete k M)) with (<[k := (PInt z, o)]> (delete k M)).
    iApply (crash_items_add with "T"); [done|]. iIntros "T". by iApply (crash_end with "T").
  Qed.
  Lemma crash_insert_trivial (M : vlmap) (N : ndmap) (k : bytes) (v : pval) (id : Z) :
    good (vls M) → good (delete k (vls M)) → good (<[k := v]> (vls M)) → bytes_ok k →
    v = PNull ∧ id = 2 ∨ v = PBool true ∧ id = 1 ∨ v = PBool false ∧ id = 0 →
    st M N ⊢ crash TC (t_insert_trivial al F b k id ;; Ret true).
  Proof using.
    iIntros (HG1 HG2 HG3 Hk Hv) "T". unfold t_insert_trivial. wpn.
    iApply (crash_t_make with "T"); [done|done|]. iIntros (N' Hpl) "T". wpn.
    iApply (crash_clear_value with "T"); [done|done|done|]. iIntros "T". wpn.
    assert (good (vls (delete k M))) as HG4 by by rewrite vls_delete.
    assert (good (<[k := v]> (vls (delete k M)))) as HG5 by by rewrite vls_delete insert_delete_insert.
    assert (∀ o, good (vls (<[k := (v, o)]> (delete k M)))) as HG6 by (intros o; by rewrite vls_insert).
    assert (sval_ok v ∧ val_sizes v = [] ∧ Z.lor (Z.shiftl id 3) 5 = venc v 0 ∧ stored v = v) as (Hv1 & Hv2 & Hv3 & Hv4).
    { destruct Hv as [[-> ->]|[[-> ->]|[-> ->]]]; done. }
    iApply (crash_put _ _ _ _ _ _ _ None (delete k M) N' k v with "T"); [done|done|done|done|done|done|].
    rewrite lookup_delete. iIntros "T". wpn. iApply (crash_items_add with "T"); [done|]. iIntros "T". by iApply (crash_end with "T").
  Qed.
  (** A double over an integer that has a block is not included: see C53_double_over_integer_refuted. *)
  Lemma crash_insert_double (M : vlmap) (N : ndmap) (k : bytes) (d : Z) :
    good (vls M) → good (delete k (vls M)) → good (<[k := stored (PDouble d)]> (vls M)) → bytes_ok k → is_u64 d →
    (∀ z, vls M !! k = Some (PInt z) → small_int z = true ∨ d_zero d = true) →
    st M N ⊢ crash TC (t_insert_double al F b k d ;; Ret true).
  Proof using.
    iIntros (HG1 HG2 HG3 Hk Hd Hno) "T". unfold t_insert_double. wpn.
    iApply (crash_t_make with "T"); [done|done|]. iIntros (N' Hpl) "T". wpn.
    iDestruct (ex_tok with "T") as %HT. pose proof (yenc_type _ _ _ k HT) as Hty.
    iApply (crash_slot_load with "T"); [done|done|]. iIntros "T". wpn.
    assert (good (vls (delete k M))) as HG4 by by rewrite vls_delete.
    assert (good (<[k := stored (PDouble d)]> (vls (delete k M)))) as HG5 by by rewrite vls_delete insert_delete_insert.
    assert (∀ o, good (vls (<[k := (stored (PDouble d), o)]> (delete k M)))) as HG6 by (intros o; by rewrite vls_insert).
    destruct (d_zero d) eqn:Ez; cbn [stored] in *; rewrite Ez in HG3 HG5 HG6.
    { wpn. iApply (crash_clear_value with "T"); [done|done|done|]. iIntros "T". wpn.
      iApply (crash_put _ _ _ _ _ _ _ None (delete k M) N' k (PDouble 0) with "T"); [done|done|done|done|done|done|].
      rewrite lookup_delete. iIntros "T". wpn. iApply (crash_items_add with "T"); [done|]. iIntros "T". by iApply (crash_end with "T"). }
    assert (val_sizes (PDouble d) = [8]) as Hvs by (simpl; by rewrite Ez).
    assert (sval_ok (PDouble d)) as Hsv by (split; [done|]; by rewrite Ez).
    destruct (bool_decide_reflect ((t_type (yenc (M !! k)) = 4 ∨ t_type (yenc (M !! k)) = 3) ∧ yenc (M !! k) ≠ 4)) as [Hc|Hc].
    { (* the block is overwritten *)
      rewrite Hty in Hc |- *. destruct (M !! k) as [[v o]|] eqn:E; [|lia]. cbn [yenc] in *.
      destruct (tk_val _ _ _ HT _ _ _ E) as [Hv Ho].
      assert (∃ d0, v = PDouble d0 ∧ d_zero d0 = false) as (d0 & -> & Hz0).
      { destruct v as [ss|z|d0|bb|]; simpl in Hc.
        - repeat case_match; lia.
        - destruct (small_int z) eqn:Es; [lia|]. exfalso. destruct (Hno z) as [?|?]; [|congruence|congruence]. by rewrite vls_lookup E.
        - destruct (d_zero d0) eqn:Es; [lia|]. eauto.
        - lia.
        - lia. }
      rewrite (venc_block (PDouble d0)); [|simpl; by rewrite Hz0|done].
      rewrite (bool_decide_eq_false_2 (venc_type (PDouble d0) = 3)); [|simpl; lia]. wpn.
      iApply (crash_over _ _ M N' k (PDouble d) (PDouble d0) o _ d0 with "T"); try done.
      iIntros "T". wpn. iApply (crash_end with "T"). by rewrite vls_insert. }
    wpn. iApply (wpc_peq (o <- al_allocate al 8 ;; store64 o d ;; t_clear_slot al F b (place N' k) ;; store64 (place N' k) (Z.lor o 4) ;; t_items_add b 1 ;; Ret true)); [peqt|].
    iApply (crash_num M N' (PDouble d) with "T"); [done|done|done|done|].
    iIntros (o Ho) "T". rewrite ex_shift. wpn. iApply (crash_clear_value with "T"); [done|done|done|]. iIntros "T". wpn. rewrite ex_shift'.
    iApply (crash_swap _ _ _ _ _ _ _ None (Some (PDouble d, o)) (delete k M) N' k with "T"); [done| |done|done|].
    { by rewrite vls_yset. }
    rewrite lookup_delete. iIntros "T". wpn. change (yset k (Some (PDouble d, o)) (delete k M)) with (<[k := (PDouble d, o)]> (delete k M)).
    iApply (crash_items_add with "T"); [done|]. iIntros "T". by iApply (crash_end with "T").
  Qed.
  Local Opaque t_insert_string t_insert_int t_insert_double t_insert_trivial.

  Lemma crash_t_allowed {A : Type} (M : vlmap) (N : ndmap) c (K : bool → prog A) : good (vls M) →
    st M N -∗ (st M N -∗ crash TC (K (t_holds (vls M) c))) -∗ crash TC (y <- t_allowed al b c ;; K y).
  Proof using.
    iIntros (HG) "T W". iApply (crash_quiet TC (st M N) _ (λ x, x = t_holds (vls M) c) with "T").
    - apply (q_t_allowed al); [|exact F]. intros o. apply q_sa_block_size.
    - by apply ex_TC.
    - iIntros "T". iDestruct (ex_tst with "T") as (ne s x) "T". iApply bind_ret_r.
      iApply (wp_t_allowed with "T"). iIntros "_". iApply wp_ret. done.
    - iIntros (x ->) "T". by iApply "W".
  Qed.
  Lemma crash_t_insert (M : vlmap) (N : ndmap) (k : bytes) (v : pval) c :
    good (vls M) → (t_holds (vls M) c = true → good (delete k (vls M)) ∧ good (<[k := stored v]> (vls M))) → bytes_ok k → pval_ok v →
    (∀ d, t_holds (vls M) c = true → v = PStr d → dlen d <= 2 ^ 62) →
    (∀ d z, t_holds (vls M) c = true → v = PDouble d → vls M !! k = Some (PInt z) → small_int z = true ∨ d_zero d = true) →
    st M N ⊢ crash TC (t_insert al F b k v c).
  Proof using.
    iIntros (HG1 HG2 Hk Hv Hlen Hno) "T". unfold t_insert. iApply (crash_t_allowed with "T"); [done|]. iIntros "T".
    destruct (t_holds (vls M) c) eqn:Eh; cbn [negb].
    2:{ by iApply (crash_end with "T"). }
    destruct (HG2 eq_refl) as [HG3 HG4]. destruct v as [d|z|d|bb|].
    - by iApply (crash_insert_string with "T"); [..|by apply Hlen].
    - by iApply (crash_insert_int with "T").
    - iApply (crash_insert_double with "T"); try done. intros z Hz. by eapply Hno.
    - iApply (crash_insert_trivial _ _ _ (PBool bb) with "T"); [done|done|done|done|]. destruct bb; [right; by left|right; by right].
    - iApply (crash_insert_trivial _ _ _ PNull with "T"); [done|done|done|done|]. by left.
  Qed.

  (** ** incr *)
  (** The value of a key, which is [y], becomes [v]; only the number in [y] may have a block. *)
  Lemma crash_renew (M : vlmap) (N : ndmap) (k : bytes) (v : pval) (w wi tag : Z) (a : Z) :
    good (vls M) → good (<[k := v]> (vls M)) → has_place N k → sval_ok v →
    (val_sizes v = [] ∧ wi = venc v 0 ∨ num_block v w ∧ tag = venc_type v ∧
       match M !! k with Some (v0, _) => val_sizes v0 = [] ∨ venc_type v0 = tag | None => True end) →
    ∀ (nb ob : bool),
    nb = negb (bool_decide (val_sizes v = [])) →
    ob = match M !! k with Some (v0, _) => negb (bool_decide (val_sizes v0 = [])) | None => false end →
    (ob = true → ∃ v0 o0 w0, M !! k = Some (v0, o0) ∧ num_block v0 w0) →
    st M N ⊢ crash TC ((if nb then
        if ob then store64 (match M !! k with Some (_, o0) => o0 | None => 0 end) w
        else o <- al_allocate al 8 ;; store64 o w ;; store64 (place N k) (Z.lor o tag)
      else
        store64 (place N k) wi ;; if ob then al_free al (match M !! k with Some (_, o0) => o0 | None => 0 end) else Ret tt) ;; Ret a).
  Proof using.
    intros HG HG' Hpl Hv Hcase nb ob Hnb Hob Hnum. iIntros "T".
    assert (∀ o, good (vls (<[k := (v, o)]> M))) as HG2 by (intros o; by rewrite vls_insert).
    assert (∀ o, good (vls (yset k (Some (v, o)) M))) as HG3 by (intros o; by rewrite vls_yset).
    destruct nb.
    - assert (val_sizes v ≠ []) as Hvs. { intros E. rewrite E in Hnb. done. }
      destruct Hcase as [[? _]|(Hn & Htag & Hold)]; [done|].
      destruct ob.
      + destruct (Hnum eq_refl) as (v0 & o0 & w0 & E & Hn0). rewrite E in Hold Hob |- *.
        iApply (crash_over _ _ M N k v v0 o0 w w0 with "T"); try done.
        { destruct Hold as [Hz|Ht]; [rewrite Hz in Hob; done|congruence]. }
        iIntros "T". by iApply (crash_end with "T").
      + wpn. iApply (wpc_peq (o <- al_allocate al 8 ;; store64 o w ;; store64 (place N k) (Z.lor o tag) ;; Ret a)); [peqt|].
        iApply (crash_num M N v w tag with "T"); [done|done|done|done|]. iIntros (o Ho) "T".
        iApply (crash_swap _ _ _ _ _ _ _ None (Some (v, o)) M N k with "T"); [done|done|done|done|].
        iIntros "T". by iApply (crash_end with "T").
    - assert (val_sizes v = []) as Hvs. { destruct (val_sizes v); [done|]. done. }
      assert (wi = venc v 0) as ->. { destruct Hcase as [[_ ?]|(Hn & _)]; [done|]. destruct (num_block_facts v w 0 Hv Hn) as (? & _). congruence. }
      wpn. iApply (crash_put _ _ _ _ _ _ _ None M N k v with "T"); [done|done|done|done|done|done|]. iIntros "T". wpn.
      destruct ob.
      + destruct (Hnum eq_refl) as (v0 & o0 & w0 & E & Hn0). rewrite E in Hob |- *.
        iApply (crash_drop with "T"); [done| |].
        { intros Hz. rewrite Hz in Hob. done. }
        iIntros "T". by iApply (crash_end with "T").
      + wpn. by iApply (crash_end with "T").
  Qed.

  Lemma crash_incr_int (M : vlmap) (N : ndmap) (k : bytes) (delta : Z) :
    good (vls M) → (∀ z, t_incr (vls M) k delta = Some z → good (<[k := PInt z]> (vls M))) → bytes_ok k →
    st M N ⊢ crash TC (t_incr_int al b k delta).
  Proof using.
    iIntros (HG1 HG2 Hk) "T". unfold t_incr_int.
    iApply (crash_t_make with "T"); [done|done|]. iIntros (N' Hpl) "T". wpn.
    iDestruct (ex_tok with "T") as %HT. pose proof (yenc_type _ _ _ k HT) as Hty.
    iApply (crash_slot_load with "T"); [done|done|]. iIntros "T". wpn.
    assert (∀ old, t_incr (vls M) k delta = Some (wrap64 (old + delta)) →
       (M !! k = None ∨ ∃ z o, M !! k = Some (PInt z, o)) →
       st M N' ⊢
       crash TC ((if t_small (wrap64 (old + delta)) then
             store64 (place N' k) (Z.lor (u64 (Z.shiftl (wrap64 (old + delta)) 3)) 2) ;;
             if bool_decide (t_type (yenc (M !! k)) = 3) then al_free al (t_value (yenc (M !! k))) else Ret tt
           else if bool_decide (t_type (yenc (M !! k)) = 3) then store64 (t_value (yenc (M !! k))) (u64 (wrap64 (old + delta)))
           else
             o <- al_allocate al 8 ;;
             store64 o (u64 (wrap64 (old + delta))) ;;
             store64 (place N' k) (Z.lor o 3)) ;;
          Ret (wrap64 (old + delta)))) as Htail.
    { intros old Hnew Hcase. iIntros "T". set (v := wrap64 (old + delta)) in *. pose proof (s64_ok (old + delta) : is_s64 v) as Hv.
      specialize (HG2 _ Hnew). rewrite t_small_spec //.
      assert (∃ ob, bool_decide (t_type (yenc (M !! k)) = 3) = ob ∧
          ob = match M !! k with Some (v0, _) => negb (bool_decide (val_sizes v0 = [])) | None => false end ∧
          (ob = true → t_value (yenc (M !! k)) = match M !! k with Some (_, o0) => o0 | None => 0 end) ∧
          (ob = true → ∃ v0 o0 w0, M !! k = Some (v0, o0) ∧ num_block v0 w0)) as (ob & -> & Hob & Hval & Hnum).
      { eexists. split; [done|]. rewrite Hty. destruct Hcase as [E|(z & o & E)]; rewrite E; [done|]. cbn [yenc].
        destruct (tk_val _ _ _ HT _ _ _ E) as [Hv0 Ho0]. cbn [venc_type val_sizes]. destruct (small_int z) eqn:Ez; [done|].
        split; [done|]. split; [|intros _; by exists (PInt z), o, (u64 z)]. intros _. apply (venc_block (PInt z)); [|done]. simpl. by rewrite Ez. }
      assert (∀ nb, nb = negb (bool_decide (val_sizes (PInt v) = [])) →
        st M N' ⊢ crash TC ((if nb then
          if ob then store64 (match M !! k with Some (_, o0) => o0 | None => 0 end) (u64 v)
          else o <- al_allocate al 8 ;; store64 o (u64 v) ;; store64 (place N' k) (Z.lor o 3)
        else
          store64 (place N' k) (Z.lor (u64 (Z.shiftl v 3)) 2) ;; if ob then al_free al (match M !! k with Some (_, o0) => o0 | None => 0 end) else Ret tt) ;; Ret v)) as HR.
      { intros nb Hnb. apply (crash_renew M N' k (PInt v) (u64 v) _ 3 v); try done.
        destruct (small_int v) eqn:Es; [left|right].
        - cbn [val_sizes venc]. rewrite Es. split; [done|]. apply int_word_eq.
        - split; [done|]. cbn [venc_type]. rewrite Es. split; [done|].
          destruct Hcase as [E|(z & o & E)]; rewrite E; [done|]. cbn [val_sizes venc_type]. destruct (small_int z); [by left|by right]. }
      cbn [val_sizes] in HR. destruct (small_int v) eqn:Es.
      - specialize (HR false eq_refl). destruct ob; [rewrite Hval //|]; by iApply HR.
      - specialize (HR true eq_refl). destruct ob; [rewrite Hval //|]; by iApply HR. }
    destruct (M !! k) as [[v o]|] eqn:E; cbn [yenc] in *.
    2:{ rewrite (bool_decide_eq_false_2 (t_type 0 = 2)); [|done]. rewrite (bool_decide_eq_false_2 (t_type 0 = 3)) in Htail |- *; [|done..].
        rewrite (bool_decide_eq_true_2 (0 = 0)); [|done]. wpn. iApply (crash_items_add with "T"); [done|]. iIntros "T". wpn.
        iApply (Htail 0 with "T").
        - unfold t_incr. by rewrite vls_lookup E.
        - by left. }
    destruct (tk_val _ _ _ HT _ _ _ E) as [Hv0 Ho0]. destruct (venc_facts v o Hv0 Ho0) as (_ & _ & Hne).
    assert (∀ z, v = PInt z → t_incr (vls M) k delta = Some (wrap64 (z + delta))) as Hincr.
    { intros z ->. unfold t_incr. by rewrite vls_lookup E. }
    destruct (bool_decide_reflect (t_type (venc v o) = 2)) as [H2|H2].
    { wpn. assert (∃ z, v = PInt z ∧ small_int z = true) as (z & -> & Esz).
      { rewrite Hty in H2. clear -H2. destruct v as [ss|z|d|bb|]; simpl in H2; repeat case_match; try lia. eauto. }
      assert (t_int (venc (PInt z) o) = z) as Hti by (cbn [venc]; rewrite Esz; by apply t_int_word).
      rewrite Hti. iApply (Htail z with "T"); [by apply Hincr|right; eauto]. }
    destruct (bool_decide_reflect (t_type (venc v o) = 3)) as [H3|H3].
    { assert (∃ z, v = PInt z ∧ small_int z = false) as (z & -> & Esz).
      { rewrite Hty in H3. clear -H3. destruct v as [ss|z|d|bb|]; simpl in H3; repeat case_match; try lia. eauto. }
      assert (val_sizes (PInt z) = [8]) as Hvs by (simpl; by rewrite Esz).
      rewrite (venc_block (PInt z) o) in Htail |- *; [|by rewrite Hvs|done]. wpn.
      iApply (crash_load64 TC (st M N') o (u64 z) with "T"); [by apply ex_TC| |].
      { rewrite ex_vals. iIntros "[V _]". iDestruct (big_sepM_lookup_acc _ _ _ _ E with "V") as "[Y V]". unfold vblock at 1. rewrite Hvs. cbn [fst snd].
        iSplitL "Y"; done. }
      iIntros "T". wpn. rewrite s64_u64; [|by destruct Hv0].
      iApply (Htail z with "T"); [by apply Hincr|right; eauto]. }
    rewrite (bool_decide_eq_false_2 (venc v o = 0)); [|intros ?; by apply Hne]. wpn. by iApply (crash_fail with "T").
  Qed.

  (** incr of a double; a key without a value and a zero delta are not included (C34). *)
  Lemma crash_incr_dbl (fadd : Z → Z → Z) (M : vlmap) (N : ndmap) (k : bytes) (delta : Z) :
    good (vls M) → (∀ z, t_incr_double fadd (vls M) k delta = Some z → good (<[k := stored (PDouble z)]> (vls M))) → bytes_ok k →
    is_u64 delta → (vls M !! k = None → d_zero delta = false) →
    st M N ⊢ crash TC (t_incr_dbl al fadd b k delta).
  Proof using.
    iIntros (HG1 HG2 Hk Hdelta Hnz) "T". unfold t_incr_dbl.
    iApply (crash_t_make with "T"); [done|done|]. iIntros (N' Hpl) "T". wpn.
    iDestruct (ex_tok with "T") as %HT. pose proof (yenc_type _ _ _ k HT) as Hty.
    iApply (crash_slot_load with "T"); [done|done|]. iIntros "T". wpn.
    rewrite vls_lookup in Hnz.
    destruct (M !! k) as [[v o]|] eqn:E; cbn [yenc] in *.
    2:{ rewrite (bool_decide_eq_false_2 (t_type 0 = 4)); [|done]. rewrite (bool_decide_eq_true_2 (0 = 0)); [|done].
        specialize (Hnz eq_refl). rewrite Hnz.
        assert (sval_ok (PDouble delta)) as Hsv by (split; [done|]; by rewrite Hnz).
        assert (good (<[k := PDouble delta]> (vls M))) as HG3.
        { specialize (HG2 delta). cbn [stored] in HG2. rewrite Hnz in HG2. apply HG2. unfold t_incr_double. by rewrite vls_lookup E. }
        wpn. iApply (wpc_peq (o <- al_allocate al 8 ;; store64 o delta ;; store64 (place N' k) (Z.lor o 4) ;; t_items_add b 1 ;; Ret delta)); [peqt|].
        iApply (crash_num M N' (PDouble delta) with "T"); [done|done|done|done|]. iIntros (o Ho) "T".
        iApply (crash_swap _ _ _ _ _ _ _ None (Some (PDouble delta, o)) M N' k with "T"); [done|by rewrite vls_yset|done|done|].
        iIntros "T". wpn. iApply (crash_items_add with "T"); [by rewrite vls_yset|]. iIntros "T". iApply (crash_end with "T"). by rewrite vls_yset. }
    destruct (tk_val _ _ _ HT _ _ _ E) as [Hv0 Ho0]. destruct (venc_facts v o Hv0 Ho0) as (_ & _ & Hne).
    destruct (bool_decide_reflect (t_type (venc v o) = 4)) as [H4|H4].
    2:{ rewrite (bool_decide_eq_false_2 (venc v o = 0)); [|intros ?; by apply Hne]. by iApply (crash_fail with "T"). }
    assert (∃ d, v = PDouble d) as [d ->].
    { rewrite Hty in H4. clear -H4. destruct v as [ss|z|d|bb|]; cbn [venc_type] in H4; repeat case_match; try lia. eauto. }
    assert (t_incr_double fadd (vls M) k delta = Some (u64 (fadd d delta))) as Hincr.
    { unfold t_incr_double. by rewrite vls_lookup E. }
    specialize (HG2 _ Hincr).
    set (new := u64 (fadd d delta)) in *. assert (is_u64 new) as Hnew by apply u64_range.
    assert (t_value (venc (PDouble d) o) = 0 ∧ d = 0 ∧ val_sizes (PDouble d) = [] ∨
            t_value (venc (PDouble d) o) = o ∧ d_zero d = false ∧ val_sizes (PDouble d) = [8] ∧ o ≠ 0) as Hcase.
    { destruct (d_zero d) eqn:Ez.
      - left. cbn [venc val_sizes]. rewrite Ez. destruct Hv0 as [_ Hv0]. split_and!; [done|by apply Hv0|done].
      - right. assert (val_sizes (PDouble d) = [8]) as Hvs by (simpl; by rewrite Ez).
        split_and!; [|done|done|].
        + apply venc_block; [by rewrite Hvs|done].
        + destruct Ho0 as [_ Ho0]. rewrite Hvs in Ho0. specialize (Ho0 ltac:(done)). lia. }
    iAssert (∀ K : Z → prog Z, (st M N' -∗ crash TC (K d)) -∗ st M N' -∗
       crash TC (old <- (if bool_decide (t_value (venc (PDouble d) o) = 0) then Ret 0 else load64 (t_value (venc (PDouble d) o))) ;; K old))%I as "Hold".
    { iIntros (K) "W T". destruct Hcase as [(-> & -> & _)|(-> & Ez & Hvs & Ho)].
      - rewrite (bool_decide_eq_true_2 (0 = 0)) //. wpn. by iApply "W".
      - rewrite (bool_decide_eq_false_2 (o = 0)) //. iApply (crash_load64 TC (st M N') o d with "T W"); [by apply ex_TC|].
        rewrite ex_vals. iIntros "[V _]". iDestruct (big_sepM_lookup_acc _ _ _ _ E with "V") as "[Y V]". unfold vblock at 1. rewrite Hvs. cbn [fst snd].
        iSplitL "Y"; done. }
    iApply ("Hold" with "[] T"). iIntros "T". wpn. fold new.
    assert (sval_ok (stored (PDouble new))) as Hsv.
    { cbn [stored]. destruct (d_zero new) eqn:Ez; [done|]. split; [done|]. by rewrite Ez. }
    set (ob := negb (bool_decide (t_value (venc (PDouble d) o) = 0))).
    assert (ob = negb (bool_decide (val_sizes (PDouble d) = [])) ∧ (ob = true → t_value (venc (PDouble d) o) = o ∧ d_zero d = false)) as [Hob Hob2].
    { unfold ob. destruct Hcase as [(-> & -> & Hvs)|(-> & Ez & Hvs & Ho)]; rewrite Hvs; [done|].
      rewrite (bool_decide_eq_false_2 (o = 0)) //. }
    assert (∀ nb, nb = negb (bool_decide (val_sizes (stored (PDouble new)) = [])) →
        st M N' ⊢ crash TC ((if nb then
          if ob then store64 o new
          else o <- al_allocate al 8 ;; store64 o new ;; store64 (place N' k) (Z.lor o 4)
        else
          store64 (place N' k) 4 ;; if ob then al_free al o else Ret tt) ;; Ret new)) as HR.
    { intros nb Hnb. pose proof (crash_renew M N' k (stored (PDouble new)) new 4 4 new) as HR. rewrite E in HR. apply HR; try done.
      - cbn [stored]. destruct (d_zero new) eqn:Ez; [by left|right]. split; [done|]. split; [done|]. by right.
      - intros Ho. exists (PDouble d), o, d. split; [done|]. split; [|done]. by apply Hob2. }
    cbn [stored] in HR. destruct (d_zero new) eqn:Ez.
    - specialize (HR false eq_refl). unfold ob in *. destruct (bool_decide (t_value (venc (PDouble d) o) = 0)) eqn:Ev; cbn [negb] in *.
      + by iApply HR.
      + rewrite (proj1 (Hob2 eq_refl)). by iApply HR.
    - cbn [val_sizes] in HR. rewrite Ez in HR. specialize (HR true eq_refl). unfold ob in *. destruct (bool_decide (t_value (venc (PDouble d) o) = 0)) eqn:Ev; cbn [negb] in *.
      + by iApply HR.
      + rewrite (proj1 (Hob2 eq_refl)). by iApply HR.
  Qed.
End ops.
