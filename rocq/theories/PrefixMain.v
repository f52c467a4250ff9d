(** * PrefixTree: all operations. *)
From Verif Require Export StructSpec PrefixCount.
From iris.proofmode Require Import tactics.
From iris.prelude Require Import options.
Open Scope Z_scope.
Open Scope prog_scope.

Local Arguments Z.pow : simpl never.
Local Arguments Z.mul : simpl never.
Local Arguments Z.add : simpl never.
Local Arguments u64 : simpl never.
Local Arguments bool_decide : simpl never.

(** ** Sizes *)
Lemma sum_sz_snd B : sum_sz B = sum_list_Z (List.map snd B).
Proof. induction B as [|x B IH]; [done|]. change (x.2 + sum_sz B = x.2 + sum_list_Z (List.map snd B)). by rewrite IH. Qed.
Lemma sum_list_Z_perm l l' : l ≡ₚ l' → sum_list_Z l = sum_list_Z l'.
Proof. unfold sum_list_Z. induction 1; cbn [foldr]; lia. Qed.
Lemma node_sizes_eq N : List.map snd (nblocks N) ≡ₚ node_sizes (rng N).
Proof.
  unfold nblocks, node_sizes. rewrite -rng_delete. unfold rng.
  rewrite (Permutation_map _ (map_to_list_fmap fst (delete [] N))). rewrite map_map.
  change (@fmap list _ ?A ?B) with (@List.map A B). rewrite map_map. done.
Qed.
Lemma concat_perm {A} (l l' : list (list A)) : l ≡ₚ l' → concat l ≡ₚ concat l'.
Proof.
  induction 1 as [|x l l' _ IH|x y l|l l' l'' _ IH1 _ IH2]; cbn [concat]; [done|by rewrite IH| |by rewrite IH1].
  rewrite !app_assoc. by rewrite (Permutation_app_comm y x).
Qed.
Lemma val_sizes_eq M : List.map snd (vblocks M) ≡ₚ all_val_sizes (vls M).
Proof.
  unfold vblocks, all_val_sizes, vls. rewrite concat_map. apply concat_perm.
  rewrite (Permutation_map _ (map_to_list_fmap fst M)).
  change (@fmap list _ ?A ?B) with (@List.map A B). rewrite !map_map. 
  rewrite (map_ext (λ x : bytes * vl, List.map snd (vblk x.2.1 x.2.2)) (λ x, val_sizes (prod_map id fst x).2)); [done|].
  intros [k [v o]]. cbn [fst snd prod_map]. unfold vblk. rewrite map_map. cbn [snd]. apply map_id.
Qed.
Lemma tblocks_bytes b M N x xn : sum_sz (tblocks b M N) = t_bytes (PT (vls M) (rng N) x xn).
Proof.
  unfold tblocks, t_bytes. cbn [t_map t_nodes]. change (sum_sz (?y :: ?l)) with (y.2 + sum_sz l). cbn [snd].
  rewrite sum_sz_app !sum_sz_snd (sum_list_Z_perm _ _ (node_sizes_eq N)) (sum_list_Z_perm _ _ (val_sizes_eq M)). lia.
Qed.
Lemma node_sizes_in (N : ndmap) k r o : N !! k = Some (r, o) → k ≠ [] → node_bytes r ∈ node_sizes (rng N).
Proof.
  intros Hk Hne. rewrite -node_sizes_eq. unfold nblocks. rewrite map_map. apply elem_of_list_In, in_map_iff.
  exists (k, (r, o)). split; [done|]. apply elem_of_list_In, elem_of_map_to_list. by rewrite lookup_delete_ne.
Qed.
Lemma val_sizes_in (M : vlmap) k v o n : M !! k = Some (v, o) → n ∈ val_sizes v → n ∈ all_val_sizes (vls M).
Proof.
  intros Hk Hn. unfold all_val_sizes. apply elem_of_list_In, in_concat. exists (val_sizes v).
  split; [|by apply elem_of_list_In]. apply in_map_iff. exists (k, v). split; [done|].
  apply elem_of_list_In, elem_of_map_to_list. by rewrite vls_lookup Hk.
Qed.
Lemma vls_size M : size (vls M) = size M.
Proof. unfold vls. apply map_size_fmap. Qed.
Lemma rng_size N : size (rng N) = size N.
Proof. unfold rng. apply map_size_fmap. Qed.

(** The counts below a prefix. *)
Lemma filter_list {A} (P : bytes * A → Prop) `{!∀ x, Decision (P x)} (m : gmap bytes A) :
  map_to_list (filter P m) ≡ₚ filter P (map_to_list m).
Proof.
  apply NoDup_Permutation; [apply NoDup_map_to_list|apply NoDup_filter, NoDup_map_to_list|].
  intros [k x]. rewrite elem_of_map_to_list map_filter_lookup_Some elem_of_list_filter elem_of_map_to_list. tauto.
Qed.
Lemma wsum_filter {A} (g : A → Z) (m : gmap bytes A) p :
  wsum (List.map (λ x, (x.1, g x.2)) (map_to_list m)) p =
  sum_list_Z (List.map (λ x, g x.2) (map_to_list (filter (λ x, p `prefix_of` x.1) m))).
Proof.
  rewrite (sum_list_Z_perm _ _ (Permutation_map _ (filter_list (λ x, p `prefix_of` x.1) m))). unfold wsum. rewrite map_map. cbn [fst snd].
  induction (map_to_list m) as [|[k x] l IH]; [done|]. cbn [List.map fst snd]. rewrite sum_cons IH.
  rewrite filter_cons. cbn [fst]. destruct (decide (p `prefix_of` k)) as [H|H].
  - rewrite (bool_decide_eq_true_2 (p `prefix_of` k)) //.
  - rewrite (bool_decide_eq_false_2 (p `prefix_of` k)) //.
Qed.
Lemma wsum_perm L L' q : L ≡ₚ L' → wsum L q = wsum L' q.
Proof. intros H. unfold wsum. induction H; cbn [List.map]; rewrite ?sum_cons; lia. Qed.
Lemma nwts_rng f N : nwts f N ≡ₚ List.map (λ x, (x.1, f x.2)) (map_to_list (rng N)).
Proof.
  unfold nwts, rng. rewrite (Permutation_map _ (map_to_list_fmap fst N)).
  change (@fmap list _ ?A ?B) with (@List.map A B). rewrite map_map. done.
Qed.
Lemma vwts_vls f M : vwts f M ≡ₚ List.map (λ x, (x.1, f x.2)) (map_to_list (vls M)).
Proof.
  unfold vwts, vls. rewrite (Permutation_map _ (map_to_list_fmap fst M)).
  change (@fmap list _ ?A ?B) with (@List.map A B). rewrite map_map. done.
Qed.
Lemma sum_vsize (l : list (bytes * pval)) :
  sum_list_Z (List.map (λ x, vsize x.2) l) = sum_list_Z (concat (List.map (λ x, val_sizes x.2) l)).
Proof. induction l as [|x l IH]; [done|]. cbn [List.map concat]. by rewrite sum_cons sum_app IH. Qed.
Lemma nodes_sum_eq N M x xn p : nodes_sum N M p = t_nodes_for (PT (vls M) (rng N) x xn) p.
Proof.
  unfold nodes_sum, t_nodes_for. cbn [t_nodes]. rewrite wsum_app (wsum_perm _ _ _ (nwts_rng _ N)) (wsum_perm _ _ _ (vwts_vls _ M)).
  rewrite (wsum_filter (λ _, 1)) (wsum_filter (λ _, 0)) !sum_map_const. unfold size, map_size. lia.
Qed.
Lemma bytes_sum_eq N M x xn p :
  (if bool_decide (p ≠ []) && t_exists (PT (vls M) (rng N) x xn) p then 8 else 0) + bytes_sum N M p =
  t_bytes_for (PT (vls M) (rng N) x xn) p.
Proof.
  unfold bytes_sum, t_bytes_for. cbn [t_nodes t_map]. rewrite wsum_app (wsum_perm _ _ _ (nwts_rng _ N)) (wsum_perm _ _ _ (vwts_vls _ M)).
  rewrite (wsum_filter node_bytes) (wsum_filter vsize) sum_vsize. unfold all_val_sizes. lia.
Qed.
Lemma wsum_bound L p : (∀ k w, (k, w) ∈ L → 0 <= w) → 0 <= wsum L p <= wsum L [].
Proof.
  unfold wsum. induction L as [|[k w] L IH]; intros H; [cbn; lia|]. cbn [List.map fst snd]. rewrite !sum_cons.
  assert (0 <= w) by (apply (H k); left).
  assert (∀ k w, (k, w) ∈ L → 0 <= w) as HL by (intros k' w' Hin; apply (H k'); by right). specialize (IH HL).
  destruct (bool_decide_reflect ([] `prefix_of` k)) as [_|Hn]; [|destruct Hn; apply prefix_nil].
  destruct (bool_decide (p `prefix_of` k)); lia.
Qed.
Lemma nodes_sum_bound N M p : 0 <= nodes_sum N M p <= Z.of_nat (size N).
Proof.
  unfold nodes_sum. destruct (wsum_bound (nwts (λ _, 1) N ++ vwts (λ _, 0) M) p) as [H1 H2].
  { intros k w [Hin|Hin]%elem_of_app; [apply elem_of_nwts in Hin as (? & ? & _ & ->)|apply elem_of_vwts in Hin as (? & ? & _ & ->)]; lia. }
  split; [done|]. etrans; [exact H2|]. change (nodes_sum N M [] <= Z.of_nat (size N)). rewrite (nodes_sum_eq N M 0 0 []). unfold t_nodes_for. cbn [t_nodes].
  apply Nat2Z.inj_le. rewrite -(rng_size N). unfold size, map_size. rewrite (Permutation_length (filter_list _ _)). apply filter_length.
Qed.
Lemma vsize_nonneg v : 0 <= vsize v.
Proof. unfold vsize. destruct v; cbn [val_sizes]; repeat case_match; cbn; unfold dlen; lia. Qed.
Lemma bytes_sum_bound b M N p : tok b M N → 0 <= bytes_sum N M p <= sum_sz (tblocks b M N).
Proof.
  intros HT. unfold bytes_sum. destruct (wsum_bound (nwts node_bytes N ++ vwts vsize M) p) as [H1 H2].
  { intros k w [Hin|Hin]%elem_of_app; [apply elem_of_nwts in Hin as (r & o & Hk & ->)|apply elem_of_vwts in Hin as (? & ? & _ & ->); apply vsize_nonneg].
    assert (rng N !! k = Some r) as Hrq by (apply rng_lookup; eauto).
    destruct (wf_range _ _ (tk_wf _ _ _ HT) _ _ Hrq) as (Hr1 & Hr2 & Hr3). unfold node_bytes. lia. }
  split; [done|]. etrans; [exact H2|]. rewrite (tblocks_bytes b M N 0 0) wsum_app (wsum_perm _ _ _ (nwts_rng _ N)) (wsum_perm _ _ _ (vwts_vls _ M)).
  rewrite (wsum_filter node_bytes) (wsum_filter vsize) sum_vsize. unfold t_bytes, all_val_sizes, node_sizes. cbn [t_nodes t_map].
  assert (∀ A (m : gmap bytes A), filter (λ x, [] `prefix_of` x.1) m = m) as Hid.
  { intros A m. apply map_filter_id. intros. apply prefix_nil. }
  rewrite !Hid. assert (rng N !! [] = Some (0, 255)) as Hr by (apply rng_lookup; exists (b + 16); apply (tk_root _ _ _ HT)).
  rewrite -{1}(insert_delete (rng N) [] (0, 255)); [|done].
  rewrite (sum_list_Z_perm _ _ (Permutation_map _ (map_to_list_insert _ _ _ (lookup_delete _ _)))). cbn [List.map fst snd].
  rewrite sum_cons. change (node_bytes (0, 255)) with 2064. lia.
Qed.

Lemma reach_space N k : ∀ p, 0 <= space (reach_sizes N p k).
Proof.
  intros p. apply space_nonneg'. revert p. induction k as [|c k IH]; intros p; cbn [reach_sizes]; [constructor|].
  destruct (bool_decide_reflect (is_Some (N !! (p ++ [c])))); [apply IH|]. apply Forall_app. split; [|apply chain_sizes_nonneg].
  destruct (N !! p) as [r|]; [|constructor]. destruct ((r.1 <=? c) && (c <=? r.2)); [constructor|].
  constructor; [|constructor]. unfold node_bytes, widen. cbn [fst snd]. lia.
Qed.

Section main.
  Context `{ne : NodeErr}.
  Context {RR : Rep} {PR : PoolRep} {al : allocator} (S : alloc_spec al) (cf : cfg) (F : nat).
  Context (HF : 2 ^ 62 <= Z.of_nat F).
  Notation ainv := (ainv S cf).
  Notation tst := (tst S cf).
  Notation lk := (lk S).

  Definition tree_post o t y Bf s (Φ : tresult → hPropI) (Ψ : exn → hPropI) : hPropI :=
    ((∀ r t' B' s', ⌜t_ideal t y = inl (r, t') ∧ ext cf (space (t_requests t y)) (lk (t_frees t y)) s s'⌝ -∗
        ainv (B' ++ Bf) s' -∗ t_rep o t' B' -∗ Φ r) ∧
     (∀ e t' B' s', ⌜(t_ideal t y = inr e ∨
          (e = RuntimeError ∧ t_requests t y ≠ [] ∧ ¬ grow_allowed cf (s_m s + space (t_requests t y)))) ∧
          t_left t y e t' ∧
          ext cf (space (t_requests t y)) (e = RuntimeError ∧ lk (t_frees t y)) s s'⌝ -∗
        ainv (B' ++ Bf) s' -∗ t_rep o t' B' -∗ Ψ e))%I.

  Lemma t_rep_intro o M N x : tinv o M N x ⊢ t_rep o (PT (vls M) (rng N) x node_err) (tblocks o M N).
  Proof using. iIntros "T". iExists M, N. by iFrame. Qed.

  (** A query. *)
  Lemma tree_query o M N x Bf s y r Φ Ψ : t_ideal (PT (vls M) (rng N) x node_err) y = inl (r, PT (vls M) (rng N) x node_err) →
    0 <= space (t_requests (PT (vls M) (rng N) x node_err) y) →
    tree_post o (PT (vls M) (rng N) x node_err) y Bf s Φ Ψ -∗ tst o M N x Bf s -∗ Φ r.
  Proof using.
    iIntros (Hi Hr) "[W _] [H T]". iApply ("W" with "[] H"); [|by iApply t_rep_intro].
    iPureIntro. split; [done|]. eapply ext_weaken; [apply ext_refl|done|done].
  Qed.
  Lemma tree_raise o M N x Bf s y e Φ Ψ : t_ideal (PT (vls M) (rng N) x node_err) y = inr e → e = OutOfRange →
    0 <= space (t_requests (PT (vls M) (rng N) x node_err) y) →
    tree_post o (PT (vls M) (rng N) x node_err) y Bf s Φ Ψ -∗ tst o M N x Bf s -∗ Ψ e.
  Proof using.
    iIntros (Hi -> Hr) "[_ W] [H T]". iApply ("W" $! _ (PT (vls M) (rng N) x node_err) with "[] H"); [|by iApply t_rep_intro].
    iPureIntro. split; [by left|]. split; [by destruct y|]. eapply ext_weaken; [apply ext_refl|done|done].
  Qed.

  Lemma tree_insert o M N x Bf s k v ck Φ Ψ :
    bytes_ok k → pval_ok v → Forall (as_size_ok S) (t_requests (PT (vls M) (rng N) x node_err) (TInsert k v ck)) →
    tst o M N x Bf s -∗ tree_post o (PT (vls M) (rng N) x node_err) (TInsert k v ck) Bf s Φ Ψ -∗
    wp (b <- t_insert al F o k v ck ;; Ret (TBool b)) Φ Ψ.
  Proof using.
    iIntros (Hk Hv Hsz) "T W". iApply wp_bind. iApply (wp_t_insert with "T"); [done|done| |].
    { intros Hh. cbn [t_requests t_map] in Hsz. by rewrite Hh in Hsz. }
    iSplit.
    - iIntros (Hh) "T". iApply wp_ret. iApply (tree_query with "W T").
      + cbn [t_ideal t_map]. by rewrite Hh.
      + cbn [t_requests t_map]. by rewrite Hh.
    - iIntros (Hh). iSplit.
      + iIntros (oo N' s' [HN He]) "[H T]". iApply wp_ret. iDestruct "W" as "[W _]".
        iApply ("W" with "[] H"); [|by iApply t_rep_intro]. iPureIntro. cbn [t_ideal t_requests t_frees t_map t_nodes]. rewrite Hh.
        split; [|done]. do 2 f_equal. unfold t_put. cbn [t_map t_nodes t_extra t_nerr]. by rewrite vls_insert HN.
      + iIntros (M' N' s' (HM & HN & He & Hne & Hg)) "[H T]". iDestruct "W" as "[_ W]".
        iApply ("W" with "[] H"); [|by iApply t_rep_intro]. iPureIntro. cbn [t_ideal t_requests t_frees t_map t_nodes]. rewrite Hh.
        split; [right; done|]. split.
        * cbn [t_left t_map t_nodes t_extra t_nerr]. split; [done|]. split; [done|]. split; [|done]. destruct HM as [->| ->]; [by left|]. right. by rewrite vls_delete.
        * eapply ext_weaken; [exact He|done|done].
  Qed.

  Lemma tree_erase o M N x Bf s k ck Φ Ψ :
    tst o M N x Bf s -∗ tree_post o (PT (vls M) (rng N) x node_err) (TErase k ck) Bf s Φ Ψ -∗
    wp (b <- t_erase_key al F o k ck ;; Ret (TBool b)) Φ Ψ.
  Proof using.
    iIntros "T W". iApply wp_bind. iApply (wp_t_erase with "T"). iSplit.
    - iIntros (Hh) "T". iApply wp_ret. iApply (tree_query with "W T"); [|done].
      cbn [t_ideal t_map]. destruct (t_holds (vls M) ck) eqn:Eh; [|done]. destruct Hh as [?|[H1 H2]]; [done|].
      assert (t_exists (PT (vls M) (rng N) x node_err) k = false) as E.
      { unfold t_exists. cbn [t_map t_nodes]. apply vls_None in H1. apply rng_None in H2. rewrite H1 H2. done. }
      unfold t_erase. by rewrite E.
    - iIntros ([Hh Hin]). iIntros (N' s' [HN He]) "[H T]". iApply wp_ret. iDestruct "W" as "[W _]".
      iApply ("W" with "[] H"); [|by iApply t_rep_intro]. iPureIntro. cbn [t_ideal t_requests t_frees t_map t_nodes]. rewrite Hh.
      assert (t_exists (PT (vls M) (rng N) x node_err) k = true) as E.
      { unfold t_exists. cbn [t_map t_nodes]. apply orb_true_iff. rewrite !bool_decide_eq_true.
        by rewrite vls_Some rng_Some. }
      unfold t_erase. rewrite E. cbn [t_map t_nodes t_extra t_nerr]. rewrite HN vls_delete. done.
  Qed.

  Lemma tree_incr o M N x Bf s k delta Φ Ψ :
    bytes_ok k → Forall (as_size_ok S) (t_requests (PT (vls M) (rng N) x node_err) (TIncr k delta)) →
    tst o M N x Bf s -∗ tree_post o (PT (vls M) (rng N) x node_err) (TIncr k delta) Bf s Φ Ψ -∗
    wp (z <- t_incr_int al o k delta ;; Ret (TNum z)) Φ Ψ.
  Proof using F.
    iIntros (Hk Hsz) "T W". iApply wp_bind. iApply (wp_t_incr_int with "T"); [done|done|]. iSplit; [|iSplit].
    - iIntros (v oo N' s' (Hv & HN & He)) "[H T]". unfold new_int in *.
      destruct (t_incr (vls M) k delta) as [z|] eqn:Ez; [|done]. cbn in Hv. simplify_eq.
      iApply wp_ret. iDestruct "W" as "[W _]".
      iApply ("W" with "[] H"); [|by iApply t_rep_intro]. iPureIntro. cbn [t_ideal t_requests t_frees t_map t_nodes].
      rewrite Ez. split; [|done]. do 2 f_equal. unfold t_put. cbn [t_map t_nodes t_extra t_nerr stored]. by rewrite vls_insert HN.
    - iIntros (N' s' (Hv & HN & He)) "[H T]". unfold new_int in *.
      destruct (t_incr (vls M) k delta) as [z|] eqn:Ez; [done|]. iDestruct "W" as "[_ W]".
      iApply ("W" with "[] H"); [|by iApply t_rep_intro]. iPureIntro. cbn [t_ideal t_requests t_frees t_map t_nodes].
      rewrite Ez. split; [by left|]. split; [cbn [t_left]; by rewrite HN|]. eapply ext_weaken; [exact He| |done].
      rewrite space_app. cbn. pose proof (reach_space (rng N) k []). lia.
    - iIntros (x' N' s' (Hx & HN & He & Hne & Hg)) "[H T]". iDestruct "W" as "[_ W]".
      iApply ("W" with "[] H"); [|by iApply t_rep_intro]. iPureIntro.
      split; [right; done|]. split.
      + cbn [t_left t_map t_nodes t_extra t_nerr]. split; [done|]. split; [done|]. split; [done|]. destruct Hx as [->|(_ & Hx & ->)]; [by left|].
        right. split; [|done]. by apply vls_None.
      + eapply ext_weaken; [exact He|done|done].
  Qed.

  Lemma tree_incr_dbl o M N x Bf s k fadd delta Φ Ψ :
    bytes_ok k → is_u64 delta → (vls M !! k = None → d_zero delta = false) →
    Forall (as_size_ok S) (t_requests (PT (vls M) (rng N) x node_err) (TIncrDouble k fadd delta)) →
    tst o M N x Bf s -∗ tree_post o (PT (vls M) (rng N) x node_err) (TIncrDouble k fadd delta) Bf s Φ Ψ -∗
    wp (b <- t_incr_dbl al fadd o k delta ;; Ret (TVal (PDouble b))) Φ Ψ.
  Proof using F.
    iIntros (Hk Hd Hh Hsz) "T W". iApply wp_bind. iApply (wp_t_incr_dbl with "T"); [done|done| |done|].
    { intros H0. apply Hh. by apply vls_None. }
    iSplit; [|iSplit].
    - iIntros (v oo N' s' (Hv & HN & He)) "[H T]". unfold new_double in *.
      destruct (t_incr_double fadd (vls M) k delta) as [z|] eqn:Ez; [|done]. cbn [fmap option_fmap option_map] in Hv. injection Hv as <-.
      iApply wp_ret. iDestruct "W" as "[W _]".
      iApply ("W" with "[] H"); [|by iApply t_rep_intro]. iPureIntro. cbn [t_ideal t_requests t_frees t_map t_nodes].
      rewrite Ez. split; [|done]. do 2 f_equal. unfold t_put. cbn [t_map t_nodes t_extra t_nerr]. by rewrite vls_insert HN.
    - iIntros (N' s' (Hv & HN & He)) "[H T]". unfold new_double in *.
      destruct (t_incr_double fadd (vls M) k delta) as [z|] eqn:Ez; [done|]. iDestruct "W" as "[_ W]".
      iApply ("W" with "[] H"); [|by iApply t_rep_intro]. iPureIntro. cbn [t_ideal t_requests t_frees t_map t_nodes].
      rewrite Ez. split; [by left|]. split; [cbn [t_left]; by rewrite HN|]. eapply ext_weaken; [exact He| |done].
      rewrite space_app. cbn. pose proof (reach_space (rng N) k []). lia.
    - iIntros (x' N' s' (Hx & HN & He & Hne & Hg)) "[H T]". iDestruct "W" as "[_ W]".
      iApply ("W" with "[] H"); [|by iApply t_rep_intro]. iPureIntro.
      split; [right; done|]. split.
      + cbn [t_left t_map t_nodes t_extra t_nerr]. split; [done|]. split; [done|]. split; [done|]. by destruct Hx as [->|(? & _)].
      + eapply ext_weaken; [exact He|done|done].
  Qed.

  Lemma tree_clear o M N x Bf s Φ Ψ :
    tst o M N x Bf s -∗ tree_post o (PT (vls M) (rng N) x node_err) TClear Bf s Φ Ψ -∗
    wp (t_clear al F o ;; Ret TUnit) Φ Ψ.
  Proof using HF.
    iIntros "T W". iDestruct (tst_facts with "T") as %Hb. iDestruct (tst_tok with "T") as %HT. iApply wp_bind.
    iApply (wp_t_clear _ _ _ (lk (t_frees (PT (vls M) (rng N) x node_err) TClear)) with "T").
    { cbn [t_frees t_map t_nodes]. split.
      - intros k r oo Hk Hne Hl. exists (node_bytes r). split; [|done]. apply elem_of_app. left. by eapply node_sizes_in.
      - intros k v oo Hk (n & Hn & Hl). exists n. split; [|done]. apply elem_of_app. right. by eapply val_sizes_in. }
    { by eapply deep_bound. }
    iIntros (s' He) "[H T]". iApply wp_ret. iDestruct "W" as "[W _]".
    iApply ("W" $! _ _ with "[] H"); [|by iApply t_rep_intro]. iPureIntro. cbn [t_ideal]. split; [|done].
    do 2 f_equal. unfold t_cleared, vls, rng. cbn [t_extra t_nerr]. by rewrite fmap_empty map_fmap_singleton.
  Qed.

End main.

Section whole.
  Context {RR : Rep} {PR : PoolRep} {al : allocator} (S : alloc_spec al) (cf : cfg) (F : nat).
  Context (HF : 2 ^ 62 <= Z.of_nat F).
  Notation ainv := (ainv S cf).
  Notation tst := (tst S cf).
  Notation tree_post := (tree_post S cf).

  Lemma wp_tree o t y B Bf s Φ Ψ :
    t_args_ok y → Forall (as_size_ok S) (t_requests t y) → t_handled t y →
    ainv (B ++ Bf) s -∗ t_rep o t B -∗ tree_post o t y Bf s Φ Ψ -∗ wp (tree_prog al F o y) Φ Ψ.
  Proof using HF.
    iIntros (Ha Hsz Hh) "H (%M & %N & %Hp & T) W". destruct t as [m n x ner]. cbn [t_map t_nodes t_extra t_nerr] in *.
    destruct Hp as (-> & -> & HB).
    iAssert (PrefixMake.tst (ne:=ner) S cf o M N x Bf s) with "[H T]" as "T".
    { iFrame "T". iApply (ainv_perm with "H"). by rewrite HB. }
    destruct y as [k v ck|k ck|k delta|k fadd delta| |k|k|k|cur| | | |k|k|k|p|p]; cbn [tree_prog].
    - destruct Ha. by iApply (tree_insert with "T W").
    - by iApply (tree_erase with "T W").
    - by iApply (tree_incr with "T W").
    - destruct Ha. by iApply (tree_incr_dbl with "T W").
    - by iApply (tree_clear with "T W").
    - iApply wp_bind. iApply (wp_t_has with "T"). iIntros "T". iApply wp_ret. by iApply (tree_query with "W T").
    - iApply wp_bind. iApply (wp_t_type_at with "T"). iIntros "T". iApply wp_ret. by iApply (tree_query with "W T").
    - iApply wp_bind. iApply (wp_t_at with "T"). iIntros "T". destruct (vls M !! k) as [v|] eqn:E.
      + iApply wp_ret. iApply (tree_query with "W T"); [|done]. cbn [t_ideal t_map]. by rewrite E.
      + iApply (tree_raise with "W T"); [|done|done]. cbn [t_ideal t_map]. by rewrite E.
    - iApply wp_bind. iApply (wp_t_next _ _ F HF with "T").
      { intros k ->. exact Hh. }
      iIntros "T". destruct (t_next (vls M) cur) as [[k v]|] eqn:E.
      + iApply wp_ret. iApply (tree_query with "W T"); [|done]. cbn [t_ideal t_map]. by rewrite E.
      + iApply (tree_raise with "W T"); [|done|done]. cbn [t_ideal t_map]. by rewrite E.
    - iApply wp_bind. iApply (wp_t_iterate _ _ F HF with "T"). iIntros "T". iApply wp_ret. by iApply (tree_query with "W T").
    - iApply wp_bind. iApply (wp_t_size with "T"). iIntros "T". iApply wp_ret. iApply (tree_query with "W T"); [|done].
      cbn [t_ideal t_map t_extra]. by rewrite vls_size.
    - iApply wp_bind. iApply (wp_t_node_count with "T"). iIntros "T". iApply wp_ret. iApply (tree_query with "W T"); [|done].
      cbn [t_ideal t_nodes t_nerr]. by rewrite rng_size.
    - iApply wp_bind. iApply (wp_t_find_item with "T"). iIntros "T". iApply wp_ret. by iApply (tree_query with "W T").
    - iApply wp_bind. iApply (wp_t_lower_bound _ _ F HF with "T"); [exact Hh|]. iIntros "T". iApply wp_ret. by iApply (tree_query with "W T").
    - iApply wp_bind. iApply (wp_t_upper_bound _ _ F HF with "T"); [exact Hh|]. iIntros "T". iApply wp_ret. by iApply (tree_query with "W T").
    - iApply wp_bind. iDestruct (tst_facts with "T") as %Hb. iDestruct (tst_tok with "T") as %HT.
      iApply (wp_t_nodes_for _ _ F HF with "T"). iIntros "T". iApply wp_ret. iApply (tree_query with "W T"); [|done].
      cbn [t_ideal]. rewrite -(nodes_sum_eq N M x ner). rewrite u64_small //.
      pose proof (nodes_sum_bound N M p). pose proof (node_bound o M N HT Hb). lia.
    - iApply wp_bind. iDestruct (tst_facts with "T") as %Hb. iDestruct (tst_tok with "T") as %HT.
      iApply (wp_t_bytes_for _ _ F HF with "T").
      { intros k v o' Hk Hp. destruct (map_Forall_lookup_1 _ _ k v Hh) as [H1 H2]; [by rewrite vls_lookup Hk|done|].
        split; [done|]. intros Hn. apply H2. by apply rng_Some. }
      iIntros "T". iApply wp_ret. iApply (tree_query with "W T"); [|done].
      cbn [t_ideal]. rewrite -(bytes_sum_eq N M x ner). rewrite u64_small //.
      pose proof (bytes_sum_bound o M N p HT). destruct (bool_decide (p ≠ []) && t_exists _ p); lia.
  Qed.

  Lemma t_rep_wf o t B : t_rep o t B ⊢ ⌜t_wf (t_map t) (t_nodes t)⌝.
  Proof using.
    iIntros "(%M & %N & %Hp & %HT & _)". destruct t as [m n x ner]. cbn [t_map t_nodes] in *. destruct Hp as (-> & -> & _).
    iPureIntro. destruct (tk_wf _ _ _ HT) as [H1 H2 H3 H4]. split; [done|done|done|].
    intros p c0 Hc. apply H4. by apply vls_Some.
  Qed.
  Lemma t_rep_bytes o t B : t_rep o t B ⊢ ⌜sum_sz B = t_bytes t⌝.
  Proof using.
    iIntros "(%M & %N & %Hp & %HT & _)". destruct t as [m n x ner]. cbn [t_map t_nodes] in *. destruct Hp as (-> & -> & HB).
    iPureIntro. rewrite (sum_sz_perm _ _ HB). apply tblocks_bytes.
  Qed.
  Lemma t_rep_base o t B : t_rep o t B ⊢ ⌜(o, 2080) ∈ B⌝.
  Proof using.
    iIntros "(%M & %N & %Hp & %HT & _)". destruct Hp as (_ & _ & HB). iPureIntro. rewrite HB. by left.
  Qed.
  Lemma root_only_rep o : tinv (H:=0) o ∅ (root_only o) 0 ⊢ t_rep o t_new (tblocks o ∅ (root_only o)).
  Proof using.
    iIntros "T". iExists ∅, (root_only o). iFrame. iPureIntro. unfold vls, rng, root_only.
    rewrite fmap_empty. split; [done|]. split; [|done]. unfold t_new. cbn [t_nodes]. exact (eq_sym (map_fmap_singleton fst [] (0, 255, o + 16))).
  Qed.
End whole.
