(** * PrefixTree: creation, lookups, counts. *)
From Verif Require Export PrefixClear.
From iris.proofmode Require Import tactics.
From iris.prelude Require Import options.
Open Scope Z_scope.
Open Scope prog_scope.

Local Arguments Z.pow : simpl never.
Local Arguments Z.mul : simpl never.
Local Arguments Z.add : simpl never.
Local Arguments u64 : simpl never.
Local Opaque t_init_node t_extend t_chain_nodes t_walk t_find t_lookup t_allowed t_make t_items_add t_nodes_add t_zero.

Notation root_only b := ({[ [] := (0, 255, b + 16) ]} : ndmap) (only parsing).
Lemma tok_new b : b mod 8 = 0 → 0 < b → b + 16 <= 2 ^ 62 → tok b ∅ (root_only b).
Proof.
  intros Hb1 Hb2 Hb3. split; [split| | |].
  - unfold rng. by rewrite map_fmap_singleton lookup_singleton.
  - intros p r. unfold rng. rewrite map_fmap_singleton lookup_singleton_Some. intros [_ <-]. simpl. lia.
  - intros p c [x Hx]. unfold rng in Hx. rewrite map_fmap_singleton in Hx. apply lookup_singleton_Some in Hx as [Hx _].
    by destruct p.
  - intros p c [x Hx]. by rewrite lookup_empty in Hx.
  - by rewrite lookup_singleton.
  - intros p r o H. apply lookup_singleton_Some in H as [_ [= <- <-]]. split; [|lia].
    rewrite -Z.add_mod_idemp_l; [|lia]. by rewrite Hb1.
  - intros k v o H. by rewrite lookup_empty in H.
Qed.
Lemma tvals_empty : ⊢ tvals ∅.
Proof. unfold tvals. by rewrite big_sepM_empty. Qed.

Section read.
  Context `{ne : NodeErr}.
  Context {RR : Rep} {PR : PoolRep} {al : allocator} (S : alloc_spec al) (cf : cfg) (F : nat).
  Notation ainv := (ainv S cf).
  Notation tst := (tst S cf).
  Notation lk := (lk S).

  Lemma wp_t_create Bf s Φ Ψ : node_err = 0 → as_size_ok S 2080 →
    ainv Bf s -∗
    ((∀ b s', ⌜ext cf (room 2080) False s s' ∧ 320 < b <= 2 ^ 62⌝ -∗ tst b ∅ (root_only b) 0 Bf s' -∗ Φ b) ∧
     (⌜¬ grow_allowed cf (s_m s + room 2080)⌝ -∗ ainv Bf s -∗ Ψ RuntimeError)) -∗
    wp (t_create al) Φ Ψ.
  Proof using.
    iIntros (Hne Hsz) "H W". unfold t_create. iApply (wp_allocate with "H"); [done|]. iSplit.
    2:{ iDestruct "W" as "[_ W]". iIntros (Hg) "H". by iApply ("W" with "[//] H"). }
    iIntros (b s' (He & Hb1 & Hb2 & Hb3)) "H R". iDestruct "W" as "[W _]".
    iDestruct (raw_words1 with "R") as "[[%v W0] R]"; [lia|].
    iDestruct (raw_words1 with "R") as "[[%v' W8] R]"; [lia|].
    replace (b + 8 + 8) with (b + 16) by lia.
    iDestruct (raw_split _ (b + 16 + 16) with "R") as "[R1 R]"; [lia|]. wpn.
    iApply (wp_store64 with "W0"); [done|]. iIntros "W0". wpn.
    iApply (wp_store64 with "W8"); [done|]. iIntros "W8". wpn.
    iApply (wp_t_init_node with "R1"); [done|done|done|done|]. iIntros "P1 P2 P3 P4 Wv". wpn.
    replace (b + 16 + 16) with (b + 32) by lia. 
    iApply (wp_t_zero 256 _ (b + 2080) with "R"); [change (Z.of_nat 256) with 256; lia|]. iIntros "Ws". wpn. iApply wp_ret.
    iApply ("W" $! b s'). { iPureIntro. split; [done|lia]. }
    iSplitL "H".
    { unfold tblocks, nblocks, vblocks. rewrite map_to_list_empty delete_singleton map_to_list_empty. done. }
    iSplit; [iPureIntro; apply tok_new; lia|]. rewrite map_size_empty map_size_singleton Hne. iFrame "W0 W8".
    iSplitL; [|iApply tvals_empty]. unfold tnodes. rewrite big_sepM_singleton. unfold node_at. cbn [fst snd].
    unfold lastc, vword. cbn [last default]. rewrite lookup_empty. iFrame "P1 P2 P3 P4 Wv".
    rewrite (map_zeros (λ c, sword ∅ _ ([] ++ [c]))).
    - unfold chars. rewrite seqZ_length. cbn [fst snd]. change (Z.to_nat (255 - 0 + 1)) with 256%nat.
      by replace (b + 16 + 16) with (b + 32) by lia.
    - intros d _. apply sword_none; [apply lookup_empty|]. by rewrite lookup_singleton_ne.
  Qed.
  Local Opaque t_create.
  Lemma wp_t_open_base `{!BaseFree S} Bf s Φ Ψ : node_err = 0 → as_size_ok S 2080 → is_u64 (s_bo s) →
    ainv Bf s -∗
    ((⌜s_bo s ≠ 0⌝ -∗ ainv Bf s -∗ Φ (s_bo s)) ∧
     (∀ b s', ⌜s_bo s = 0 ∧ s_bo s' = b ∧ ext cf (room 2080) False s (Ast (s_K s') 0 (s_m s') (s_e s')) ∧ 320 < b <= 2 ^ 62⌝ -∗
        tst b ∅ (root_only b) 0 Bf s' -∗ Φ b) ∧
     (⌜s_bo s = 0 ∧ ¬ grow_allowed cf (s_m s + room 2080)⌝ -∗ ainv Bf s -∗ Ψ RuntimeError)) -∗
    wp (t_open_base al) Φ Ψ.
  Proof using.
    iIntros (Hne Hsz Hbo) "H W". unfold t_open_base. iApply (wp_get_base with "H"). iIntros "H".
    case_bool_decide as Hb0.
    - iApply wp_bind. iApply (wp_t_create with "H"); [done|done|]. iSplit.
      2:{ iIntros (Hg) "H". iDestruct "W" as "[_ [_ W]]". iApply ("W" with "[] H"). done. }
      iIntros (o s' [Hext Ho]) "[H T]". iApply (wp_set_base with "H"); [unfold is_u64; lia|apply base_free|]. iIntros "H".
      iApply wp_ret. iDestruct "W" as "[_ [W _]]". iApply ("W" with "[] [$H $T]").
      iPureIntro. destruct Hext as (?&Hbo'&?&?). simpl. rewrite Hb0 in Hbo'.
      split; [done|]. split; [done|]. split; [|lia]. split; [simpl; lia|]. split; [done|]. done.
    - iApply wp_ret. iDestruct "W" as "[W _]". by iApply "W".
  Qed.

  (** ** exists, type, at *)
  Lemma wp_t_has b M N x R s k Φ Ψ :
    tst b M N x R s -∗ (tst b M N x R s -∗ Φ (t_exists (PT (vls M) (rng N) x node_err) k)) -∗ wp (t_has b k) Φ Ψ.
  Proof using.
    iIntros "T W". unfold t_has. iApply (wp_t_find with "T"). iIntros (slot Hs) "T". iApply wp_ret.
    iSpecialize ("W" with "T"). unfold t_exists. cbn [t_map t_nodes].
    destruct Hs as [(-> & Hne & _ & Hin)|(-> & HM & HN)].
    - rewrite (bool_decide_eq_true_2 (place N k ≠ 0)) //. destruct Hin as [H|H].
      + rewrite bool_decide_eq_true_2; [done|by apply vls_Some].
      + rewrite (bool_decide_eq_true_2 (is_Some (rng N !! k))); [by rewrite orb_true_r|by apply rng_Some].
    - rewrite (bool_decide_eq_false_2 (0 ≠ 0)); [|lia].
      rewrite !bool_decide_eq_false_2; [done| |].
      + rewrite rng_Some HN. by intros [? ?].
      + rewrite vls_Some HM. by intros [? ?].
  Qed.
  Lemma wp_t_type_at b M N x R s k Φ Ψ :
    tst b M N x R s -∗ (tst b M N x R s -∗ Φ (type_code (vls M !! k))) -∗ wp (t_type_at b k) Φ Ψ.
  Proof using.
    iIntros "T W". unfold t_type_at. iApply (wp_t_find with "T"). iIntros (slot Hs) "T". rewrite vls_lookup.
    iDestruct (tst_tok with "T") as %HT.
    destruct Hs as [(-> & Hne & Hpl & Hin)|(-> & HM & HN)].
    - rewrite (bool_decide_eq_false_2 (place N k = 0)) //.
      pose proof (yenc_type _ _ _ k HT) as Hty.
      iApply (wp_slot_load with "T"); [done|]. iIntros "T". rewrite Hty.
      destruct (M !! k) as [[v o]|] eqn:E; cbn [yenc fmap option_fmap option_map fst type_code].
      2:{ iApply wp_ret. by iApply "W". }
      destruct (tk_val _ _ _ HT _ _ _ E) as [Hv Ho].
      destruct v as [st|z|d|bb|]; cbn [venc_type].
      + destruct ((dlen st <? 8)), ((dlen st =? 0)); cbn [andb negb]; iApply wp_ret; by iApply "W".
      + destruct (small_int z); iApply wp_ret; by iApply "W".
      + iApply wp_ret; by iApply "W".
      + destruct bb; cbn [venc]; iApply wp_ret; iSpecialize ("W" with "T"); done.
      + cbn [venc]; iApply wp_ret; iSpecialize ("W" with "T"); done.
    - rewrite bool_decide_eq_true_2 //. rewrite HM. iApply wp_ret. by iApply "W".
  Qed.
  Lemma wp_t_at b M N x R s k Φ Ψ :
    tst b M N x R s -∗
    (tst b M N x R s -∗ match vls M !! k with Some v => Φ v | None => Ψ OutOfRange end) -∗ wp (t_at al b k) Φ Ψ.
  Proof using.
    iIntros "T W". unfold t_at. iApply (wp_t_find with "T"). iIntros (slot Hs) "T". rewrite vls_lookup.
    iDestruct (tst_tok with "T") as %HT.
    destruct Hs as [(-> & Hne & Hpl & Hin)|(-> & HM & HN)].
    - rewrite (bool_decide_eq_false_2 (place N k = 0)) //.
      pose proof (yenc_zero _ _ _ k HT) as Hz.
      iApply (wp_slot_load with "T"); [done|]. iIntros "T".
      destruct (M !! k) as [[v o]|] eqn:E; cbn [yenc fmap option_fmap option_map fst] in *.
      + rewrite bool_decide_eq_false_2; [|intros H; apply Hz in H; done]. iApply bind_ret_r.
        iApply (wp_t_lookup with "T"); [done|]. iIntros "T". iApply wp_ret. by iApply "W".
      + rewrite bool_decide_eq_true_2 //. iApply wp_throw. by iApply "W".
    - rewrite bool_decide_eq_true_2 //. rewrite HM. iApply wp_throw. by iApply "W".
  Qed.

  (** ** Counts *)
  Lemma wp_t_size b M N x R s Φ Ψ :
    tst b M N x R s -∗ (tst b M N x R s -∗ Φ (u64 (Z.of_nat (size M) + x))) -∗ wp (t_size b) Φ Ψ.
  Proof using.
    iIntros "[H (%HT & Wi & T)] W". unfold t_size. iApply (wp_load64_t with "Wi"). iIntros "Wi". iApply "W".
    iFrame "H". iSplit; [done|]. iFrame.
  Qed.
  Lemma wp_t_node_count b M N x R s Φ Ψ :
    tst b M N x R s -∗ (tst b M N x R s -∗ Φ (u64 (Z.of_nat (size N) + node_err))) -∗ wp (t_node_count b) Φ Ψ.
  Proof using.
    iIntros "[H (%HT & Wi & Wn & T)] W". unfold t_node_count. iApply (wp_load64_t with "Wn"). iIntros "Wn". iApply "W".
    iFrame "H". iSplit; [done|]. iFrame.
  Qed.

  (** ** Bounds *)
  Lemma tst_facts b M N x R s : tst b M N x R s ⊢ ⌜sum_sz (tblocks b M N) <= 2 ^ 62⌝.
  Proof using.
    iIntros "[H T]". iDestruct (ainv_facts with "H") as %[(H1 & _ & H3) H4]. iPureIntro.
    rewrite sum_sz_app app_length in H3. unfold size_ok in H4.
    assert (0 <= sum_sz R); [|lia]. apply sum_sz_nonneg. intros o n Hin. apply (H1 o n). apply elem_of_app. by right.
  Qed.
End read.

(** Lists with some elements for each node. *)
Definition gather {B} (f : bytes → Z * Z → list B) (N : ndmap) : list B :=
  concat (map (λ x : bytes * nd, f x.1 x.2.1) (map_to_list N)).
Lemma elem_of_gather {B} (f : bytes → Z * Z → list B) (N : ndmap) y : 
  y ∈ gather f N ↔ ∃ p r o, N !! p = Some (r, o) ∧ y ∈ f p r.
Proof.
  unfold gather. rewrite elem_of_list_In in_concat. split.
  - intros (l & Hl & Hy). apply in_map_iff in Hl as ([p [r o]] & <- & Hp). apply elem_of_list_In, elem_of_map_to_list in Hp.
    exists p, r, o. split; [done|]. by apply elem_of_list_In.
  - intros (p & r & o & Hp & Hy). exists (f p r). split; [|by apply elem_of_list_In].
    apply in_map_iff. exists (p, (r, o)). split; [done|]. by apply elem_of_list_In, elem_of_map_to_list.
Qed.
Lemma gather_length {B} (f : bytes → Z * Z → list B) (b : Z) (M : vlmap) (N : ndmap) : tok b M N →
  (∀ p r, r.1 <= r.2 → 8 * Z.of_nat (length (f p r)) <= node_bytes r) →
  sum_sz (tblocks b M N) <= 2 ^ 62 →
  8 * Z.of_nat (length (gather f N)) <= 2 ^ 62.
Proof.
  intros HT Hf Hs. unfold gather.
  assert (∀ l : list (bytes * nd), (∀ p r o, (p, (r, o)) ∈ l → r.1 <= r.2) →
    8 * Z.of_nat (length (concat (map (λ x : bytes * nd, f x.1 x.2.1) l))) <=
    sum_sz (map (λ x : bytes * nd, (x.2.2, node_bytes x.2.1)) l)) as Hl.
  { induction l as [|[p [r o]] l IH]; intros Hr; [done|]. simpl. rewrite app_length.
    specialize (IH ltac:(intros p' r' o' Hin; apply (Hr p' r' o'); by right)).
    specialize (Hf p r (Hr p r o ltac:(by left))). lia. }
  etrans; [apply Hl|].
  { intros p r o Hin. apply elem_of_map_to_list in Hin. apply (tok_rng _ _ _ _ _ _ HT Hin). }
  rewrite -{1}(insert_delete _ _ _ (tk_root _ _ _ HT)).
  rewrite (sum_sz_perm _ _ (Permutation_map _ (map_to_list_insert _ _ _ (lookup_delete _ _)))).
  unfold tblocks in Hs. rewrite sum_sz_cons sum_sz_app in Hs. unfold nblocks in Hs. cbn [List.map]. rewrite sum_sz_cons.
  cbn [fst snd] in *. change (node_bytes (0, 255)) with 2064. cbn [fst snd].
  assert (0 <= sum_sz (vblocks M)) as Hv; [|lia]. apply sum_sz_nonneg. intros o n Hin.
  unfold vblocks in Hin. apply elem_of_list_In, in_concat in Hin as (l & Hl1 & Hin). apply in_map_iff in Hl1 as ([k [v o']] & <- & _).
  unfold vblk in Hin. apply in_map_iff in Hin as (n' & [= -> ->] & Hin). cbn [fst snd] in Hin. clear -Hin.
  destruct v as [st|z|d|bb|]; cbn [val_sizes] in Hin; [destruct (dlen st <? 8)|destruct (small_int z)|destruct (d_zero d)|..];
    simpl in Hin; try tauto; try (destruct Hin as [<-|[]]; try lia; unfold dlen; lia).
Qed.

(** The keys and the depth are bounded. *)
Lemma node_prefix b M N p k : tok b M N → is_Some (N !! (p ++ k)) → is_Some (N !! p).
Proof.
  intros HT H. destruct (N !! p) eqn:E; [done|]. destruct (tok_no_node _ _ _ _ k HT E) as [E' _]. rewrite E' in H. by destruct H.
Qed.
Lemma key_places b M N : tok b M N →
  (size M <= length (gather (λ p r, p :: map (λ c, p ++ [c]) (chars r)) N))%nat.
Proof.
  intros HT. assert (size M = length (map fst (map_to_list M))) as ->.
  { rewrite map_length. by rewrite map_size_list || done. }
  apply (NoDup_incl_length (A := bytes)).
  - apply NoDup_ListNoDup. apply NoDup_fst_map_to_list.
  - intros k Hk. apply in_map_iff in Hk as ([k' x] & <- & Hin). apply elem_of_list_In, elem_of_map_to_list in Hin.
    apply elem_of_list_In, elem_of_gather. cbn [fst]. destruct k' as [|d k0] using rev_ind.
    + exists [], (0, 255), (b + 16). split; [apply (tk_root _ _ _ HT)|by left].
    + destruct (tok_key' _ _ _ _ _ HT ltac:(eauto)) as (r & o & Hp & Hc). exists k0, r, o. split; [done|]. right.
      apply elem_of_list_In, in_map_iff. exists d. split; [done|]. apply elem_of_list_In. unfold chars. apply elem_of_seqZ.
      unfold in_range in Hc. lia.
Qed.
Lemma deep_nodes b M N : tok b M N → deep N (length (gather (λ p r, [p]) N)).
Proof.
  intros HT k Hk.
  assert (length (map (λ i, take i k) (seq 0 (Datatypes.S (length k)))) = Datatypes.S (length k)) as El.
  { by rewrite map_length seq_length. }
  cut (Datatypes.S (length k) <= length (gather (λ p r, [p]) N))%nat; [lia|]. rewrite -El.
  apply (NoDup_incl_length (A := bytes)).
  - apply NoDup_ListNoDup. apply NoDup_fmap_2_strong; [|apply NoDup_seq].
    intros i j Hi Hj E. apply elem_of_seq in Hi, Hj. apply (f_equal length) in E. rewrite !take_length in E. lia.
  - intros q Hq. apply in_map_iff in Hq as (i & <- & _). apply elem_of_list_In, elem_of_gather.
    destruct (node_prefix b M N (take i k) (drop i k) HT) as [[r o] Hn]; [by rewrite take_drop|].
    exists (take i k), r, o. split; [done|]. by left.
Qed.
Lemma key_bound b M N : tok b M N → sum_sz (tblocks b M N) <= 2 ^ 62 → 8 * Z.of_nat (size M) <= 2 ^ 62.
Proof.
  intros HT Hs. pose proof (key_places b M N HT). pose proof (gather_length (λ p r, p :: map (λ c, p ++ [c]) (chars r)) b M N HT) as H1.
  cut (8 * Z.of_nat (length (gather (λ p r, p :: map (λ c, p ++ [c]) (chars r)) N)) <= 2 ^ 62); [lia|]. apply H1; [|done].
  intros p r Hr. cbn [length]. rewrite map_length. unfold chars. rewrite seqZ_length. unfold node_bytes. lia.
Qed.
Lemma deep_bound b M N (F : nat) : tok b M N → sum_sz (tblocks b M N) <= 2 ^ 62 → 2 ^ 62 <= Z.of_nat F → deep N (Datatypes.S F).
Proof.
  intros HT Hs HF k Hk. pose proof (deep_nodes b M N HT k Hk) as H0.
  cut (8 * Z.of_nat (length (gather (λ p r, [p]) N)) <= 2 ^ 62); [lia|]. eapply gather_length; [done| |done].
  intros p r Hr. cbn [length]. unfold node_bytes. lia.
Qed.
Lemma node_bound b M N : tok b M N → sum_sz (tblocks b M N) <= 2 ^ 62 → 8 * Z.of_nat (size N) <= 2 ^ 62.
Proof.
  intros HT Hs. assert (size N = length (gather (λ p r, [p]) N)) as ->.
  { unfold gather. rewrite -(map_length fst (map_to_list N)) || idtac. transitivity (length (map_to_list N)); [done|].
    induction (map_to_list N); simpl; [done|]. by f_equal. }
  eapply gather_length; [done| |done]. intros p r Hr. cbn [length]. unfold node_bytes. lia.
Qed.
