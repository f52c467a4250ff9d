(** * The properties of prefix trees, derived from the invariant. *)
From Verif Require Export TreeChecks StructMain.
From iris.proofmode Require Import tactics.
From iris.prelude Require Import options.
Open Scope Z_scope.
Set Default Proof Using "All".
Local Arguments Z.pow : simpl never.
Local Arguments Z.mul : simpl never.
Local Arguments Z.add : simpl never.

Lemma stored_same v : same_value v (stored v).
Proof.
  destruct v as [s|z|b|b|]; try by left. cbn [stored]. destruct (d_zero b) eqn:E; [|by left].
  right. by exists b.
Qed.
Lemma same_type v w : same_value v w → type_code (Some w) = type_code (Some v).
Proof. by intros [->|(b & -> & _ & ->)]. Qed.
Lemma holds_check m c : t_holds m c = true ↔ check_holds m c.
Proof.
  destruct c as [[k x]|]; [|done]. cbn [t_holds check_holds]. unfold meets, agrees.
  destruct (m !! k) as [v|] eqn:E.
  2: { destruct x; split; try done. by intros (b' & ? & _). }
  destruct v as [s|z|b|b|], x as [|s'|s'|z'|b'|b'|]; split; try done; try (by intros (? & ? & ?)).
  - intros H%bool_decide_eq_true. by subst.
  - intros [= ->]. by apply bool_decide_eq_true.
  - intros H%Z.eqb_eq. by subst.
  - intros [= ->]. by apply Z.eqb_eq.
  - intros H. by exists b.
  - intros (b0 & [= ->] & H). done.
  - intros H%eqb_prop. by subst.
  - intros [= ->]. apply eqb_reflx.
Qed.
Lemma wraps_wrap64 y : wraps_to 8 y (wrap64 y).
Proof.
  unfold wraps_to, wrap64. change (256 ^ 8) with (2 ^ 64). change (2 ^ 64) with (2 * 2 ^ 63).
  pose proof (Z.mod_pos_bound (y + 2 ^ 63) (2 * 2 ^ 63) ltac:(lia)). split; [|lia].
  replace ((y + 2 ^ 63) `mod` (2 * 2 ^ 63) - 2 ^ 63 - y) with ((y + 2 ^ 63) `mod` (2 * 2 ^ 63) - (y + 2 ^ 63)) by lia.
  rewrite Zminus_mod_idemp_l Z.sub_diag. done.
Qed.

(** ** Requests *)
Lemma stored_reach_sizes {A} (m : gmap bytes A) N k : ∀ p, t_wf m N → is_Some (N !! p) → is_Some (m !! (p ++ k)) → reach_sizes N p k = [].
Proof.
  induction k as [|c k IH]; intros p Hwf Hp Hk; cbn [reach_sizes]; [done|].
  destruct (bool_decide_reflect (is_Some (N !! (p ++ [c])))) as [Hn|Hn].
  - apply IH; [done|done|]. by rewrite -app_assoc.
  - destruct k as [|c' k].
    + destruct (wf_key _ _ Hwf _ _ Hk) as ([s e] & E & [H1 H2]). rewrite E. cbn [fst snd] in *.
      rewrite (proj2 (Z.leb_le s c)); [|done]. rewrite (proj2 (Z.leb_le c e)); [|done]. done.
    + destruct Hn. eapply wf_key_prefix; [done|exact Hk|]. exists c', k. by rewrite -app_assoc.
Qed.
Lemma chain_sizes_bound k : (length (chain_sizes k) <= length k - 1)%nat ∧ Forall (λ n, n <= 2064) (chain_sizes k).
Proof.
  induction k as [|c [|c' k] IH]; [by split; [simpl; lia|constructor]..|].
  change (chain_sizes (c :: c' :: k)) with (24 :: chain_sizes (c' :: k)). destruct IH as [IH1 IH2].
  split; [cbn [length] in *; lia|]. by constructor.
Qed.
Lemma reach_sizes_bound {A} (m : gmap bytes A) N k : ∀ p, t_wf m N → bytes_ok k →
  (length (reach_sizes N p k) <= length k)%nat ∧ Forall (λ n, n <= 2064) (reach_sizes N p k).
Proof.
  intros p Hwf. revert p. induction k as [|c k IH]; intros p Hk; cbn [reach_sizes]; [by split; [simpl; lia|constructor]|].
  apply Forall_cons in Hk as [Hc Hk].
  destruct (bool_decide_reflect (is_Some (N !! (p ++ [c])))) as [Hn|Hn].
  - destruct (IH (p ++ [c]) Hk) as [H1 H2]. split; [cbn [length]; lia|done].
  - destruct (chain_sizes_bound (c :: k)) as [H1 H2]. cbn [length] in *.
    destruct (N !! p) as [[s e]|] eqn:E; [|split; [cbn [app]; lia|done]].
    cbn [fst snd]. destruct ((s <=? c) && (c <=? e)); [split; [cbn [app]; lia|done]|].
    split; [cbn [app length]; lia|]. cbn [app]. constructor; [|done].
    destruct (wf_range _ _ Hwf _ _ E) as (? & ? & ?). unfold node_bytes, widen. cbn [fst snd] in *. unfold is_byte in Hc. lia.
Qed.
Lemma space_bound l b n : Forall (λ x, x <= b) l → Z.of_nat (length l) <= n → 0 <= b → space l <= n * room b.
Proof.
  intros Hl Hn Hb. assert (space l <= Z.of_nat (length l) * room b) as H.
  { clear Hn. induction Hl as [|x l Hx Hl IH]; [by unfold space, room|].
    cbn [space foldr length] in *. fold (space l). unfold room in *. lia. }
  unfold room in *. nia.
Qed.
Lemma val_sizes_bound v : (length (val_sizes v) <= 1)%nat ∧ Forall (λ n, n <= value_bytes v) (val_sizes v).
Proof.
  destruct v as [s|z|b|b|]; cbn [val_sizes value_bytes]; repeat case_match; (split; [simpl; lia|]); repeat constructor; lia.
Qed.
Lemma value_bytes_nonneg v : 0 <= value_bytes v.
Proof. destruct v; cbn [value_bytes]; unfold dlen; lia. Qed.
Lemma tree_space_bound l1 l2 k v : (length l1 <= length k)%nat → Forall (λ n, n <= 2064) l1 →
  (length l2 <= 1)%nat → Forall (λ n, n <= value_bytes v) l2 → space (l1 ++ l2) <= tree_room k v.
Proof.
  intros H1 H2 H3 H4. pose proof (value_bytes_nonneg v). apply space_bound.
  - apply Forall_app. split; (eapply Forall_impl; [eassumption|]); intros x Hx; simpl in Hx; lia.
  - rewrite app_length. unfold dlen. lia.
  - lia.
Qed.
Lemma insert_sizes_bound t k v : (length (insert_sizes t k v) <= 1)%nat ∧ Forall (λ n, n <= value_bytes v) (insert_sizes t k v).
Proof.
  pose proof (val_sizes_bound v). unfold insert_sizes. repeat case_match; try done; by split; [simpl; lia|constructor].
Qed.
Lemma incr_sizes_bound t k new : match new with Some (PInt _ | PDouble _) | None => True | _ => False end →
  (length (incr_sizes t k new) <= 1)%nat ∧ Forall (λ n, n <= value_bytes PNull) (incr_sizes t k new).
Proof.
  intros Hnew. unfold incr_sizes. destruct new as [v|]; [|by split; [simpl; lia|constructor]].
  pose proof (val_sizes_bound v) as H. destruct (val_sizes_at (t_map t) k); [|by split; [simpl; lia|constructor]].
  split; [by destruct H|]. destruct H as [_ H]. destruct v; try done; exact H.
Qed.

(** ** Nodes *)
Lemma elem_of_concat {A} (x : A) ls : x ∈ concat ls ↔ ∃ l, x ∈ l ∧ l ∈ ls.
Proof. rewrite elem_of_list_In in_concat. setoid_rewrite elem_of_list_In. naive_solver. Qed.
Lemma proper_prefix_list p k : p ∈ proper_prefixes k ↔ proper_prefix p k.
Proof.
  unfold proper_prefixes, proper_prefix. rewrite elem_of_list_fmap. split.
  - intros (n & -> & Hn%elem_of_seq). destruct (drop n k) as [|c r] eqn:E.
    + apply (f_equal length) in E. rewrite drop_length in E. simpl in E. lia.
    + exists c, r. by rewrite -E take_drop.
  - intros (c & r & ->). exists (length p). rewrite take_app. split; [done|].
    apply elem_of_seq. rewrite app_length. simpl. lia.
Qed.
Lemma elem_of_needed m p : p ∈ needed_nodes m ↔ p = [] ∨ ∃ k, is_Some (m !! k) ∧ proper_prefix p k.
Proof.
  unfold needed_nodes. rewrite elem_of_list_to_set elem_of_cons. apply or_iff_compat_l.
  rewrite elem_of_concat. split.
  - intros (l & Hp & Hl). apply elem_of_list_fmap in Hl as ([k v] & -> & Hk). cbn [fst] in Hp.
    apply elem_of_map_to_list in Hk. exists k. split; [by rewrite Hk|]. by apply proper_prefix_list.
  - intros (k & [v Hk] & Hp). exists (proper_prefixes k). split; [by apply proper_prefix_list|].
    apply elem_of_list_fmap. exists (k, v). split; [done|]. by apply elem_of_map_to_list.
Qed.
Lemma needed_is_dom t : t_wf (t_map t) (t_nodes t) → neat t → needed_nodes (t_map t) = dom (t_nodes t).
Proof.
  intros Hwf Hn. apply set_eq. intros p. rewrite elem_of_needed elem_of_dom. symmetry. by apply neat_nodes.
Qed.
Lemma seems_stored_iff t k : t_wf (t_map t) (t_nodes t) → neat t → t_exists t k = true ↔ seems_stored (t_map t) k.
Proof.
  intros Hwf Hn. unfold t_exists, seems_stored. rewrite orb_true_iff !bool_decide_eq_true.
  by rewrite (neat_nodes t k Hwf Hn).
Qed.
Lemma stored_exists t k : is_Some (t_map t !! k) → t_exists t k = true.
Proof. intros H. unfold t_exists. by rewrite bool_decide_eq_true_2. Qed.
Lemma t_erase_map t k : t_map (t_erase t k) = delete k (t_map t).
Proof.
  unfold t_erase. destruct (t_exists t k) eqn:E; [done|]. symmetry. apply delete_notin.
  unfold t_exists in E. apply orb_false_iff in E as [E _]. apply bool_decide_eq_false in E.
  destruct (t_map t !! k); [by destruct E|done].
Qed.

(** The number of keys is bounded by the memory of the nodes. *)
Definition slots (N : list (bytes * (Z * Z))) : list bytes :=
  concat (map (λ x, map (λ c, x.1 ++ [c]) (seqZ x.2.1 (x.2.2 - x.2.1 + 1))) N).
Lemma slots_length N : (∀ x, x ∈ N → 0 <= x.2.1 ∧ x.2.1 <= x.2.2) →
  Z.of_nat (length (slots N)) <= sum_list_Z (map (λ x, node_bytes x.2) N).
Proof.
  induction N as [|x N IH]; intros H; [done|]. unfold slots. cbn [List.map concat]. rewrite app_length map_length seqZ_length. fold (slots N).
  cbn [sum_list_Z foldr]. fold (sum_list_Z (map (λ x, node_bytes x.2) N)).
  specialize (IH (λ y Hy, H y ltac:(by right))). destruct (H x ltac:(by left)). unfold node_bytes. unfold node_bytes in IH. lia.
Qed.
Lemma sum_nonneg l : Forall (λ n, 0 <= n) l → 0 <= sum_list_Z l.
Proof. induction 1 as [|x l Hx Hl IH]; [done|]. cbn [sum_list_Z foldr]. fold (sum_list_Z l). lia. Qed.
Lemma size_bound t : t_wf (t_map t) (t_nodes t) → Z.of_nat (size (t_map t)) <= t_bytes t.
Proof.
  intros Hwf. set (N := t_nodes t) in *.
  assert (map_to_list N ≡ₚ ([], (0, 255)) :: map_to_list (delete [] N)) as HP.
  { rewrite -map_to_list_insert; [|apply lookup_delete]. by rewrite insert_delete; [|apply (wf_root _ _ Hwf)]. }
  set (l := [] :: slots (map_to_list N)).
  assert (dom (t_map t) ⊆ (list_to_set l : gset bytes)) as Hsub.
  { intros k Hk%elem_of_dom. apply elem_of_list_to_set. destruct k as [|c k _] using rev_ind; [by left|right].
    destruct (wf_key _ _ Hwf _ _ Hk) as ([s e] & E & [H1 H2]). unfold slots. apply elem_of_concat.
    exists (map (λ c, k ++ [c]) (seqZ s (e - s + 1))). split.
    - apply elem_of_list_fmap. exists c. split; [done|]. apply elem_of_seqZ. cbn [fst snd] in *. lia.
    - apply elem_of_list_fmap. exists (k, (s, e)). split; [done|]. by apply elem_of_map_to_list. }
  apply subseteq_size in Hsub. rewrite size_dom in Hsub.
  assert (size (list_to_set l : gset bytes) <= length l)%nat as Hlen.
  { clear. induction l as [|x l IH]; [done|]. cbn [list_to_set length].
    pose proof (size_union_alt ({[x]} : gset bytes) (list_to_set l)). rewrite size_singleton in H.
    pose proof (subseteq_size (list_to_set l ∖ {[x]} : gset bytes) (list_to_set l) ltac:(set_solver)). lia. }
  assert (Z.of_nat (length (slots (map_to_list N))) <= 256 + sum_list_Z (node_sizes N)) as Hsl.
  { assert (length (slots (map_to_list N)) = length (slots (([], (0, 255)) :: map_to_list (delete [] N)))) as ->.
    { apply Permutation_length. unfold slots. by apply concat_Permutation, Permutation_map || (rewrite HP). }
    unfold slots. cbn [List.map concat]. rewrite app_length map_length seqZ_length. fold (slots (map_to_list (delete [] N))).
    assert (∀ x, x ∈ map_to_list (delete [] N) → 0 <= x.2.1 ∧ x.2.1 <= x.2.2) as H.
    { intros [p r] Hx%elem_of_map_to_list. cbn [fst snd]. apply lookup_delete_Some in Hx as [_ Hx].
      destruct (wf_range _ _ Hwf _ _ Hx) as (? & ? & ?). done. }
    pose proof (slots_length _ H) as H'. unfold node_sizes. cbn [fst snd] in *. lia. }
  assert (0 <= sum_list_Z (all_val_sizes (t_map t))) as Hv.
  { apply sum_nonneg. unfold all_val_sizes. apply Forall_concat, Forall_fmap, Forall_forall. intros [k v] _. cbn [compose fst snd].
    clear. destruct v; cbn [val_sizes]; repeat case_match; repeat constructor; unfold dlen; lia. }
  unfold t_bytes. fold N. cbn [length] in Hlen. unfold l in *. cbn [length] in *. lia.
Qed.
Lemma nodes_bound t : t_wf (t_map t) (t_nodes t) → Z.of_nat (size (t_nodes t)) <= t_bytes t.
Proof.
  intros Hwf. set (N := t_nodes t) in *.
  assert (size N = Datatypes.S (size (delete [] N))) as ->.
  { rewrite -{1}(insert_delete N [] (0, 255)); [|apply (wf_root _ _ Hwf)]. rewrite map_size_insert lookup_delete. done. }
  assert (Z.of_nat (size (delete [] N)) <= sum_list_Z (node_sizes N)) as Hs.
  { unfold node_sizes. change (size (delete [] N)) with (length (map_to_list (delete [] N))).
    assert (∀ x, x ∈ map_to_list (delete [] N) → x.2.1 <= x.2.2) as H.
    { intros [p r] Hx%elem_of_map_to_list. cbn [fst snd]. apply lookup_delete_Some in Hx as [_ Hx].
      destruct (wf_range _ _ Hwf _ _ Hx) as (? & ? & ?). done. }
    induction (map_to_list (delete [] N)) as [|x l IH]; [done|]. cbn [List.map length sum_list_Z foldr].
    fold (sum_list_Z (List.map (λ x, node_bytes x.2) l)).
    specialize (IH (λ y Hy, H y ltac:(by right))). pose proof (H x ltac:(by left)). unfold node_bytes at 1. lia. }
  assert (0 <= sum_list_Z (all_val_sizes (t_map t))) as Hv.
  { apply sum_nonneg. unfold all_val_sizes. apply Forall_concat, Forall_fmap, Forall_forall. intros [k v] _. cbn [compose fst snd].
    clear. destruct v; cbn [val_sizes]; repeat case_match; repeat constructor; unfold dlen; lia. }
  unfold t_bytes. fold N. lia.
Qed.

(** The bounds (C55) and the counts below a prefix (C56, C57). *)
Lemma next_first m k : first_item m (λ k', lex_lt k k' = true) (t_next m (Some k)).
Proof.
  assert (∀ k' v', m !! k' = Some v' → lex_lt k k' = true → (k', v') ∈ t_rest m (Some k)) as Hin.
  { intros k' v' Hk' Ha. unfold t_rest. apply elem_of_list_In, filter_In. split; [|exact Ha]. by apply elem_of_list_In, elem_of_items. }
  unfold first_item. destruct (t_next m (Some k)) as [[k1 v1]|] eqn:E.
  - destruct (t_next_inv _ _ _ _ E) as [H1 H2]. split; [done|]. split; [exact H2|]. intros k' [v' Hk'] Ha.
    specialize (Hin _ _ Hk' Ha). rewrite t_next_head in E.
    destruct (t_rest m (Some k)) as [|[k0 v0] l] eqn:El; [done|]. cbn [head] in E. injection E as -> ->.
    apply elem_of_cons in Hin as [[= -> ->]|Hin]; [apply lex_le_refl|].
    rewrite -(t_rest_cons _ _ _ _ _ El) in Hin. unfold t_rest in Hin. apply elem_of_list_In, filter_In in Hin as [_ Hin].
    by apply lex_asym.
  - intros k' [v' Hk'] Ha. specialize (Hin _ _ Hk' Ha). rewrite t_next_head in E.
    destruct (t_rest m (Some k)); [by apply elem_of_nil in Hin|done].
Qed.
Lemma path_no_hole t k c r : t_wf (t_map t) (t_nodes t) → is_Some (t_map t !! (k ++ c :: r)) → t_hole t [] k = false.
Proof.
  intros Hwf Hk. assert (∀ q, ext_of q (k ++ c :: r) → is_Some (t_nodes t !! q)) as Hn by (intros q Hq; by eapply wf_key_prefix).
  assert (∀ k' p, p ++ k' = k → t_hole t p k' = false) as H; [|by apply H].
  induction k' as [|d k' IH]; intros p E; [done|]. cbn [t_hole]. destruct (t_nodes t !! p) as [[s e]|]; [|done].
  destruct ((s <=? d) && (d <=? e)); [|done]. cbn [andb]. rewrite bool_decide_eq_true_2.
  - apply IH. by rewrite -assoc.
  - apply Hn. subst k. destruct k' as [|d' k']; [exists c, r|exists d', (k' ++ c :: r)]; by rewrite -!assoc.
Qed.
Lemma leaf_no_hole t k c r : t_wf (t_map t) (t_nodes t) → is_Some (t_map t !! k) → t_nodes t !! k = None →
  t_hole t [] (k ++ c :: r) = false.
Proof.
  intros Hwf Hk Hno. assert (∀ q, ext_of q k → is_Some (t_nodes t !! q)) as Hn by (intros q Hq; by eapply wf_key_prefix).
  assert (∀ k' p, p ++ k' = k → t_hole t p (k' ++ c :: r) = false) as H; [|by apply H].
  induction k' as [|d k' IH]; intros p E; cbn [app t_hole].
  - rewrite app_nil_r in E. subst p. by rewrite Hno.
  - destruct (t_nodes t !! p) as [[s e]|]; [|done]. destruct ((s <=? d) && (d <=? e)); [|done]. cbn [andb].
    destruct (bool_decide_reflect (is_Some (t_nodes t !! (p ++ [d])))) as [Hd|Hd]; [apply IH; by rewrite -assoc|].
    destruct k' as [|d' k']; [by rewrite E bool_decide_eq_true_2|]. destruct Hd. apply Hn. exists d', k'. by rewrite -assoc.
Qed.
Lemma dom_prefix {A} (m : gmap bytes A) p : dom (filter (λ x, p `prefix_of` x.1) m) = filter (λ q, p `prefix_of` q) (dom m).
Proof.
  apply set_eq. intros q. rewrite elem_of_filter !elem_of_dom. split.
  - intros [x Hx]. apply map_filter_lookup_Some in Hx as [Hx Hp]. split; [done|by exists x].
  - intros [Hp [x Hx]]. exists x. by apply map_filter_lookup_Some.
Qed.
Lemma whole_bytes t : t_wf (t_map t) (t_nodes t) → t_bytes t = t_bytes_for t [] + 16.
Proof.
  intros Hwf. unfold t_bytes, t_bytes_for, node_sizes. cbn [andb].
  assert (∀ A (m : gmap bytes A), filter (λ x, [] `prefix_of` x.1) m = m) as Hid.
  { intros A m. apply map_filter_id. intros. apply prefix_nil. }
  rewrite !Hid. rewrite (bool_decide_eq_false_2 ([] ≠ [])); [|by intros H]. cbn [andb].
  pose proof (wf_root _ _ Hwf) as Hr. rewrite -{2}(insert_delete (t_nodes t) [] (0, 255)); [|done].
  rewrite (sum_list_Z_perm _ _ (Permutation_map _ (map_to_list_insert _ _ _ (lookup_delete _ _)))). cbn [List.map fst snd].
  rewrite sum_cons. change (node_bytes (0, 255)) with 2064. lia.
Qed.

Section main.
  Context {hash : HashFn}.
  Context {al : allocator} (S : alloc_spec al) `{!BaseFree S, !Visible S} (lm : alloc_limits) (HL : limits_ok S lm).
  Context (F : nat) (HF : 2 ^ 62 <= Z.of_nat F).
  Context (W : world) (evs : list gevent) (HI : GInv S (GS W ∅ 0 true)).
  Notation play cs ct := (sgame al lm F cs ct evs (GS W ∅ 0 true)).

  Lemma GInv_tree st o t ok : GInv S st → g_objs st !! o = Some (VTree t ok) →
    t_wf (t_map t) (t_nodes t) ∧ (ok = true → neat t).
  Proof.
    intros (Hok & Hbo & xs & J & K & Ho & Ht & HR) Hl. rewrite Ho in Hl.
    destruct (objs_split S lm HL F HF _ _ _ _ _ _ _ HR Hl) as (xs1 & B & xs2 & -> & _).
    assert (file_holds (λ m, ⌜t_wf (t_map t) (t_nodes t) ∧ (ok = true → neat t)⌝ ∗ True)%I (g_w st)) as H.
    { eapply file_holds_mono; [|exact HR]. intros m. iIntros "(_ & R & _)".
      iDestruct (reps_mid with "R") as "[[%Hn R] _]". iDestruct (t_rep_wf with "R") as %?. done. }
    by apply file_holds_pure in H as [? _].
  Qed.
  Lemma GInv_tree_bytes st o t ok : GInv S st → g_objs st !! o = Some (VTree t ok) → t_bytes t <= 2 ^ 62.
  Proof.
    intros (Hok & Hbo & xs & J & K & Ho & Ht & HR) Hl. rewrite Ho in Hl.
    destruct (objs_split S lm HL F HF _ _ _ _ _ _ _ HR Hl) as (xs1 & B & xs2 & -> & _).
    pose proof (file_holds_facts _ _ HR) as ([Hs _] & _ & _).
    assert (file_holds (λ m, ⌜t_bytes t <= m⌝ ∗ True)%I (g_w st)) as H.
    { eapply file_holds_mono; [|exact HR]. intros m. iIntros "(A & R & _)". iDestruct (as_facts with "A") as %(Hb1 & _ & Hb).
      iDestruct (reps_mid with "R") as "[[%Hn R] _]". iDestruct (t_rep_bytes with "R") as %HB. cbn [snd] in HB. iPureIntro. split; [|done].
      assert (∀ B' : blocks, B' ⊆ (objs_blocks (xs1 ++ (o, VTree t ok, B) :: xs2) ++ J) ++ K → 0 <= sum_sz B') as Hnn.
      { intros B' HB'. apply sum_sz_nonneg. intros o' n Hin. by apply (Hb1 o' n), HB'. }
      unfold objs_blocks in Hb, Hnn. rewrite map_app concat_app in Hb, Hnn. cbn [List.map concat snd] in Hb, Hnn.
      rewrite !sum_sz_app in Hb.
      pose proof (Hnn (concat (map snd xs1)) ltac:(clear; set_solver)).
      pose proof (Hnn (concat (map snd xs2)) ltac:(clear; set_solver)).
      pose proof (Hnn J ltac:(clear; set_solver)). pose proof (Hnn K ltac:(clear; set_solver)). lia. }
    pose proof (file_holds_facts _ _ H) as (_ & _ & Hh).
    assert (t_bytes t <= w_size (g_w st)); [|lia].
    eapply holds_pure. eapply holds_mono; [|exact Hh]. iIntros "(_ & $ & _)".
  Qed.
  (** An operation in a reachable state. *)
  Lemma GInv_op st i pr o v x : GInv S st → g_objs st !! o = Some v → w_procs (g_w st) !! i = Some pr →
    ideal v x ≠ None → sensible lm v x → needs_steady_pool v x = false →
    match run_by (g_w st) i (sa_lock ;; op_prog al F o x)%prog with
    | WDone r W' => ∃ v', ideal v x = Some (Return r v')
    | WExn e W' => ideal v x = Some (Raise e) ∨ out_of_space pr (g_w st) (requests v x) e
    | WBad | WNoProc => False
    end.
  Proof.
    intros (Hok & Hbo & xs & J & K & Ho & Ht & HR) Hl Hi Hid Hs Hn. rewrite Ho in Hl.
    destruct (objs_split S lm HL F HF _ _ _ _ _ _ _ HR Hl) as (xs1 & B & xs2 & -> & _).
    pose proof (step_op S lm HL F HF _ _ _ _ _ _ _ _ _ _ _ _ HR Hok Hi Hid Hs) as H.
    rewrite Hn in H. specialize (H ltac:(done)). destruct (run_by _ _ _); try done.
    - destruct H as (_ & v' & ? & ? & ? & _). by exists v'.
    - destruct H as (_ & v' & ? & ? & ? & ? & _). done.
  Qed.

  Ltac g := eapply sgame_mono; [| |exact (all_ok S lm HL F HF W evs HI)];
    [intros st Hst|intros st ob st' Hst (Hid & Hgr & Hob) Hst']; try done.
  Lemma grow_less pr V a b : may_grow pr V b → a <= b → may_grow pr V a.
  Proof. unfold may_grow. intros [[?|?] ?] ?; split; [by left|lia|right; lia|lia]. Qed.

  Definition steps (ct : gstate → gobs → gstate → Prop) : Prop :=
    ∀ st ob st', GInv S st → gct lm st ob st' → GInv S st' → ct st ob st'.
  Ltac gs := intros st ob st' Hst (Hid & Hgr & Hob) Hst'; try done.
  Lemma steps_play ct : steps ct → play (fun _ => True) ct.
  Proof. intros H. eapply sgame_mono; [| |exact (all_ok S lm HL F HF W evs HI)]; [done|]. exact H. Qed.

  Lemma steps_tree_map : steps tree_is_a_map.
  Proof.
    gs. unfold tree_is_a_map. destruct ob as [pr k o| |pr o v x r|pr o v x e| |]; try done.
    - destruct k; try done. eexists _, _. split; [exact Hob|done].
    - destruct Hid as [v' Hid]. destruct Hob as [[Ho Hsn] Ho']. destruct x as [| | | | | | | | | | | | | | | | | | | | |y]; try done.
    destruct v as [l|l|b|t|t ok]; [discriminate Hid..|]. destruct (GInv_tree _ _ _ _ Hst Ho) as [Hwf Hneat].
    unfold after_op in Ho'; cbn [ideal] in Hid, Ho'. destruct y as [k w ck|k ck|k d|k f d| |k|k|k|cur| | | |k|k|k|p|p]; try done; cbn [t_ideal] in Hid, Ho'.
      + destruct ck; [done|]. cbn [t_holds] in *. simplify_eq. exists (t_map t), (stored w).
        split; [by eexists _, t|]. split; [apply stored_same|]. split; [done|]. eexists _, _. split; [exact Ho'|done].
      + destruct ck; [done|]. cbn [t_holds] in *. simplify_eq. exists (t_map t). split; [by eexists _, t|].
        eexists _, _. split; [exact Ho'|apply t_erase_map].
      + simplify_eq. eexists _, _. split; [exact Ho'|done].
      + by eapply same_objs.
      + simplify_eq. exists (t_map t). split; [by eexists _, t|]. split; [done|]. by eapply same_objs.
      + destruct (t_map t !! k) as [w|] eqn:E; [|done]. simplify_eq. exists (t_map t), w.
        split; [by eexists _, t|]. split; [done|]. split; [done|]. by eapply same_objs.
      + destruct (t_next (t_map t) cur) as [[? ?]|]; [|done]. by eapply same_objs.
      + by eapply same_objs.
      + by eapply same_objs.
      + by eapply same_objs.
      + by eapply same_objs.
      + by eapply same_objs.
      + by eapply same_objs.
      + by eapply same_objs.
      + by eapply same_objs.
    - destruct Hob as [[Ho Hsn] Ho']. destruct x as [| | | | | | | | | | | | | | | | | | | | |y]; try done.
    destruct v as [l|l|b|t|t ok]; [by destruct Hid as [Hid|(_ & Hid & _)]..|]. destruct (GInv_tree _ _ _ _ Hst Ho) as [Hwf Hneat].
    destruct Ho' as (v' & Hleft & Ho'). unfold ideal_results in Hid. cbn [left_by ideal requests] in Hleft, Hid. destruct Hleft as (t' & -> & Hleft). destruct Hleft as [_ Hleft]. destruct y as [k w ck|k ck|k d|k f d| |k|k|k|cur| | | |k|k|k|p|p]; try done; cbn [t_ideal] in Hid.
      + destruct Hid as [Hid|(-> & Hne & Hg)]; [by destruct (t_holds (t_map t) ck)|]. split; [done|]. split.
        * intros Hgg. apply Hg. eapply grow_less; [exact Hgg|]. apply Zplus_le_compat_l. cbn [t_requests] in Hne |- *.
          destruct (t_holds (t_map t) ck); [|done].
          destruct Hsn as ([Hk _] & _). destruct (reach_sizes_bound _ _ k [] Hwf Hk), (insert_sizes_bound t k w).
          by apply tree_space_bound.
        * exists (t_map t). split; [by eexists _, t|]. cbn [t_left] in Hleft. destruct Hleft as (_ & [E|E] & _); [left|right]; by eexists _, _.
      + destruct Hid as [Hid|(-> & Hne & Hg)]; [by destruct (t_holds (t_map t) ck)|done].
      + by destruct Hid as [Hid|(-> & Hne & Hg)].
      + by destruct Hid as [Hid|(-> & Hne & Hg)].
      + by destruct Hid as [Hid|(-> & Hne & Hg)].
      + destruct Hid as [Hid|(-> & Hne & Hg)]; [|done]. destruct (t_map t !! k) as [w|] eqn:E; [done|]. simplify_eq.
        exists (t_map t). split; [by eexists _, t|]. split; [done|]. split; [done|]. try (cbn [t_left] in Hleft; subst t').
        rewrite andb_true_r in Ho'. by eapply same_objs.
      + destruct Hid as [Hid|(-> & Hne & Hg)]; [|done]. destruct (t_next (t_map t) cur) as [[? ?]|]; [done|]. simplify_eq.
        try (cbn [t_left] in Hleft; subst t'). rewrite andb_true_r in Ho'. by eapply same_objs.
      + by destruct Hid as [Hid|(-> & Hne & Hg)].
      + by destruct Hid as [Hid|(-> & Hne & Hg)].
      + by destruct Hid as [Hid|(-> & Hne & Hg)].
      + by destruct Hid as [Hid|(-> & Hne & Hg)].
      + by destruct Hid as [Hid|(-> & Hne & Hg)].
      + by destruct Hid as [Hid|(-> & Hne & Hg)].
      + by destruct Hid as [Hid|(-> & Hne & Hg)].
      + by destruct Hid as [Hid|(-> & Hne & Hg)].
  Qed.
  Lemma main_tree_map : play (fun _ => True) tree_is_a_map.
  Proof. exact (steps_play _ steps_tree_map). Qed.

  Lemma main_tree_failed : play (fun _ => True) tree_failed_insert.
  Proof.
    eapply sgame_mono; [| |exact main_tree_map]; [done|]. intros st ob st' _ H _.
    unfold tree_is_a_map in H. unfold tree_failed_insert.
    destruct ob as [| | |pr o v x e| |]; try done. destruct x; try done. destruct x; try done.
    destruct H as (He & Hg & m & Hm & H). split; [done|]. split; [done|]. destruct H as [H|H].
    - exists m, m. split; [done|]. split; [done|]. split; [done|]. split; [done|]. by right.
    - exists m, (delete k m). split; [done|]. split; [done|]. split.
      + intros k' Hk. by rewrite lookup_delete_ne.
      + split; [by apply delete_notin|]. left. apply lookup_delete.
  Qed.

  Lemma main_tree_lossless : play (fun _ => True) (fun _ => tree_lossless al F).
  Proof.
    g. unfold tree_lossless. destruct ob as [pr k o| |pr o v x r|pr o v x e| |]; try done.
    destruct Hid as [v' Hid]. destruct Hob as [[Ho Hsn] Ho']. destruct x as [| | | | | | | | | | | | | | | | | | | | |y]; try done.
    destruct v as [l|l|b|t|t ok]; [discriminate Hid..|]. destruct (GInv_tree _ _ _ _ Hst Ho) as [Hwf Hneat].
    unfold after_op in Ho'; cbn [ideal] in Hid, Ho'. destruct y as [k w ck|k ck|k d|k f d| |k|k|k|cur| | | |k|k|k|p|p]; try done; cbn [t_ideal] in Hid, Ho'. intros ->.
    destruct (t_holds (t_map t) ck); [|done]. assert (g_objs st' !! o = Some (VTree (t_put t k (stored w)) ok)) as Hl.
    { rewrite Ho'. by rewrite lookup_insert. }
    assert (t_map (t_put t k (stored w)) !! k = Some (stored w)) as Hk by apply lookup_insert.
    intros i [q Hq]. split.
    - pose proof (GInv_op _ _ _ _ _ (OTree (TAt k)) Hst' Hl Hq) as H. cbn [ideal t_ideal] in H. rewrite Hk in H.
      specialize (H ltac:(done) (conj I (conj (List.Forall_nil _) I)) ltac:(done)). destruct (run_by _ _ _) as [r W'|e W'| |]; try done.
      + destruct H as [v'' H]. simplify_eq. eexists _, _. split; [done|]. apply stored_same.
      + by destruct H as [H|(_ & H & _)].
    - pose proof (GInv_op _ _ _ _ _ (OTree (TType k)) Hst' Hl Hq) as H. cbn [ideal t_ideal] in H. rewrite Hk in H.
      rewrite (same_type _ _ (stored_same w)) in H.
      specialize (H ltac:(done) (conj I (conj (List.Forall_nil _) I)) ltac:(done)). destruct (run_by _ _ _) as [r W'|e W'| |]; try done.
      + destruct H as [v'' H]. simplify_eq. by eexists _.
      + by destruct H as [H|(_ & H & _)].
  Qed.

  Lemma main_tree_exists : play (fun _ => True) tree_exists.
  Proof.
    g. unfold tree_exists. destruct ob as [pr k o| |pr o v x r|pr o v x e| |]; try done.
    destruct Hid as [v' Hid]. destruct Hob as [[Ho Hsn] Ho']. destruct x as [| | | | | | | | | | | | | | | | | | | | |y]; try done.
    destruct v as [l|l|b|t|t ok]; [discriminate Hid..|]. destruct (GInv_tree _ _ _ _ Hst Ho) as [Hwf Hneat].
    unfold after_op in Ho'; cbn [ideal] in Hid, Ho'. destruct y as [k w ck|k ck|k d|k f d| |k|k|k|cur| | | |k|k|k|p|p]; try done; cbn [t_ideal] in Hid, Ho'. simplify_eq.
    exists (t_map t), ok, (t_exists t k). split; [by exists t|]. split; [done|]. split; [by eapply same_objs|]. split; [apply stored_exists|].
    intros Hok. apply seems_stored_iff; [done|by apply Hneat].
  Qed.
  Lemma main_tree_erase : play (fun _ => True) tree_erases.
  Proof.
    g. unfold tree_erases. destruct ob as [pr k o| |pr o v x r|pr o v x e| |]; try done.
    destruct Hid as [v' Hid]. destruct Hob as [[Ho Hsn] Ho']. destruct x as [| | | | | | | | | | | | | | | | | | | | |y]; try done.
    destruct v as [l|l|b|t|t ok]; [discriminate Hid..|]. destruct (GInv_tree _ _ _ _ Hst Ho) as [Hwf Hneat].
    unfold after_op in Ho'; cbn [ideal] in Hid, Ho'. destruct y as [k w ck|k ck|k d|k f d| |k|k|k|cur| | | |k|k|k|p|p]; try done; cbn [t_ideal] in Hid, Ho'.
    destruct ck; [done|]. cbn [t_holds] in *. simplify_eq.
    exists (t_map t), ok, (t_exists t k). split; [by exists t|]. split; [done|].
    split; [eexists _, _; split; [exact Ho'|apply t_erase_map]|]. split; [apply stored_exists|].
    intros Hok. apply seems_stored_iff; [done|by apply Hneat].
  Qed.
  Lemma steps_tree_order : steps tree_order.
  Proof.
    gs.
    unfold tree_order. destruct ob as [pr k o| |pr o v x r|pr o v x e| |]; try done.
    - destruct Hid as [v' Hid]. destruct Hob as [[Ho Hsn] Ho']. destruct x as [| | | | | | | | | | | | | | | | | | | | |y]; try done.
    destruct v as [l|l|b|t|t ok]; [discriminate Hid..|]. destruct (GInv_tree _ _ _ _ Hst Ho) as [Hwf Hneat].
    unfold after_op in Ho'; cbn [ideal] in Hid, Ho'. destruct y as [k w ck|k ck|k d|k f d| |k|k|k|cur| | | |k|k|k|p|p]; try done; cbn [t_ideal] in Hid, Ho'.
      + destruct (t_next (t_map t) cur) as [[k v]|] eqn:E; [|done]. simplify_eq. exists (t_map t), k, v.
        destruct (t_next_inv _ _ _ _ E) as [H1 H2]. split; [by eexists _, t|]. split; [done|]. split; [by eapply same_objs|].
        split; [done|]. split; [done|]. intros k' [v' Hk'] Ha. rewrite t_next_head in E.
        destruct (t_rest (t_map t) cur) as [|[k0 v0] l] eqn:El; [done|]. cbn in E. simplify_eq.
        assert ((k', v') ∈ t_rest (t_map t) cur) as Hin.
        { unfold t_rest. apply elem_of_list_In, filter_In. split; [|done]. by apply elem_of_list_In, elem_of_items. }
        rewrite El in Hin. apply elem_of_cons in Hin as [[= -> ->]|Hin]; [apply lex_le_refl|].
        rewrite -(t_rest_cons _ _ _ _ _ El) in Hin. unfold t_rest in Hin. apply elem_of_list_In, filter_In in Hin as [_ Hin].
        by apply lex_asym.
      + simplify_eq. exists (t_map t), (t_items (t_map t)). split; [by eexists _, t|]. split; [done|].
        split; [by eapply same_objs|]. split; [apply t_items_sorted|]. apply elem_of_items.
    - destruct Hob as [[Ho Hsn] Ho']. destruct x as [| | | | | | | | | | | | | | | | | | | | |y]; try done.
    destruct v as [l|l|b|t|t ok]; [by destruct Hid as [Hid|(_ & Hid & _)]..|]. destruct (GInv_tree _ _ _ _ Hst Ho) as [Hwf Hneat].
    destruct Ho' as (v' & Hleft & Ho'). unfold ideal_results in Hid. cbn [left_by ideal requests] in Hleft, Hid. destruct Hleft as (t' & -> & Hleft). destruct Hleft as [_ Hleft]. destruct y as [k w ck|k ck|k d|k f d| |k|k|k|cur| | | |k|k|k|p|p]; try done; cbn [t_ideal] in Hid.
      destruct Hid as [Hid|(-> & Hne & Hg)]; [|done]. destruct (t_next (t_map t) cur) as [[? ?]|] eqn:E; [done|]. simplify_eq.
      exists (t_map t). split; [by eexists _, t|]. split; [done|].
      try (cbn [t_left] in Hleft; subst t'). rewrite andb_true_r in Ho'. split; [by eapply same_objs|].
      intros k [v Hk]. destruct (is_after cur k) eqn:Ea; [|done]. exfalso. rewrite t_next_head in E.
      destruct (t_rest (t_map t) cur) eqn:El; [|done].
      assert ((k, v) ∈ t_rest (t_map t) cur) as Hin.
      { unfold t_rest. apply elem_of_list_In, filter_In. split; [|done]. by apply elem_of_list_In, elem_of_items. }
      rewrite El in Hin. by apply elem_of_nil in Hin.
  Qed.
  Lemma main_tree_order : play next_of_stored_is_handled tree_order.
  Proof.
    eapply sgame_mono; [| |exact (all_ok S lm HL F HF W evs HI)]; [|exact steps_tree_order].
    intros st Hst o t ok k Ho Hk. destruct (GInv_tree _ _ _ _ Hst Ho) as [Hwf _]. by apply stored_no_hole.
  Qed.
  Lemma steps_tree_bounds : steps tree_bounds.
  Proof.
    gs. unfold tree_bounds. destruct ob as [pr k o| |pr o v x r|pr o v x e| |]; try done.
    - destruct Hid as [v' Hid]. destruct Hob as [[Ho Hsn] Ho']. destruct x as [| | | | | | | | | | | | | | | | | | | | |y]; try done.
    destruct v as [l|l|b|t|t ok]; [discriminate Hid..|]. destruct (GInv_tree _ _ _ _ Hst Ho) as [Hwf Hneat].
    unfold after_op in Ho'; cbn [ideal] in Hid, Ho'. destruct y as [k w ck|k ck|k d|k f d| |k|k|k|cur| | | |k|k|k|p|p]; try done; cbn [t_ideal] in Hid, Ho'; simplify_eq.
      + exists (t_map t). eexists. split; [by eexists _, t|]. split; [done|]. split; [by eapply same_objs|].
        destruct (t_map t !! k) as [v|] eqn:E; cbn [fmap option_fmap option_map first_item].
        * split; [done|]. split; [done|]. intros k' _ ->. apply lex_le_refl.
        * intros k' [v Hk'] ->. by rewrite E in Hk'.
      + exists (t_map t). eexists. split; [by eexists _, t|]. split; [done|]. split; [by eapply same_objs|].
        destruct (t_map t !! k) as [v|] eqn:E; cbn [first_item].
        * split; [done|]. split; [apply lex_le_refl|]. by intros k' _ ?.
        * pose proof (next_first (t_map t) k) as H. unfold first_item in H |- *. destruct (t_next (t_map t) (Some k)) as [[k1 v1]|].
          -- destruct H as (H1 & H2 & H3). split; [done|]. split; [by apply lex_lt_le|]. intros k' Hk' Hle. apply H3; [done|].
             destruct (lex_lt k k') eqn:El; [done|]. assert (k = k') as <- by by apply lex_le_antisym. destruct Hk' as [? Hk']. by rewrite E in Hk'.
          -- intros k' Hk' Hle. apply (H k' Hk').
             destruct (lex_lt k k') eqn:El; [done|]. assert (k = k') as <- by by apply lex_le_antisym. destruct Hk' as [? Hk']. by rewrite E in Hk'.
      + exists (t_map t). eexists. split; [by eexists _, t|]. split; [done|]. split; [by eapply same_objs|]. apply next_first.
    - destruct Hob as [[Ho Hsn] Ho']. destruct x as [| | | | | | | | | | | | | | | | | | | | |y]; try done.
    destruct v as [l|l|b|t|t ok]; [by destruct Hid as [Hid|(_ & Hid & _)]..|].
    destruct Ho' as (v' & Hleft & Ho'). unfold ideal_results in Hid. cbn [left_by ideal requests] in Hleft, Hid.
    destruct y as [k w ck|k ck|k d|k f d| |k|k|k|cur| | | |k|k|k|p|p]; try done; cbn [t_ideal] in Hid; by destruct Hid as [Hid|(_ & Hid & _)].
  Qed.
  Lemma main_tree_bounds : play bounds_handled tree_bounds.
  Proof.
    eapply sgame_mono; [| |exact (all_ok S lm HL F HF W evs HI)]; [|exact steps_tree_bounds].
    intros st Hst o t ok k Ho Hk. destruct (GInv_tree _ _ _ _ Hst Ho) as [Hwf _].
    assert (t_hole t [] k = false) as H; [|split; [intros _|]; exact H].
    destruct Hk as [Hk|[(k' & Hk' & c & r & ->)|(k' & Hk' & (c & r & ->) & Hn)]].
    - by apply stored_no_hole.
    - by apply (path_no_hole t k c r).
    - by apply leaf_no_hole.
  Qed.
  Lemma steps_tree_prefix_nodes : steps tree_prefix_nodes.
  Proof.
    gs. unfold tree_prefix_nodes. destruct ob as [pr k o| |pr o v x r|pr o v x e| |]; try done.
    - destruct Hid as [v' Hid]. destruct Hob as [[Ho Hsn] Ho']. destruct x as [| | | | | | | | | | | | | | | | | | | | |y]; try done.
    destruct v as [l|l|b|t|t ok]; [discriminate Hid..|]. destruct (GInv_tree _ _ _ _ Hst Ho) as [Hwf Hneat].
    unfold after_op in Ho'; cbn [ideal] in Hid, Ho'. destruct y as [k w ck|k ck|k d|k f d| |k|k|k|cur| | | |k|k|k|p|p]; try done; cbn [t_ideal] in Hid, Ho'; simplify_eq.
      exists t, ok. split; [done|]. split; [by eapply same_objs|]. split; [done|]. intros Hok. specialize (Hneat Hok).
      unfold t_nodes_for. rewrite -size_dom (needed_is_dom t Hwf Hneat). do 2 f_equal. apply dom_prefix.
    - destruct Hob as [[Ho Hsn] Ho']. destruct x as [| | | | | | | | | | | | | | | | | | | | |y]; try done.
    destruct v as [l|l|b|t|t ok]; [by destruct Hid as [Hid|(_ & Hid & _)]..|].
    destruct Ho' as (v' & Hleft & Ho'). unfold ideal_results in Hid. cbn [left_by ideal requests] in Hleft, Hid.
    destruct y as [k w ck|k ck|k d|k f d| |k|k|k|cur| | | |k|k|k|p|p]; try done; cbn [t_ideal] in Hid; by destruct Hid as [Hid|(_ & Hid & _)].
  Qed.
  Lemma main_tree_prefix_nodes : play (fun _ => True) tree_prefix_nodes.
  Proof. exact (steps_play _ steps_tree_prefix_nodes). Qed.
  Lemma steps_tree_prefix_bytes : steps tree_prefix_bytes.
  Proof.
    gs. unfold tree_prefix_bytes. destruct ob as [pr k o| |pr o v x r|pr o v x e| |]; try done.
    - destruct Hid as [v' Hid]. destruct Hob as [[Ho Hsn] Ho']. destruct x as [| | | | | | | | | | | | | | | | | | | | |y]; try done.
    destruct v as [l|l|b|t|t ok]; [discriminate Hid..|]. destruct (GInv_tree _ _ _ _ Hst Ho) as [Hwf Hneat].
    unfold after_op in Ho'; cbn [ideal] in Hid, Ho'. destruct y as [k w ck|k ck|k d|k f d| |k|k|k|cur| | | |k|k|k|p|p]; try done; cbn [t_ideal] in Hid, Ho'; simplify_eq.
      exists t, ok. split; [done|]. split; [by eapply same_objs|]. split; [done|]. intros _. cbn [footprint]. f_equal. by apply whole_bytes.
    - destruct Hob as [[Ho Hsn] Ho']. destruct x as [| | | | | | | | | | | | | | | | | | | | |y]; try done.
    destruct v as [l|l|b|t|t ok]; [by destruct Hid as [Hid|(_ & Hid & _)]..|].
    destruct Ho' as (v' & Hleft & Ho'). unfold ideal_results in Hid. cbn [left_by ideal requests] in Hleft, Hid.
    destruct y as [k w ck|k ck|k d|k f d| |k|k|k|cur| | | |k|k|k|p|p]; try done; cbn [t_ideal] in Hid; by destruct Hid as [Hid|(_ & Hid & _)].
  Qed.
  Lemma main_tree_prefix_bytes : play (fun _ => True) tree_prefix_bytes.
  Proof. exact (steps_play _ steps_tree_prefix_bytes). Qed.
  Lemma main_tree_incr : play (fun _ => True) tree_incr_adds.
  Proof.
    g. unfold tree_incr_adds. destruct ob as [pr k o| |pr o v x r|pr o v x e| |]; try done.
    - destruct Hid as [v' Hid]. destruct Hob as [[Ho Hsn] Ho']. destruct x as [| | | | | | | | | | | | | | | | | | | | |y]; try done.
    destruct v as [l|l|b|t|t ok]; [discriminate Hid..|]. destruct (GInv_tree _ _ _ _ Hst Ho) as [Hwf Hneat].
    unfold after_op in Ho'; cbn [ideal] in Hid, Ho'. destruct y as [k w ck|k ck|k d|k f d| |k|k|k|cur| | | |k|k|k|p|p]; try done; cbn [t_ideal] in Hid, Ho'.
      + destruct (t_incr (t_map t) k d) as [z|] eqn:E; [|done]. simplify_eq. exists (t_map t), z.
        split; [by eexists _, t|]. split; [eexists _, _; split; [exact Ho'|done]|]. split; [done|].
        unfold t_incr in E. destruct (t_map t !! k) as [[s|z'|b|b|]|]; simplify_eq; apply wraps_wrap64.
      + destruct (t_incr_double f (t_map t) k d) as [z|] eqn:E; [|done]. simplify_eq. exists (t_map t), z, (stored (PDouble z)).
        split; [by eexists _, t|]. split; [eexists _, _; split; [exact Ho'|done]|]. split; [done|]. split; [apply stored_same|].
        unfold t_incr_double in E. destruct (t_map t !! k) as [[s|z'|b|b|]|]; by simplify_eq.
    - destruct Hob as [[Ho Hsn] Ho']. destruct x as [| | | | | | | | | | | | | | | | | | | | |y]; try done.
    destruct v as [l|l|b|t|t ok]; [by destruct Hid as [Hid|(_ & Hid & _)]..|]. destruct (GInv_tree _ _ _ _ Hst Ho) as [Hwf Hneat].
    destruct Ho' as (v' & Hleft & Ho'). unfold ideal_results in Hid. cbn [left_by ideal requests] in Hleft, Hid. destruct Hleft as (t' & -> & Hleft). destruct Hleft as [_ Hleft]. destruct y as [k w ck|k ck|k d|k f d| |k|k|k|cur| | | |k|k|k|p|p]; try done; cbn [t_ideal] in Hid;
        exists (t_map t); (split; [by eexists _, t|]).
      + assert (Hk := Hsn). destruct Hk as (Hk & _). cbn in Hk.
        assert (∀ pr', out_of_space pr' (g_w st) (t_requests t (TIncr k d)) e → e = RuntimeError ∧
          (¬ may_grow pr' (g_w st) (w_size (g_w st) + tree_room k PNull)) ∧
          (∃ (t0 : ptree) (ok0 : bool), g_objs st' = <[o:=VTree t0 ok0]> (g_objs st) ∧ t_map t0 = t_map t)) as Hoom.
        { intros pr' (-> & _ & Hg). split; [done|]. split.
          - intros Hgg. apply Hg. eapply grow_less; [exact Hgg|]. apply Zplus_le_compat_l. cbn [t_requests].
            destruct (reach_sizes_bound _ _ k [] Hwf Hk), (incr_sizes_bound t k (PInt <$> t_incr (t_map t) k d)); [by destruct (t_incr (t_map t) k d)|].
            by apply tree_space_bound.
          - cbn [t_left] in Hleft. destruct Hleft as (_ & E & _). by eexists _, _. }
        assert (∀ v, t_map t !! k = Some v → match v with PInt _ => False | _ => True end → e = OutOfRange ∧ g_objs st' = g_objs st) as Hty.
        { intros v Hv Hm. destruct Hid as [Hid|(_ & Hne & _)].
          - destruct (t_incr (t_map t) k d) eqn:E; [done|]. simplify_eq. split; [done|]. try (cbn [t_left] in Hleft; subst t').
            rewrite andb_true_r in Ho'. by eapply same_objs.
          - destruct Hne. cbn [t_requests]. assert (reach_sizes (t_nodes t) [] k = []) as ->.
            { apply (stored_reach_sizes (t_map t)); [done|by rewrite (wf_root _ _ Hwf)|by exists v]. }
            unfold t_incr. rewrite Hv. by destruct v. }
        destruct (t_map t !! k) as [v|] eqn:E.
        * destruct v as [s|z|b|b|]; try by eapply Hty. apply Hoom. destruct Hid as [Hid|Hid]; [|done].
          unfold t_incr in Hid. by rewrite E in Hid.
        * apply Hoom. destruct Hid as [Hid|Hid]; [|done]. unfold t_incr in Hid. by rewrite E in Hid.
      + assert (Hk := Hsn). destruct Hk as ([Hk _] & _).
        assert (∀ pr', out_of_space pr' (g_w st) (t_requests t (TIncrDouble k f d)) e → e = RuntimeError ∧
          (¬ may_grow pr' (g_w st) (w_size (g_w st) + tree_room k PNull)) ∧
          (∃ (t0 : ptree) (ok0 : bool), g_objs st' = <[o:=VTree t0 ok0]> (g_objs st) ∧ t_map t0 = t_map t)) as Hoom.
        { intros pr' (-> & _ & Hg). split; [done|]. split.
          - intros Hgg. apply Hg. eapply grow_less; [exact Hgg|]. apply Zplus_le_compat_l. cbn [t_requests].
            destruct (reach_sizes_bound _ _ k [] Hwf Hk), (incr_sizes_bound t k (PDouble <$> t_incr_double f (t_map t) k d)); [by destruct (t_incr_double f (t_map t) k d)|].
            by apply tree_space_bound.
          - cbn [t_left] in Hleft. destruct Hleft as (_ & E & _). by eexists _, _. }
        assert (∀ v, t_map t !! k = Some v → match v with PDouble _ => False | _ => True end → e = OutOfRange ∧ g_objs st' = g_objs st) as Hty.
        { intros v Hv Hm. destruct Hid as [Hid|(_ & Hne & _)].
          - destruct (t_incr_double f (t_map t) k d) eqn:E; [done|]. simplify_eq. split; [done|]. try (cbn [t_left] in Hleft; subst t').
            rewrite andb_true_r in Ho'. by eapply same_objs.
          - destruct Hne. cbn [t_requests]. assert (reach_sizes (t_nodes t) [] k = []) as ->.
            { apply (stored_reach_sizes (t_map t)); [done|by rewrite (wf_root _ _ Hwf)|by exists v]. }
            unfold t_incr_double. rewrite Hv. by destruct v. }
        destruct (t_map t !! k) as [v|] eqn:E.
        * destruct v as [s|z|b|b|]; try by eapply Hty. apply Hoom. destruct Hid as [Hid|Hid]; [|done].
          unfold t_incr_double in Hid. by rewrite E in Hid.
        * apply Hoom. destruct Hid as [Hid|Hid]; [|done]. unfold t_incr_double in Hid. by rewrite E in Hid.
  Qed.
  Lemma main_tree_counts : play (fun st => emptied_tree_owns_root_only st /\ no_leak al st) tree_counts.
  Proof.
    g; [split; [|by eapply GInv_no_leak]; intros o t Ho Hm; destruct (GInv_tree _ _ _ _ Hst Ho) as [Hwf Hn]|].
    { pose proof (neat_empty t Hwf (Hn eq_refl) Hm) as E. split; [done|]. cbn [footprint]. f_equal. unfold t_bytes. rewrite E Hm.
      unfold node_sizes, all_val_sizes. by rewrite delete_singleton !map_to_list_empty. }
    unfold tree_counts. destruct ob as [pr k o| |pr o v x r|pr o v x e| |]; try done.
    destruct Hid as [v' Hid]. destruct Hob as [[Ho Hsn] Ho']. destruct x as [| | | | | | | | | | | | | | | | | | | | |y]; try done.
    destruct v as [l|l|b|t|t ok]; [discriminate Hid..|]. destruct (GInv_tree _ _ _ _ Hst Ho) as [Hwf Hneat].
    unfold after_op in Ho'; cbn [ideal] in Hid, Ho'. destruct y as [k w ck|k ck|k d|k f d| |k|k|k|cur| | | |k|k|k|p|p]; try done; cbn [t_ideal] in Hid, Ho'; simplify_eq;
      exists (t_map t), ok; (split; [by exists t|]); (split; [by eapply same_objs|]); intros Hok; specialize (Hneat Hok).
    - destruct Hneat as [-> _]. rewrite Z.add_0_r. do 2 f_equal. apply u64_small. pose proof (size_bound t Hwf) as Hb. pose proof (GInv_tree_bytes _ _ _ _ Hst Ho) as Hm.
      unfold is_u64. clear -Hb Hm. lia.
    - pose proof Hneat as (_ & -> & _). rewrite needed_is_dom // size_dom Z.add_0_r. do 2 f_equal. apply u64_small.
      pose proof (nodes_bound t Hwf) as Hb. pose proof (GInv_tree_bytes _ _ _ _ Hst Ho) as Hm.
      unfold is_u64. clear -Hb Hm. lia.
  Qed.
  Lemma main_tree_cas : play (fun _ => True) tree_compare_and_set.
  Proof.
    g. unfold tree_compare_and_set. destruct ob as [pr k o| |pr o v x r|pr o v x e| |]; try done.
    destruct Hid as [v' Hid]. destruct Hob as [[Ho Hsn] Ho']. destruct x as [| | | | | | | | | | | | | | | | | | | | |y]; try done.
    destruct v as [l|l|b|t|t ok]; [discriminate Hid..|]. destruct (GInv_tree _ _ _ _ Hst Ho) as [Hwf Hneat].
    unfold after_op in Ho'; cbn [ideal] in Hid, Ho'. destruct y as [k w ck|k ck|k d|k f d| |k|k|k|cur| | | |k|k|k|p|p]; try done; cbn [t_ideal] in Hid, Ho';
      pose proof (holds_check (t_map t) ck) as Hc; exists (t_map t); (split; [by eexists _, t|]);
      destruct (t_holds (t_map t) ck); simplify_eq.
    - left. split; [by apply Hc|]. split; [done|]. exists (stored w). split; [apply stored_same|].
      eexists _, _. split; [exact Ho'|done].
    - right. split; [intros H; by apply Hc in H|]. split; [done|]. by eapply same_objs.
    - left. split; [by apply Hc|]. split; [eexists _, _; split; [exact Ho'|apply t_erase_map]|].
      intros Hs. by rewrite stored_exists.
    - right. split; [intros H; by apply Hc in H|]. split; [done|]. by eapply same_objs.
  Qed.
End main.
