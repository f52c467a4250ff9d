(** * HashTable: representation and proofs. *)
From Verif Require Export HashTableModel HashPure StructLib PriorityQueueProof.
From iris.proofmode Require Import tactics.
From iris.prelude Require Import options.
Open Scope Z_scope.
Open Scope prog_scope.

Notation pair := (bytes * bytes)%type.
(** Offset of the IndirectValue (0 if the pair is in the slot itself), offset of the
    pair, the pair. *)
Notation hnode := (Z * Z * pair)%type.
Notation hs := (bool * list hnode)%type.
Definition kv_at (kv : Z) (x : pair) : hPropI := pts kv (x.1 ++ x.2).
Definition nfirst (ns : list hnode) (q : Z) : Z := match ns with [] => q | (a, _, _) :: _ => a end.
Definition nlast (p : Z) (ns : list hnode) : Z := match last ns with Some (a, _, _) => a | None => p end.
Definition hnode_at (a kv : Z) (x : pair) (nx : Z) : hPropI :=
  (word a nx ∗ word (a + 8) kv ∗ word (a + 16) (dlen x.1) ∗ kv_at kv x)%I.
Fixpoint hseg (ns : list hnode) (q : Z) : hPropI :=
  match ns with
  | [] => emp
  | (a, kv, x) :: ns' => hnode_at a kv x (nfirst ns' q) ∗ hseg ns' q
  end%I.
Definition slot_at (s : Z) (p : hs) : hPropI :=
  match p with
  | (false, []) => word s 0 ∗ ∃ y, word (s + 8) y
  | (false, [(_, kv, x)]) => word s kv ∗ word (s + 8) (dlen x.1) ∗ kv_at kv x
  | (true, (a, kv, x) :: ns) => word s (a + 1) ∗ (∃ y, word (s + 8) y) ∗ hseg ((a, kv, x) :: ns) 0
  | _ => False
  end%I.
Definition node_pairs (ns : list hnode) : list pair := map snd ns.
Definition slot_abs (p : hs) : hslot := (p.1, node_pairs p.2).
Definition node_blocks (ind : bool) (y : hnode) : blocks :=
  (y.1.2, pair_size y.2) :: if ind then [(y.1.1, 24)] else [].
Definition slot_blocks (p : hs) : blocks := concat (map (node_blocks p.1) p.2).
Fixpoint slots_at (a : Z) (P : list hs) : hPropI :=
  match P with [] => emp | p :: P' => slot_at a p ∗ slots_at (a + 16) P' end%I.
Definition h_blocks (o so : Z) (P : list hs) : blocks :=
  (o, 24) :: (so, 16 * Z.of_nat (length P)) :: concat (map slot_blocks P).

Lemma slots_at_app a P1 P2 : slots_at a (P1 ++ P2) ⊣⊢ slots_at a P1 ∗ slots_at (a + 16 * Z.of_nat (length P1)) P2.
Proof.
  revert a. induction P1 as [|p P1 IH]; intros a; simpl.
  - rewrite left_id. change (Z.of_nat 0) with 0. by replace (a + 16 * 0) with a by lia.
  - rewrite IH assoc. replace (a + 16 + 16 * Z.of_nat (length P1)) with (a + 16 * Z.of_nat (Datatypes.S (length P1))) by lia. done.
Qed.
Lemma hseg_app ns1 ns2 q : hseg (ns1 ++ ns2) q ⊣⊢ hseg ns1 (nfirst ns2 q) ∗ hseg ns2 q.
Proof.
  induction ns1 as [|[[a kv] x] ns1 IH]; simpl; [by rewrite left_id|].
  rewrite IH -assoc. destruct ns1 as [|[[b w] y] ns1]; done.
Qed.
Lemma hseg_snoc ns1 a kv x q : hseg (ns1 ++ [(a, kv, x)]) q ⊣⊢ hseg ns1 a ∗ hnode_at a kv x q.
Proof. rewrite hseg_app /= right_id //. Qed.
Lemma nlast_snoc p ns a kv x : nlast p (ns ++ [(a, kv, x)]) = a.
Proof. unfold nlast. by rewrite last_snoc. Qed.
Lemma nfirst_app ns1 ns2 q : nfirst (ns1 ++ ns2) q = nfirst ns1 (nfirst ns2 q).
Proof. by destruct ns1 as [|[[a kv] x] ns1]. Qed.

Lemma kv_raw kv x b : b = kv + pair_size x → kv_at kv x ⊢ raw kv b.
Proof. intros ->. apply pts_raw. unfold pair_size, dlen. rewrite app_length. lia. Qed.
Lemma hnode_raw a kv x nx : hnode_at a kv x nx ⊢ raw a (a + 24) ∗ kv_at kv x.
Proof.
  iIntros "(W0 & W8 & W16 & $)". iApply (words_raw1 with "W0"); [lia|].
  iApply (words_raw1 with "W8"); [lia|]. replace (a + 8 + 8) with (a + 16) by lia.
  iApply (word_raw with "W16"). lia.
Qed.
Lemma slot_abs_ok p s : slot_at s p ⊢ ⌜slot_ok (slot_abs p)⌝.
Proof.
  destruct p as [[|] [|[[a kv] x] [|y ns]]]; simpl; try (iIntros "[]"); iIntros "_"; iPureIntro; try done; lia.
Qed.
Lemma land_ones h bits : 0 <= bits → Z.land h (Z.shiftl 1 bits - 1) = h mod 2 ^ bits.
Proof.
  intros Hb. rewrite Z.shiftl_1_l. replace (2 ^ bits - 1) with (Z.ones bits) by (rewrite Z.ones_equiv; lia).
  by apply Z.land_ones.
Qed.

Lemma slot_true sl ns : ns ≠ [] → slot_at sl (true, ns) ⊣⊢ word sl (nfirst ns 0 + 1) ∗ (∃ y, word (sl + 8) y) ∗ hseg ns 0.
Proof. destruct ns as [|[[a kv] x] ns]; done. Qed.
Lemma slot_blocks_len p : (length p.2 <= length (slot_blocks p))%nat.
Proof.
  unfold slot_blocks. destruct p as [ind ns]. simpl.
  induction ns as [|y ns IH]; simpl; [lia|]. rewrite app_length. lia.
Qed.
Lemma keys_app (l1 l2 : list pair) : keys (l1 ++ l2) = keys l1 ++ keys l2.
Proof. apply fmap_app. Qed.
Lemma set_key_split k v l1 w l2 : k ∉ keys l1 → set_key k v (l1 ++ (k, w) :: l2) = l1 ++ (k, v) :: l2.
Proof.
  induction l1 as [|[a b] l1 IH]; intros Hk; simpl.
  - by rewrite bool_decide_eq_true_2.
  - cbn in Hk. apply not_elem_of_cons in Hk as [Hk1 Hk2]. rewrite bool_decide_eq_false_2; [|done]. by rewrite IH.
Qed.
Lemma del_key_split k l1 w l2 : k ∉ keys l1 → del_key k (l1 ++ (k, w) :: l2) = l1 ++ l2.
Proof.
  induction l1 as [|[a b] l1 IH]; intros Hk; simpl.
  - by rewrite bool_decide_eq_true_2.
  - cbn in Hk. apply not_elem_of_cons in Hk as [Hk1 Hk2]. rewrite bool_decide_eq_false_2; [|done]. by rewrite IH.
Qed.
Lemma get_key_found k l1 w l2 : k ∉ keys l1 → get_key k (l1 ++ (k, w) :: l2) = Some w.
Proof.
  intros Hk. apply get_key_None in Hk. rewrite get_key_app Hk. simpl. by rewrite bool_decide_eq_true_2.
Qed.
Lemma slot_put_found k v b l1 w l2 : k ∉ keys l1 →
  slot_put k v (b, l1 ++ (k, w) :: l2) = (b, l1 ++ (k, v) :: l2).
Proof. intros Hk. unfold slot_put. cbn [fst snd]. by rewrite get_key_found // set_key_split. Qed.
Lemma slot_put_absent k v b l : k ∉ keys l → l ≠ [] → slot_put k v (b, l) = (true, l ++ [(k, v)]).
Proof.
  intros Hk Hl. unfold slot_put. cbn [fst snd]. apply get_key_None in Hk. rewrite Hk. by destruct l.
Qed.
Lemma slot_blocks_app b ns1 ns2 : slot_blocks (b, ns1 ++ ns2) = slot_blocks (b, ns1) ++ slot_blocks (b, ns2).
Proof. unfold slot_blocks. simpl. by rewrite map_app concat_app. Qed.
Lemma slot_blocks_cons b y ns : slot_blocks (b, y :: ns) = node_blocks b y ++ slot_blocks (b, ns).
Proof. done. Qed.
Lemma get_key_split k ns1 ns2 : k ∉ keys (node_pairs ns1) →
  get_key k (node_pairs (ns1 ++ ns2)) = get_key k (node_pairs ns2).
Proof.
  intros Hk. unfold node_pairs. rewrite map_app get_key_app.
  apply get_key_None in Hk. unfold node_pairs in Hk. by rewrite Hk.
Qed.
Lemma odd_tag a : a mod 8 = 0 → Z.odd (a + 1) = true ∧ Z.odd a = false ∧ Z.ldiff (a + 1) 1 = a ∧ Z.lor a 1 = a + 1.
Proof.
  intros Ha. assert (a = 2 * (a / 8 * 4)) as E by (pose proof (Z.div_mod a 8 ltac:(lia)); lia).
  set (b := a / 8 * 4) in *. clearbody b. subst a. clear Ha.
  split_and!.
  - rewrite Z.odd_add Z.odd_mul. done.
  - rewrite Z.odd_mul. done.
  - apply Z.bits_inj'. intros n Hn. rewrite Z.ldiff_spec.
    destruct (decide (n = 0)) as [->|].
    + rewrite !Z.bit0_odd Z.odd_mul. simpl. rewrite andb_false_r. done.
    + replace (Z.testbit 1 n) with false; [|symmetry; apply Z.bits_above_log2; simpl; lia].
      rewrite andb_true_r. replace n with (Z.succ (n - 1)) by lia.
      rewrite Z.testbit_odd_succ; [|lia]. rewrite Z.testbit_even_succ; [done|lia].
  - rewrite Z.add_nocarry_lxor.
    + rewrite Z.lxor_lor; [done|]. apply Z.bits_inj'. intros n Hn. rewrite Z.land_spec Z.bits_0.
      destruct (decide (n = 0)) as [->|].
      * rewrite !Z.bit0_odd Z.odd_mul. done.
      * replace (Z.testbit 1 n) with false; [by rewrite andb_false_r|symmetry; apply Z.bits_above_log2; simpl; lia].
    + apply Z.bits_inj'. intros n Hn. rewrite Z.land_spec Z.bits_0.
      destruct (decide (n = 0)) as [->|].
      * rewrite !Z.bit0_odd Z.odd_mul. done.
      * replace (Z.testbit 1 n) with false; [by rewrite andb_false_r|symmetry; apply Z.bits_above_log2; simpl; lia].
Qed.
Lemma kv_value kv x : kv_at kv x ⊢ pts kv x.1 ∗ pts (kv + dlen x.1) x.2.
Proof. unfold kv_at. by rewrite pts_app. Qed.
Lemma kv_value_back kv x : pts kv x.1 -∗ pts (kv + dlen x.1) x.2 -∗ kv_at kv x.
Proof. iIntros "H1 H2". unfold kv_at. rewrite pts_app. iFrame. Qed.
Lemma h_insert_len hsh t k v : h_wf hsh t →
  length (h_items (h_put hsh t k v)) =
    (length (h_items t) + if h_get hsh t k then 0 else 1)%nat.
Proof.
  intros [Ht _]. unfold h_put. pose proof (h_items_len_upd hsh t k (slot_put k v (h_slot_of hsh t k)) Ht) as H.
  assert (length (slot_put k v (h_slot_of hsh t k)).2 = length (h_slot_of hsh t k).2 + if h_get hsh t k then 0 else 1)%nat as E; [|lia].
  unfold h_get. destruct (h_slot_of hsh t k) as [b l]. unfold slot_put. cbn [fst snd].
  destruct (get_key k l); cbn [snd]; [rewrite get_key_set_length; lia|].
  destruct l; simpl; [done|]. rewrite app_length. simpl. lia.
Qed.
Lemma wp_h_count {RR : Rep} {A} o n d (K : unit → prog A) Φ Ψ : is_u64 (n + d) →
  word (o + 16) n -∗ (word (o + 16) (n + d) -∗ wp (K tt) Φ Ψ) -∗ wp (x <- h_count o d ;; K x) Φ Ψ.
Proof.
  iIntros (Hn) "Wc W". unfold h_count. wpn. iApply (wp_load64 with "Wc"). iIntros "Wc". wpn.
  unfold is_u64 in Hn. rewrite (u64_small (n + d)); [|lia]. iApply (wp_store64 with "Wc"); [done|]. done.
Qed.

Section hash.
  Context {RR : Rep} {PR : PoolRep} {al : allocator} (S : alloc_spec al) (c : cfg) (hsh : bytes → Z).
  Notation ainv := (ainv S c).

  Definition h_rep (o : Z) (t : htable) (B : blocks) : hPropI :=
    (∃ bits so P, ⌜t = map slot_abs P ∧ h_wf hsh t ∧ 2 <= bits <= 30 ∧ Z.of_nat (length P) = 2 ^ bits ∧
        B ≡ₚ h_blocks o so P⌝ ∗
      word o bits ∗ word (o + 8) so ∗ word (o + 16) (Z.of_nat (length (h_items t))) ∗ slots_at so P)%I.

  Lemma h_rep_perm o t B B' : B ≡ₚ B' → h_rep o t B ⊢ h_rep o t B'.
  Proof.
    iIntros (HP) "(%bits & %so & %P & %H & R)". iExists bits, so, P. iFrame. iPureIntro.
    destruct H as (?&?&?&?&?). repeat (split; [done|]). by rewrite -HP.
  Qed.
  Lemma h_rep_wf o t B : h_rep o t B ⊢ ⌜h_wf hsh t⌝.
  Proof. iIntros "(%bits & %so & %P & %H & R)". iPureIntro. tauto. Qed.

  (** The table with the slot of [k] taken out; [R] are the blocks of the rest. *)
  Definition h_hole (o : Z) (t : htable) (k : bytes) (bits so : Z) (R : blocks) : hPropI :=
    (⌜2 <= bits <= 30⌝ ∗ word o bits ∗ word (o + 8) so ∗
     ∀ p', ⌜h_wf hsh (<[h_index hsh t k := slot_abs p']> t)⌝ -∗
       word o bits -∗ word (o + 8) so -∗
       word (o + 16) (Z.of_nat (length (h_items (<[h_index hsh t k := slot_abs p']> t)))) -∗
       slot_at (so + 16 * (hsh k mod 2 ^ bits)) p' -∗
       h_rep o (<[h_index hsh t k := slot_abs p']> t) (slot_blocks p' ++ R))%I.

  Lemma h_focus o t B k : h_rep o t B ⊢
    ∃ bits so p R, ⌜slot_abs p = h_slot_of hsh t k ∧ B ≡ₚ slot_blocks p ++ R ∧
       (o, 24) ∈ R ∧ (∃ n, (so, n) ∈ R)⌝ ∗
      word (o + 16) (Z.of_nat (length (h_items t))) ∗
      slot_at (so + 16 * (hsh k mod 2 ^ bits)) p ∗ h_hole o t k bits so R.
  Proof.
    iIntros "(%bits & %so & %P & %H & W0 & W8 & W16 & HS)".
    destruct H as (Ht & Hwf & Hb & Hlen & HB).
    pose proof Hwf as [Hne _]. pose proof (h_index_lt hsh t k Hne) as Hlt.
    pose proof (h_slot_of_lookup hsh t k Hne) as Hs.
    set (i := h_index hsh t k) in *.
    assert (length t = length P) as Hlt' by (by rewrite Ht map_length).
    assert (hsh k mod 2 ^ bits = Z.of_nat i) as Hi.
    { unfold i, h_index. rewrite Hlt' Hlen. rewrite Z2Nat.id; [done|].
      apply Z.mod_pos_bound. apply Z.pow_pos_nonneg; lia. }
    destruct (P !! i) as [p|] eqn:HP; [|apply lookup_ge_None in HP; lia].
    assert (slot_abs p = h_slot_of hsh t k) as Hp.
    { rewrite Ht list_lookup_fmap HP /= in Hs. rewrite -Ht in Hs. by injection Hs. }
    pose proof (take_drop_middle P i p HP) as Hsplit.
    assert (length (take i P) = i) as Htk by (rewrite take_length; lia).
    rewrite -Hsplit slots_at_app Htk. iDestruct "HS" as "(HS1 & Hp & HS2)".
    set (R := (o, 24) :: (so, 16 * Z.of_nat (length P)) ::
       concat (map slot_blocks (take i P)) ++ concat (map slot_blocks (drop (Datatypes.S i) P))).
    iExists bits, so, p, R. rewrite Hi. iFrame "W16 Hp". iSplit.
    { iPureIntro. split_and!; [done| |by left|eexists; right; by left].
      rewrite HB. unfold h_blocks, R. rewrite -{2}Hsplit map_app concat_app. simpl.
      rewrite (app_comm_cons _ _ (so, _)) (app_comm_cons _ _ (o, _)).
      rewrite Permutation_app_swap_app. simpl. done. }
    unfold h_hole. rewrite Hi. iFrame "W0 W8". iSplit; [done|].
    iIntros (p' Hwf') "W0 W8 W16 Hp". iExists bits, so, (<[i := p']> P). iFrame "W0 W8 W16". iSplit.
    { iPureIntro. split; [|split; [done|split; [lia|split; [by rewrite insert_length|]]]].
      - change (h_index hsh t k) with i. clearbody i. rewrite Ht. change (map slot_abs (<[i:=p']> P)) with (slot_abs <$> (<[i:=p']> P)).
        by rewrite list_fmap_insert.
      - unfold h_blocks, R. rewrite insert_length.
        rewrite (insert_take_drop P i p'); [|lia]. rewrite map_app concat_app. simpl.
        rewrite (app_comm_cons _ _ (so, _)) (app_comm_cons _ _ (o, _)).
        rewrite -Permutation_app_swap_app. done. }
    rewrite (insert_take_drop P i p'); [|lia]. rewrite slots_at_app Htk. iFrame.
  Qed.

  (** Putting the same slot back. *)
  Lemma h_unfocus o t k bits so p R : slot_abs p = h_slot_of hsh t k → h_wf hsh t →
    word (o + 16) (Z.of_nat (length (h_items t))) -∗
    slot_at (so + 16 * (hsh k mod 2 ^ bits)) p -∗ h_hole o t k bits so R -∗
    h_rep o t (slot_blocks p ++ R).
  Proof.
    iIntros (Hp Hwf) "Wc Hs (%Hb & W0 & W8 & W)". pose proof Hwf as [Hne _].
    pose proof (h_slot_of_lookup hsh t k Hne) as Hl.
    iDestruct ("W" $! p with "[] W0 W8 [Wc] Hs") as "H"; rewrite Hp list_insert_id //.
  Qed.

  (** Facts about the blocks of a slot. *)
  Lemma slot_block_facts B Bf s p R : B ≡ₚ slot_blocks p ++ R →
    ainv (B ++ Bf) s ⊢ ⌜(∀ o n, (o, n) ∈ slot_blocks p → 320 < o ∧ o mod 8 = 0 ∧ 0 <= n ∧ o + n <= 2 ^ 62) ∧
      (∀ o n, (o, n) ∈ R → 320 < o ∧ o mod 8 = 0 ∧ 0 <= n ∧ o + n <= 2 ^ 62) ∧
      8 * Z.of_nat (length p.2) <= 2 ^ 62⌝.
  Proof.
    iIntros (HB) "H". iDestruct (ainv_facts with "H") as %[(H1 & _ & H3) Hm]. iPureIntro.
    unfold size_ok in Hm. split_and!.
    - intros o n Hin. destruct (H1 o n) as (?&?&?&?); [|split_and!; first [done|lia]].
      apply elem_of_app. left. rewrite HB. apply elem_of_app. by left.
    - intros o n Hin. destruct (H1 o n) as (?&?&?&?); [|split_and!; first [done|lia]].
      apply elem_of_app. left. rewrite HB. apply elem_of_app. by right.
    - assert (0 <= sum_sz (B ++ Bf)) as Hs0.
      { apply sum_sz_nonneg. intros o n Hin. destruct (H1 _ _ Hin) as (?&?&?&?). done. }
      assert (length (B ++ Bf) = length (slot_blocks p) + length R + length Bf)%nat as HL by (rewrite app_length HB app_length; lia).
      assert (length p.2 <= length (slot_blocks p))%nat as Hl.
      { unfold slot_blocks. clear. destruct p as [ind ns]. simpl.
        induction ns as [|y ns IH]; simpl; [lia|]. rewrite app_length. lia. }
      lia.
  Qed.
  Lemma node_in_blocks ind ns y : y ∈ ns → (y.1.2, pair_size y.2) ∈ slot_blocks (ind, ns) ∧
    (ind = true → (y.1.1, 24) ∈ slot_blocks (ind, ns)).
  Proof.
    intros Hin. unfold slot_blocks. simpl. split; [|intros ->];
      apply elem_of_concat; exists (node_blocks ind y) || exists (node_blocks true y);
      (split; [|by apply elem_of_list_fmap_1]); unfold node_blocks; [by left|right; by left].
  Qed.

  Lemma wp_h_slot {A} o t k bits so R (K : Z → prog A) Φ Ψ :
    h_hole o t k bits so R -∗
    (h_hole o t k bits so R -∗ wp (K (so + 16 * (hsh k mod 2 ^ bits))) Φ Ψ) -∗
    wp (x <- h_slot o (hsh k) ;; K x) Φ Ψ.
  Proof.
    iIntros "(%Hb & W0 & W8 & W) HK". unfold h_slot. wpn.
    iApply (wp_load64 with "W8"). iIntros "W8". wpn.
    iApply (wp_load64 with "W0"). iIntros "W0". wpn.
    rewrite land_ones; [|lia]. iApply "HK". iFrame. done.
  Qed.
  Local Opaque h_slot.

  Lemma wp_h_match {A} kv x k (K : bool → prog A) Φ Ψ :
    kv_at kv x -∗ (kv_at kv x -∗ wp (K (bool_decide (k = x.1))) Φ Ψ) -∗
    wp (b <- h_match kv (dlen x.1) k ;; K b) Φ Ψ.
  Proof.
    iIntros "H W". unfold h_match, dlen.
    destruct (bool_decide_reflect (len x.1 = len k)) as [Hl|Hl].
    - wpn. iApply (wp_load_prefix with "H"); [rewrite app_length; lia|]. iIntros "H". wpn.
      rewrite (take_app_alt x.1 x.2); [|lia].
      rewrite (bool_decide_ext (x.1 = k) (k = x.1)); [|split; by intros ->]. by iApply "W".
    - wpn. rewrite bool_decide_eq_false_2; [by iApply "W"|]. intros ->. done.
  Qed.
  Local Opaque h_match.

  Lemma wp_h_walk {A} k : ∀ G ns p (K : Z * Z → prog A) Φ Ψ,
    (length ns <= G)%nat → (∀ y, y ∈ ns → y.1.1 ≠ 0) →
    hseg ns 0 -∗
    (∀ ns1 ns2, ⌜ns = ns1 ++ ns2 ∧ k ∉ keys (node_pairs ns1) ∧
        match ns2 with [] => True | y :: _ => y.2.1 = k end⌝ -∗
       hseg ns 0 -∗ wp (K (nlast p ns1, nfirst ns2 0)) Φ Ψ) -∗
    wp (x <- h_walk G p (nfirst ns 0) k ;; K x) Φ Ψ.
  Proof.
    induction G as [|G IH]; intros ns p K Φ Ψ HG Hnz; iIntros "H W".
    - destruct ns; [|simpl in HG; lia]. cbn [h_walk nfirst]. rewrite bool_decide_eq_true_2; [|done]. wpn.
      iApply ("W" $! [] [] with "[] H"). iPureIntro. split_and!; [done|apply not_elem_of_nil|done].
    - destruct ns as [|[[a kv] x] ns].
      { cbn [h_walk nfirst]. rewrite bool_decide_eq_true_2; [|done]. wpn.
        iApply ("W" $! [] [] with "[] H"). iPureIntro. split_and!; [done|apply not_elem_of_nil|done]. }
      cbn [h_walk nfirst]. rewrite bool_decide_eq_false_2; [|apply (Hnz (a, kv, x)); by left].
      cbn [hseg]. iDestruct "H" as "((W0 & W8 & W16 & Hkv) & H)". wpn.
      iApply (wp_load64 with "W16"). iIntros "W16". wpn.
      iApply (wp_load64 with "W8"). iIntros "W8". wpn.
      iApply (wp_h_match with "Hkv"). iIntros "Hkv".
      case_bool_decide as Hk; wpn.
      + iApply ("W" $! [] ((a, kv, x) :: ns) with "[]"); [|cbn [hseg]; iFrame].
        iPureIntro. split_and!; [done|apply not_elem_of_nil|done].
      + iApply (wp_load64 with "W0"). iIntros "W0". wpn.
        iApply (IH ns a with "H"); [simpl in HG; lia|intros y Hy; apply Hnz; by right|].
        iIntros (ns1 ns2 (-> & Hk1 & Hk2)) "H".
        iSpecialize ("W" $! ((a, kv, x) :: ns1) ns2 with "[] [W0 W8 W16 Hkv H]").
        * iPureIntro. split_and!; [done| |done]. cbn. apply not_elem_of_cons. done.
        * cbn [hseg]. iFrame.
        * destruct ns1 as [|y ns1] using rev_ind; [done|].
          unfold nlast in *. rewrite app_comm_cons !last_snoc. done.
  Qed.
  Local Opaque h_walk.


  Context (F : nat) (HF : 2 ^ 62 <= Z.of_nat F).
  Set Default Proof Using "All".



  (** walk_tables: the value's bytes are handed out. *)
  Lemma wp_h_find {A} o t k B Bf s (K : Z * Z → prog A) Φ Ψ :
    ainv (B ++ Bf) s -∗ h_rep o t B -∗
    ((∀ v vo, ⌜h_get hsh t k = Some v ∧ vo ≠ 0⌝ -∗ ainv (B ++ Bf) s -∗ pts vo v -∗
        (pts vo v -∗ h_rep o t B) -∗ wp (K (vo, dlen v)) Φ Ψ) ∧
     (⌜h_get hsh t k = None⌝ -∗ ainv (B ++ Bf) s -∗ h_rep o t B -∗ wp (K (0, 0)) Φ Ψ)) -∗
    wp (x <- h_find al F hsh o k ;; K x) Φ Ψ.
  Proof.
    iIntros "H HR W". iDestruct (h_rep_wf with "HR") as %Hwf.
    iDestruct (h_focus o t B k with "HR") as "(%bits & %so & %p & %R & %Hpure & Wc & Hs & HO)".
    destruct Hpure as (Hp & HB & _ & [n Hso]).
    iDestruct (slot_block_facts with "H") as %(Hf & HfR & Hlen); [exact HB|].
    destruct (HfR _ _ Hso) as (Hso1 & _ & _ & Hso2).
    iAssert (∀ p', ⌜p' = p⌝ -∗ slot_at (so + 16 * (hsh k mod 2 ^ bits)) p' -∗
       word (o + 16) (length (h_items t)) -∗ h_hole o t k bits so R -∗ h_rep o t B)%I as "Hback".
    { iIntros (p' ->) "Hs Wc HO". iApply h_rep_perm; [symmetry; exact HB|].
      iApply (h_unfocus with "Wc Hs HO"); done. }
    unfold h_get. rewrite -Hp. unfold h_find.
    iDestruct "HO" as "(%Hb & W0 & W8 & HO)". wpn.
    iApply (wp_load64 with "W8"). iIntros "W8". wpn.
    rewrite bool_decide_eq_false_2; [|lia]. wpn.
    iApply (wp_h_slot _ _ _ _ _ R with "[W0 W8 HO]"); [iFrame; done|]. iIntros "HO". wpn.
    set (sl := so + 16 * (hsh k mod 2 ^ bits)).
    destruct p as [[|] [|[[a kv] x] ns]]; cbn [slot_at]; try (iDestruct "Hs" as "[]").
    - (* chain *)
      iDestruct "Hs" as "(Ws & Wy & Hns)".
      destruct (node_in_blocks true ((a, kv, x) :: ns) (a, kv, x)) as [_ Ha]; [by left|].
      destruct (Hf _ _ (Ha eq_refl)) as (Ha1 & Ha8 & _). cbn [fst snd] in Ha1, Ha8.
      destruct (odd_tag a Ha8) as (Hodd & _ & Htag & _).
      iApply (wp_load64 with "Ws"). iIntros "Ws". wpn.
      rewrite bool_decide_eq_false_2; [|lia]. rewrite Hodd. cbn [negb]. wpn. rewrite Htag.
      change a with (nfirst ((a, kv, x) :: ns) 0) at 4.
      iApply (wp_h_walk with "Hns"); [simpl in *; lia| |].
      { intros y Hy. destruct (node_in_blocks true _ y Hy) as [_ Hy2].
        destruct (Hf _ _ (Hy2 eq_refl)) as (?&_). lia. }
      iIntros (ns1 ns2 (Heq & Hk1 & Hk2)) "Hns". rewrite Heq.
      rewrite (get_key_split k ns1 ns2 Hk1). 
      destruct ns2 as [|[[a2 kv2] x2] ns2]; cbn [nfirst].
      + rewrite (bool_decide_eq_false_2 (0 ≠ 0)); [|lia]. wpn. iDestruct "W" as "[_ W]".
        iApply ("W" with "[] H"); [done|]. rewrite -Heq.
        iApply ("Hback" $! (true, (a, kv, x) :: ns) with "[] [Ws Wy Hns] Wc HO"); [done|].
        cbn [slot_at]. iFrame.
      + assert ((a2, kv2, x2) ∈ (a, kv, x) :: ns) as Hin2.
        { rewrite Heq. apply elem_of_app. right. by left. }
        destruct (node_in_blocks true _ _ Hin2) as [Hkv2 Ha2]. specialize (Ha2 eq_refl).
        destruct (Hf _ _ Ha2) as (Ha21 & _). destruct (Hf _ _ Hkv2) as (Hkv21 & _ & Hx0 & Hx2).
        simpl in Hkv21, Hx0, Hx2, Ha21, Hkv2.
        rewrite bool_decide_eq_true_2; [|lia]. wpn.
        rewrite -Heq. iEval (rewrite Heq hseg_app; cbn [hseg]) in "Hns".
        iDestruct "Hns" as "(Hns1 & (V0 & V8 & V16 & Hkv) & Hns2)".
        iApply (wp_load64 with "V8"). iIntros "V8". wpn.
        iApply (wp_load64 with "V16"). iIntros "V16". wpn.
        iApply (wp_block_size with "H").
        { apply elem_of_app. left. rewrite HB. apply elem_of_app. left. exact Hkv2. }
        iIntros "H". wpn. unfold pair_size in *.
        replace (dlen x2.1 + dlen x2.2 - dlen x2.1) with (dlen x2.2) by lia.
        rewrite (u64_small (dlen x2.2)); [|unfold dlen in *; lia].
        simpl in Hk2. iDestruct (kv_value with "Hkv") as "[Hk Hv]".
        iDestruct "W" as "[W _]". iApply ("W" with "[] H Hv").
        { iPureIntro. destruct x2 as [k2 v2]. simpl in *. subst k2.
          rewrite bool_decide_eq_true_2; [|done]. split; [done|unfold dlen; lia]. }
        iIntros "Hv". iApply ("Hback" $! (true, (a, kv, x) :: ns) with "[] [-Wc HO] Wc HO"); [done|].
        cbn [slot_at]. iFrame "Ws Wy". rewrite Heq hseg_app. cbn [hseg]. iFrame "Hns1 Hns2".
        unfold hnode_at. iFrame. iApply (kv_value_back with "Hk Hv").
    - (* empty *)
      iDestruct "Hs" as "[Ws Wy]". iApply (wp_load64 with "Ws"). iIntros "Ws". wpn.
      rewrite bool_decide_eq_true_2; [|done]. wpn. iDestruct "W" as "[_ W]".
      iApply ("W" with "[] H"); [done|].
      iApply ("Hback" $! (false, []) with "[] [Ws Wy] Wc HO"); [done|]. cbn [slot_at]. iFrame.
    - (* direct *)
      destruct ns as [|? ?]; [|iDestruct "Hs" as "[]"].
      iDestruct "Hs" as "(Ws & Wy & Hkv)".
      destruct (node_in_blocks false [(a, kv, x)] (a, kv, x)) as [Hkvb _]; [by left|].
      destruct (Hf _ _ Hkvb) as (Hkv1 & Hkv8 & Hx0 & Hx2). simpl in *.
      destruct (odd_tag kv Hkv8) as (_ & Hodd & _ & _).
      iApply (wp_load64 with "Ws"). iIntros "Ws". wpn.
      rewrite bool_decide_eq_false_2; [|lia]. rewrite Hodd. cbn [negb]. wpn.
      iApply (wp_load64 with "Wy"). iIntros "Wy". wpn.
      iApply (wp_h_match with "Hkv"). iIntros "Hkv". destruct x as [kx vx]. simpl.
      case_bool_decide as Hk; wpn.
      + subst kx. iApply (wp_block_size with "H").
        { apply elem_of_app. left. rewrite HB. apply elem_of_list_here. }
        iIntros "H". wpn. unfold pair_size in *. simpl in *.
        replace (dlen k + dlen vx - dlen k) with (dlen vx) by lia.
        rewrite (u64_small (dlen vx)); [|unfold dlen in *; lia].
        iDestruct (kv_value with "Hkv") as "[Hk Hv]".
        iDestruct "W" as "[W _]". iApply ("W" with "[] H Hv").
        { iPureIntro. simpl. split; [done|unfold dlen; lia]. }
        iIntros "Hv". iApply ("Hback" $! (false, [(a, kv, (k, vx))]) with "[] [-Wc HO] Wc HO"); [done|].
        cbn [slot_at]. iFrame "Ws Wy". iApply (kv_value_back with "Hk Hv").
      + iDestruct "W" as "[_ W]". iApply ("W" with "[] H"); [done|].
        iApply ("Hback" $! (false, [(a, kv, (kx, vx))]) with "[] [-Wc HO] Wc HO"); [done|].
        cbn [slot_at]. iFrame.
  Qed.

  Local Opaque h_find.
  Lemma wp_h_allowed {A} o t chk B Bf s (K : bool → prog A) Φ Ψ :
    ainv (B ++ Bf) s -∗ h_rep o t B -∗
    (ainv (B ++ Bf) s -∗ h_rep o t B -∗ wp (K (h_holds hsh t chk)) Φ Ψ) -∗
    wp (b <- h_allowed al F hsh o chk ;; K b) Φ Ψ.
  Proof.
    iIntros "H HR W". destruct chk as [[k w]|]; cbn [h_allowed h_holds]; [|wpn; by iApply ("W" with "H HR")].
    unfold h_check. cbn [fst snd]. wpn. iApply (wp_h_find with "H HR"). iSplit.
    - iIntros (v vo [Hg Hvo]) "H Hv Hb". rewrite (bool_decide_eq_true_2 (vo ≠ 0)); [|done]. rewrite Hg. destruct w as [w|].
      + unfold dlen. destruct (bool_decide_reflect (len w ≠ len v)) as [Hl|Hl].
        * wpn. iDestruct ("Hb" with "Hv") as "HR". rewrite bool_decide_eq_false_2; [by iApply ("W" with "H HR")|].
          intros [= ->]. done.
        * wpn. iApply (wp_load_bytes_b with "Hv"); [lia|]. iIntros "Hv". wpn.
          iDestruct ("Hb" with "Hv") as "HR".
          rewrite (bool_decide_ext (Some v = Some w) (v = w)); [by iApply ("W" with "H HR")|].
          split; [by intros [= ->]|by intros ->].
      + wpn. iDestruct ("Hb" with "Hv") as "HR". by iApply ("W" with "H HR").
    - iIntros (Hg) "H HR". rewrite (bool_decide_eq_false_2 (0 ≠ 0)); [|lia]. wpn. rewrite Hg.
      destruct w as [w|]; by iApply ("W" with "H HR").
  Qed.
  Local Opaque h_allowed.

  Lemma wp_h_exists o t k B Bf s Φ Ψ :
    ainv (B ++ Bf) s -∗ h_rep o t B -∗
    (ainv (B ++ Bf) s -∗ h_rep o t B -∗ Φ (bool_decide (h_get hsh t k ≠ None))) -∗
    wp (h_exists al F hsh o k) Φ Ψ.
  Proof.
    iIntros "H HR W". unfold h_exists. iApply (wp_h_find with "H HR"). iSplit.
    - iIntros (v vo [Hg Hvo]) "H Hv Hb". rewrite (bool_decide_eq_true_2 (vo ≠ 0)); [|done]. iApply wp_ret.
      iDestruct ("Hb" with "Hv") as "HR". rewrite Hg. by iApply ("W" with "H HR").
    - iIntros (Hg) "H HR". rewrite (bool_decide_eq_false_2 (0 ≠ 0)); [|lia]. iApply wp_ret.
      rewrite Hg. by iApply ("W" with "H HR").
  Qed.
  Lemma wp_h_at o t k B Bf s Φ Ψ :
    ainv (B ++ Bf) s -∗ h_rep o t B -∗
    ((∀ v, ⌜h_get hsh t k = Some v⌝ -∗ ainv (B ++ Bf) s -∗ h_rep o t B -∗ Φ v) ∧
     (⌜h_get hsh t k = None⌝ -∗ ainv (B ++ Bf) s -∗ h_rep o t B -∗ Ψ OutOfRange)) -∗
    wp (h_at al F hsh o k) Φ Ψ.
  Proof.
    iIntros "H HR W". unfold h_at. iApply (wp_h_find with "H HR"). iSplit.
    - iIntros (v vo [Hg Hvo]) "H Hv Hb". rewrite (bool_decide_eq_true_2 (vo ≠ 0)); [|done].
      iApply bind_ret_r. iApply (wp_load_bytes_b with "Hv"); [unfold dlen; lia|]. iIntros "Hv". iApply wp_ret.
      iDestruct ("Hb" with "Hv") as "HR". iDestruct "W" as "[W _]". by iApply ("W" with "[] H HR").
    - iIntros (Hg) "H HR". rewrite (bool_decide_eq_false_2 (0 ≠ 0)); [|lia]. iApply wp_throw.
      iDestruct "W" as "[_ W]". by iApply ("W" with "[] H HR").
  Qed.
  Lemma wp_h_size o t B Φ Ψ :
    h_rep o t B -∗ (h_rep o t B -∗ Φ (Z.of_nat (length (h_items t)))) -∗ wp (h_size o) Φ Ψ.
  Proof using Type.
    iIntros "(%bits & %so & %P & %H & W0 & W8 & W16 & HS) W". unfold h_size. iApply bind_ret_r.
    iApply (wp_load64 with "W16"). iIntros "W16". iApply wp_ret. iApply "W". iExists bits, so, P. by iFrame.
  Qed.


  Lemma h_rep_count o t B Bf s : ainv (B ++ Bf) s -∗ h_rep o t B -∗ ⌜8 * Z.of_nat (length (h_items t)) <= 2 ^ 62⌝.
  Proof.
    iIntros "H (%bits & %so & %P & %Hp & R)". iDestruct (ainv_facts with "H") as %[(H1 & _ & H3) Hm]. iPureIntro.
    destruct Hp as (-> & _ & _ & _ & HB). unfold size_ok in Hm.
    assert (0 <= sum_sz (B ++ Bf)) as Hs0.
    { apply sum_sz_nonneg. intros o' n Hin. destruct (H1 _ _ Hin) as (?&?&?&?). done. }
    assert (length (h_items (map slot_abs P)) <= length (concat (map slot_blocks P)))%nat as Hl.
    { clear. induction P as [|p P IH]; simpl; [lia|]. unfold h_items in *. simpl. rewrite !app_length.
      pose proof (slot_blocks_len p).
      assert (length (node_pairs p.2) = length p.2) by apply map_length. lia. }
    assert (length (concat (map slot_blocks P)) <= length (B ++ Bf))%nat as Hl2.
    { rewrite app_length HB. unfold h_blocks. simpl. lia. }
    lia.
  Qed.

  Local Opaque h_count.

  Lemma h_close o t k bits so R p' : h_wf hsh (<[h_index hsh t k := slot_abs p']> t) →
    h_hole o t k bits so R -∗
    word (o + 16) (Z.of_nat (length (h_items (<[h_index hsh t k := slot_abs p']> t)))) -∗
    slot_at (so + 16 * (hsh k mod 2 ^ bits)) p' -∗
    h_rep o (<[h_index hsh t k := slot_abs p']> t) (slot_blocks p' ++ R).
  Proof using Type. iIntros (Hwf) "(% & W0 & W8 & W) Wc Hs". by iApply ("W" with "[] W0 W8 Wc Hs"). Qed.

  (** slot_put on the concrete slot *)


End hash.
