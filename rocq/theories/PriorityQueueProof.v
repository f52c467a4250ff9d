(** * PriorityQueue: representation and proofs. *)
From Verif Require Export PriorityQueueModel HeapPure StructLib QueueProof.
From iris.proofmode Require Import tactics.
From iris.prelude Require Import options.
Open Scope Z_scope.
Open Scope prog_scope.

Notation item := (Z * list Z)%type.
Definition arr_at (a : Z) (l : list Z) : hPropI := ([∗ list] i ↦ x ∈ l, word (a + 8 * Z.of_nat i) x)%I.
Definition items (L : list item) : hPropI := ([∗ list] x ∈ L, pts x.1 x.2)%I.
Definition raws (G : blocks) : hPropI := ([∗ list] g ∈ G, raw g.1 (g.1 + g.2))%I.
Definition item_blocks (L : list item) : blocks := map (λ x, (x.1, dlen x.2)) L.

Lemma arr_acc a l i x : l !! i = Some x →
  arr_at a l ⊢ word (a + 8 * Z.of_nat i) x ∗
    (∀ y, word (a + 8 * Z.of_nat i) y -∗ arr_at a (<[i := y]> l)).
Proof.
  iIntros (Hi) "H". iDestruct (big_sepL_insert_acc with "H") as "[$ W]"; [exact Hi|].
  iIntros (y) "H". by iApply "W".
Qed.
Lemma arr_snoc a l x : arr_at a (l ++ [x]) ⊣⊢ arr_at a l ∗ word (a + 8 * Z.of_nat (length l)) x.
Proof. unfold arr_at. rewrite big_sepL_app /= right_id Nat.add_0_r. done. Qed.
Lemma items_perm L L' : L ≡ₚ L' → items L ⊢ items L'.
Proof. intros HP. unfold items. by rewrite HP. Qed.
Lemma items_acc x L : x ∈ L → items L ⊢ pts x.1 x.2 ∗ (pts x.1 x.2 -∗ items L).
Proof.
  intros [i Hi]%elem_of_list_lookup. iIntros "H".
  iDestruct (big_sepL_lookup_acc with "H") as "[$ W]"; [exact Hi|]. done.
Qed.

Lemma wp_load_prefix {RR : Rep} {A} n a d (k : list Z → prog A) Φ Ψ : (n <= length d)%nat →
  pts a d -∗ (pts a d -∗ wp (k (take n d)) Φ Ψ) -∗ wp (x <- load_bytes a n ;; k x) Φ Ψ.
Proof.
  iIntros (Hn) "H W". rewrite -{1 2}(take_drop n d) pts_app. iDestruct "H" as "[H1 H2]".
  iApply (wp_load_bytes_b with "H1"); [rewrite take_length; lia|]. iIntros "H1".
  iApply "W". iFrame.
Qed.

Lemma arr_store_nth {RR : Rep} {A} a l i x v z (k : unit → prog A) Φ Ψ : l !! i = Some x → is_u64 v → z = a + 8 * Z.of_nat i →
  arr_at a l -∗ (arr_at a (<[i := v]> l) -∗ wp (k tt) Φ Ψ) -∗ wp (y <- store64 z v ;; k y) Φ Ψ.
Proof.
  iIntros (Hi Hv ->) "H W". iDestruct (arr_acc with "H") as "[Hw Hc]"; [exact Hi|].
  iApply (wp_store64 with "Hw"); [done|]. iIntros "Hw". iApply "W". by iApply "Hc".
Qed.
Lemma arr_load_nth {RR : Rep} {A} a l i x z (k : Z → prog A) Φ Ψ : l !! i = Some x → z = a + 8 * Z.of_nat i →
  arr_at a l -∗ (arr_at a l -∗ wp (k x) Φ Ψ) -∗ wp (y <- load64 z ;; k y) Φ Ψ.
Proof.
  iIntros (Hi ->) "H W". iDestruct (arr_acc with "H") as "[Hw Hc]"; [exact Hi|].
  iApply (wp_load64 with "Hw"). iIntros "Hw". iApply "W".
  iDestruct ("Hc" with "Hw") as "H". by rewrite list_insert_id.
Qed.

Lemma fst_total (L : list item) i : (i < length L)%nat → L.*1 !! i = Some ((L !!! i).1).
Proof. intros Hi. rewrite list_lookup_fmap (list_lookup_lookup_total_lt _ _ Hi) //. Qed.
Lemma total_in (L : list item) i : (i < length L)%nat → L !!! i ∈ L.
Proof. intros. by apply elem_of_list_lookup_total_2. Qed.
Lemma shiftr_par t : (0 < t)%nat → Z.shiftr (Z.of_nat t - 1) 1 = Z.of_nat (par t).
Proof.
  intros Ht. rewrite Z.shiftr_div_pow2; [|lia]. change (2 ^ 1) with 2. unfold par.
  rewrite Nat2Z.inj_div Nat2Z.inj_sub; [done|lia].
Qed.
Lemma swapl_fst_hole (L : list item) t p j : (t < length L)%nat → (p < length L)%nat → t ≠ p →
  <[t := (L !!! p).1]> (<[t := j]> (L.*1)) = <[p := (L !!! p).1]> ((swapl t p L).*1).
Proof.
  intros Ht Hp Hne. rewrite list_insert_insert. unfold swapl. rewrite !list_fmap_insert.
  rewrite (list_insert_commute _ p t); [|done]. rewrite list_insert_insert.
  f_equal. symmetry. apply list_insert_id. by apply fst_total.
Qed.

Lemma list_snoc_cases {A} (l : list A) : l = [] ∨ ∃ l' x, l = l' ++ [x].
Proof. destruct l as [|x l _] using rev_ind; [by left|right; eauto]. Qed.

Section pq.
  Context {RR : Rep} {PR : PoolRep} {al : allocator} (S : alloc_spec al) (c : cfg).
  Notation ainv := (ainv S c).

  Lemma wp_pq_less {A} B s L a da b db (k : bool → prog A) Φ Ψ :
    item_blocks L ⊆ B → (a, da) ∈ L → (b, db) ∈ L →
    ainv B s -∗ items L -∗
    (ainv B s -∗ items L -∗ wp (k (lex_lt da db)) Φ Ψ) -∗
    wp (x <- pq_less al a b ;; k x) Φ Ψ.
  Proof.
    iIntros (HB Ha Hb) "H HL W". unfold pq_less. wpn.
    iApply (wp_block_size with "H").
    { apply HB. apply elem_of_list_fmap. exists (a, da). done. } iIntros "H". wpn.
    iApply (wp_block_size with "H").
    { apply HB. apply elem_of_list_fmap. exists (b, db). done. } iIntros "H". wpn.
    set (n := Z.to_nat _).
    assert (n = Nat.min (length da) (length db)) as Hn.
    { unfold n, dlen. simpl. case_bool_decide; lia. }
    simpl. iDestruct (items_acc (a, da) with "HL") as "[Hp HL]"; [done|].
    iApply (wp_load_prefix with "Hp"); [simpl; lia|]. iIntros "Hp". iDestruct ("HL" with "Hp") as "HL". wpn.
    iDestruct (items_acc (b, db) with "HL") as "[Hp HL]"; [done|].
    iApply (wp_load_prefix with "Hp"); [simpl; lia|]. iIntros "Hp". iDestruct ("HL" with "Hp") as "HL". wpn.
    rewrite Hn. unfold dlen. rewrite memcmp_lex. iApply ("W" with "H HL").
  Qed.

  Local Opaque pq_less.
  Lemma item_blocks_perm L L' : L ≡ₚ L' → item_blocks L ≡ₚ item_blocks L'.
  Proof. intros HP. unfold item_blocks. by apply Permutation_map. Qed.

  Definition addr_ok (L : list item) (a : Z) : Prop :=
    (∀ x, x ∈ L → is_u64 x.1) ∧ Z.of_nat (length L) <= 2 ^ 62.
  Lemma addr_ok_perm L L' a : L ≡ₚ L' → addr_ok L a → addr_ok L' a.
  Proof. intros HP [H1 H2]. split; [|by rewrite -HP]. intros x. rewrite -HP. apply H1. Qed.

  Lemma wp_sift_down_loop B s arr : ∀ F L t j Φ Ψ,
    item_blocks L ⊆ B → addr_ok L arr → (t < length L)%nat → (t < F)%nat → heap_dn snd t L →
    ainv B s -∗ items L -∗ arr_at arr (<[t := j]> (L.*1)) -∗
    (∀ L', ⌜L' ≡ₚ L ∧ heap_ok snd L'⌝ -∗ ainv B s -∗ items L' -∗ arr_at arr (L'.*1) -∗ Φ tt) -∗
    wp (pq_sift_down_loop al F arr 0 (Z.of_nat t) (L !!! t).1) Φ Ψ.
  Proof.
    induction F as [|F IH]; intros L t j Φ Ψ HB Hok Ht HF Hh; [lia|].
    iIntros "H HL Ha W". cbn [pq_sift_down_loop].
    assert (is_u64 (L !!! t).1) as Hu by (apply Hok; by apply total_in).
    assert ((<[t:=j]> (L.*1)) !! t = Some j) as Hj.
    { apply list_lookup_insert. by rewrite fmap_length. }
    case_bool_decide as Htp.
    2:{ assert (t = 0%nat) as -> by lia. iApply bind_ret_r.
        iApply (arr_store_nth with "Ha"); [exact Hj|done|lia|]. iIntros "Ha". iApply wp_ret.
        iApply ("W" with "[] H HL [Ha]").
        - iPureIntro. split; [done|]. eapply heap_dn_done; [done|exact Hh|by left].
        - rewrite list_insert_insert list_insert_id; [done|]. by apply fst_total. }
    rewrite shiftr_par; [|lia]. pose proof (par_lt t ltac:(lia)) as Hp.
    assert ((<[t:=j]> (L.*1)) !! par t = Some (L !!! par t).1) as Hpl.
    { rewrite list_lookup_insert_ne; [|lia]. apply fst_total. lia. }
    iApply (arr_load_nth with "Ha"); [exact Hpl|done|]. iIntros "Ha".
    iApply (wp_pq_less _ _ L (L !!! t).1 (L !!! t).2 (L !!! par t).1 (L !!! par t).2 with "H HL");
      [done|rewrite -surjective_pairing; by apply total_in|rewrite -surjective_pairing; apply total_in; lia|].
    iIntros "H HL". destruct (lex_lt (L !!! t).2 (L !!! par t).2) eqn:El; cbn [negb].
    - iApply (arr_load_nth with "Ha"); [exact Hpl|done|]. iIntros "Ha".
      iApply (arr_store_nth with "Ha"); [exact Hj|apply Hok; apply total_in; lia|done|]. iIntros "Ha".
      pose proof (swapl_perm t (par t) L ltac:(lia) ltac:(lia)) as HP.
      rewrite swapl_fst_hole; [|lia|lia|lia].
      pose proof (swapl_lookup t (par t) (par t) L ltac:(lia) ltac:(lia)) as Hsl.
      rewrite decide_False in Hsl; [|lia]. rewrite decide_True in Hsl; [|done].
      rewrite -Hsl.
      iApply (IH (swapl t (par t) L) (par t) with "H [HL] Ha").
      + rewrite (item_blocks_perm _ _ HP). done.
      + by eapply addr_ok_perm.
      + rewrite swapl_length. lia.
      + lia.
      + apply heap_dn_step; [lia|done|done].
      + by iApply (items_perm with "HL").
      + iIntros (L' [HL' Hh']) "H HL Ha". iApply ("W" with "[] H HL Ha"). iPureIntro.
        split; [by rewrite HL'|done].
    - iApply bind_ret_r.
      iApply (arr_store_nth with "Ha"); [exact Hj|done|lia|]. iIntros "Ha". iApply wp_ret.
      iApply ("W" with "[] H HL [Ha]").
      + iPureIntro. split; [done|]. eapply heap_dn_done; [done|exact Hh|right]. exact El.
      + rewrite list_insert_insert list_insert_id; [done|]. by apply fst_total.
  Qed.

  Lemma wp_sift_down B s base arr L t Φ Ψ :
    item_blocks L ⊆ B → addr_ok L arr → (t < length L)%nat → heap_dn snd t L →
    ainv B s -∗ word (base + 16) arr -∗ items L -∗ arr_at arr (L.*1) -∗
    (∀ L', ⌜L' ≡ₚ L ∧ heap_ok snd L'⌝ -∗ ainv B s -∗ word (base + 16) arr -∗
        items L' -∗ arr_at arr (L'.*1) -∗ Φ tt) -∗
    wp (pq_sift_down al base 0 (Z.of_nat t)) Φ Ψ.
  Proof.
    iIntros (HB Hok Ht Hh) "H Hb HL Ha W". unfold pq_sift_down.
    iApply (wp_load64 with "Hb"). iIntros "Hb".
    iApply (arr_load_nth with "Ha"); [by apply fst_total|done|]. iIntros "Ha".
    iApply (wp_sift_down_loop _ _ _ _ L t (L !!! t).1 with "H HL [Ha]"); [done|done|done|lia|done| |].
    { rewrite list_insert_id; [done|]. by apply fst_total. }
    iIntros (L' HL') "H HL Ha". iApply ("W" with "[//] H Hb HL Ha").
  Qed.

  Lemma wp_sift_up_loop {A} B s base arr n : ∀ F L t j (k : Z → prog A) Φ Ψ,
    item_blocks L ⊆ B → addr_ok L arr → n = length L → (t < n)%nat → (n <= F + t)%nat → heap_up snd t L →
    ainv B s -∗ word base (Z.of_nat n) -∗ items L -∗ arr_at arr (<[t := j]> (L.*1)) -∗
    (∀ L' t' j', ⌜L' ≡ₚ L ∧ (t' < n)%nat ∧ heap_dn snd t' L' ∧ L' !!! t' = L !!! t⌝ -∗
        ainv B s -∗ word base (Z.of_nat n) -∗ items L' -∗
        arr_at arr (<[t' := j']> (L'.*1)) -∗ wp (k (Z.of_nat t')) Φ Ψ) -∗
    wp (x <- pq_sift_up_loop al F base arr (Z.of_nat t) ;; k x) Φ Ψ.
  Proof.
    induction F as [|F IH]; intros L t j k Φ Ψ HB Hok Hn Ht HF Hh; [lia|].
    pose proof Hok as [Hoka Hokl].
    iIntros "H Hb HL Ha W". cbn [pq_sift_up_loop]. wpn.
    rewrite (u64_small (2 * Z.of_nat t + 1)); [|lia].
    iApply (wp_load64 with "Hb"). iIntros "Hb". case_bool_decide as Hleft.
    2:{ wpn. iApply ("W" $! L t j with "[] H Hb HL Ha"). iPureIntro. split_and!; [done|done| |done].
        apply heap_up_leaf; [lia|done]. }
    wpn. iApply (wp_load64 with "Hb"). iIntros "Hb".
    rewrite (u64_small (2 * Z.of_nat t + 1 + 1)); [|lia].
    (* the least child *)
    iAssert (∀ (k' : Z → prog A),
      (∀ u, ⌜(0 < u < n)%nat ∧ par u = t ∧
             (∀ i, (0 < i < n)%nat → par i = t → lex_le (L !!! u).2 (L !!! i).2)⌝ -∗
         ainv B s -∗ items L -∗ arr_at arr (<[t := j]> (L.*1)) -∗ wp (k' (Z.of_nat u)) Φ Ψ) -∗
      wp (least <- (if bool_decide (2 * Z.of_nat t + 1 + 1 < Z.of_nat n)
         then lv <- load64 (arr + 8 * (2 * Z.of_nat t + 1)) ;;
              rv <- load64 (arr + 8 * (2 * Z.of_nat t + 1 + 1)) ;;
              l <- pq_less al lv rv ;;
              Ret (if negb l then 2 * Z.of_nat t + 1 + 1 else 2 * Z.of_nat t + 1)
         else Ret (2 * Z.of_nat t + 1)) ;; k' least) Φ Ψ)%I with "[H HL Ha]" as "Hleast".
    { iIntros (k') "W".
      assert (par (2 * t + 1) = t) as Hp1 by (apply par_eq; lia).
      case_bool_decide as Hright.
      - assert (par (2 * t + 2) = t) as Hp2 by (apply par_eq; lia).
        wpn. iApply (arr_load_nth _ _ (2 * t + 1) (L !!! (2 * t + 1)%nat).1 with "Ha").
        { rewrite list_lookup_insert_ne; [|lia]. apply fst_total. lia. } { lia. }
        iIntros "Ha". wpn.
        iApply (arr_load_nth _ _ (2 * t + 2) (L !!! (2 * t + 2)%nat).1 with "Ha").
        { rewrite list_lookup_insert_ne; [|lia]. apply fst_total. lia. } { lia. }
        iIntros "Ha". wpn.
        iApply (wp_pq_less _ _ L (L !!! (2 * t + 1)%nat).1 (L !!! (2 * t + 1)%nat).2 (L !!! (2 * t + 2)%nat).1 (L !!! (2 * t + 2)%nat).2 with "H HL");
          [done|rewrite -surjective_pairing; apply total_in; lia|rewrite -surjective_pairing; apply total_in; lia|].
        iIntros "H HL". wpn.
        destruct (lex_lt (L !!! (2 * t + 1)%nat).2 (L !!! (2 * t + 2)%nat).2) eqn:El; cbn [negb].
        + replace (2 * Z.of_nat t + 1) with (Z.of_nat (2 * t + 1)) by lia.
          iApply ("W" with "[] H HL Ha"). iPureIntro. split_and!; [lia|lia|done|].
          intros i Hi Hpi. apply par_eq in Hpi; [|lia]. destruct Hpi as [->| ->]; [apply lex_le_refl|by apply lex_lt_le].
        + replace (2 * Z.of_nat t + 1 + 1) with (Z.of_nat (2 * t + 2)) by lia.
          iApply ("W" with "[] H HL Ha"). iPureIntro. split_and!; [lia|lia|done|].
          intros i Hi Hpi. apply par_eq in Hpi; [|lia]. destruct Hpi as [->| ->]; [exact El|apply lex_le_refl].
      - wpn. replace (2 * Z.of_nat t + 1) with (Z.of_nat (2 * t + 1)) by lia.
        iApply ("W" with "[] H HL Ha"). iPureIntro. split_and!; [lia|lia|done|].
        intros i Hi Hpi. apply par_eq in Hpi; [|lia]. destruct Hpi as [->| ->]; [apply lex_le_refl|lia]. }
    wpn. iApply "Hleast". iIntros (u (Hu & Hpu & Hmin)) "H HL Ha". wpn.
    pose proof (par_lt u ltac:(lia)) as Hut.
    iApply (arr_load_nth _ _ u (L !!! u).1 with "Ha").
    { rewrite list_lookup_insert_ne; [|lia]. apply fst_total. lia. } { done. }
    iIntros "Ha". wpn.
    assert ((<[t:=j]> (L.*1)) !! t = Some j) as Hj.
    { apply list_lookup_insert. rewrite fmap_length. lia. }
    iApply (arr_store_nth with "Ha"); [exact Hj|apply Hok; apply total_in; lia|done|]. iIntros "Ha".
    pose proof (swapl_perm t u L ltac:(lia) ltac:(lia)) as HP.
    rewrite swapl_fst_hole; [|lia|lia|lia].
    iApply (IH (swapl t u L) u with "H Hb [HL] Ha").
    - rewrite (item_blocks_perm _ _ HP). done.
    - by eapply addr_ok_perm.
    - by rewrite swapl_length.
    - lia.
    - lia.
    - apply heap_up_step; [lia|lia|done|done|]. subst n. done.
    - by iApply (items_perm with "HL").
    - iIntros (L' t' j' (HL' & Ht' & Hd & Hl)) "H Hb HL Ha". iApply ("W" with "[] H Hb HL Ha").
      iPureIntro. split_and!; [by rewrite HL'|done|done|]. rewrite Hl swapl_lookup; [|lia|lia].
      rewrite decide_False; [|lia]. by rewrite decide_True.
  Qed.

  Local Opaque pq_sift_up_loop.
  Lemma wp_sift_up {A} B s base arr L (k : unit → prog A) Φ Ψ :
    item_blocks L ⊆ B → addr_ok L arr → L ≠ [] → heap_up snd 0 L →
    ainv B s -∗ word base (Z.of_nat (length L)) -∗ word (base + 16) arr -∗ items L -∗ arr_at arr (L.*1) -∗
    (∀ L', ⌜L' ≡ₚ L ∧ heap_ok snd L'⌝ -∗ ainv B s -∗ word base (Z.of_nat (length L)) -∗
        word (base + 16) arr -∗ items L' -∗ arr_at arr (L'.*1) -∗ wp (k tt) Φ Ψ) -∗
    wp (x <- pq_sift_up al base 0 ;; k x) Φ Ψ.
  Proof.
    iIntros (HB Hok Hne Hh) "H Hc Hb HL Ha W". unfold pq_sift_up. wpn.
    assert (0 < length L)%nat as Hlen by (destruct L; simpl; [done|lia]).
    iApply (wp_load64 with "Hb"). iIntros "Hb". wpn.
    iApply (arr_load_nth _ _ 0 with "Ha"); [by apply fst_total|done|]. iIntros "Ha". wpn.
    iApply (wp_load64 with "Hc"). iIntros "Hc". wpn.
    iApply (wp_sift_up_loop B s base arr (length L) _ L 0 (L !!! 0%nat).1 with "H Hc HL [Ha]");
      [done|done|done|done|lia|done| |].
    { rewrite list_insert_id; [done|]. by apply fst_total. }
    iIntros (L' t' j' (HL' & Ht' & Hd & Hl)) "H Hc HL Ha". wpn.
    assert (length L' = length L) as Hll by (by rewrite HL').
    assert ((<[t':=j']> (L'.*1)) !! t' = Some j') as Hj.
    { apply list_lookup_insert. rewrite fmap_length. lia. }
    iApply (arr_store_nth with "Ha"); [exact Hj| |done|].
    { apply Hok. by apply total_in. }
    iIntros "Ha". rewrite list_insert_insert -Hl list_insert_id; [|apply fst_total; lia].
    iApply wp_bind. iApply (wp_sift_down with "H Hb HL Ha").
    - rewrite (item_blocks_perm _ _ HL'). done.
    - by eapply addr_ok_perm.
    - lia.
    - done.
    - iIntros (L2 [HL2 Hh2]) "H Hb HL Ha". iApply ("W" with "[] H Hc Hb HL Ha").
      iPureIntro. split; [by rewrite HL2|done].
  Qed.

  (** ** Representation *)
  Definition arr_blk (cap arr : Z) : blocks := if bool_decide (cap = 0) then [] else [(arr, 8 * cap)].
  (** [G]: the arrays that were replaced by larger ones; they are never freed. *)
  Definition pq_shape (cap arr : Z) (G : blocks) : Prop :=
    (cap = 0 ∧ arr = 0 ∧ G = []) ∨
    ∃ k : nat, cap = 32 * 2 ^ Z.of_nat k ∧ sum_sz G = 256 * (2 ^ Z.of_nat k - 1).
  Definition pq_blocks (o cap arr : Z) (G : blocks) (L : list item) : blocks :=
    (o, 24) :: arr_blk cap arr ++ G ++ item_blocks L.
  Definition pq_core (o cap arr : Z) (L : list item) (G : blocks) : hPropI :=
    (word o (Z.of_nat (length L)) ∗ word (o + 8) cap ∗ word (o + 16) arr ∗
     arr_at arr (L.*1) ∗ raw (arr + 8 * Z.of_nat (length L)) (arr + 8 * cap) ∗ items L ∗ raws G)%I.
  Definition pq_rep (o : Z) (v : list (list Z)) (B : blocks) : hPropI :=
    (∃ cap arr L G, ⌜lsorted v ∧ L.*2 ≡ₚ v ∧ heap_ok snd L ∧ Z.of_nat (length L) <= cap ∧
        pq_shape cap arr G ∧ B ≡ₚ pq_blocks o cap arr G L⌝ ∗ pq_core o cap arr L G)%I.

  Lemma item_blocks_cons x L : item_blocks (x :: L) = (x.1, dlen x.2) :: item_blocks L.
  Proof. done. Qed.
  Lemma item_blocks_snoc L x : item_blocks (L ++ [x]) = item_blocks L ++ [(x.1, dlen x.2)].
  Proof. unfold item_blocks. by rewrite map_app. Qed.
  Lemma sum_sz_items L : sum_sz (item_blocks L) = q_total (L.*2).
  Proof.
    induction L as [|[a d] L IH]; [done|].
    change (q_total (((a, d) :: L).*2)) with (dlen d + q_total (L.*2)).
    change (sum_sz (item_blocks ((a, d) :: L))) with (dlen d + sum_sz (item_blocks L)). lia.
  Qed.
  Lemma sum_sz_cons x B : sum_sz (x :: B) = x.2 + sum_sz B.
  Proof. done. Qed.

  Lemma pq_bounds o cap arr G L B Bf s :
    B ≡ₚ pq_blocks o cap arr G L → Z.of_nat (length L) <= cap → pq_shape cap arr G →
    ainv (B ++ Bf) s ⊢ ⌜320 < o ∧ o + 24 <= 2 ^ 62 ∧ 16 * cap <= 2 ^ 62 ∧ addr_ok L arr ∧
       is_u64 arr ∧ arr + 8 * cap <= 2 ^ 62 ∧ (cap ≠ 0 → 320 < arr ∧ (arr, (8 * cap)%Z) ∈ B) ∧
       item_blocks L ⊆ B⌝.
  Proof.
    iIntros (HB Hcap Hsh) "H". iDestruct (ainv_facts with "H") as %[(H1 & H2 & H3) [H4 H5]]. iPureIntro.
    assert (item_blocks L ⊆ B) as Hsub.
    { intros x Hx. rewrite HB. right. apply elem_of_app. right. apply elem_of_app. by right. }
    assert (0 <= sum_sz Bf) as Hf.
    { apply sum_sz_nonneg. intros a n Hin. eapply H1. apply elem_of_app. by right. }
    destruct (H1 o 24) as (?&?&?&?). { apply in_app_l. rewrite HB. by left. }
    assert (cap ≠ 0 → (arr, 8 * cap) ∈ B) as Harr.
    { intros Hc. rewrite HB. right. apply elem_of_app. left. unfold arr_blk.
      rewrite bool_decide_eq_false_2 //. by left. }
    assert (cap ≠ 0 → 320 < arr ∧ arr + 8 * cap <= s_m s) as Harr2.
    { intros Hc. destruct (H1 arr (8 * cap)) as (?&?&?&?); [|done]. apply in_app_l. by apply Harr. }
    assert (16 * cap <= 2 ^ 62) as Hc2.
    { destruct Hsh as [(->&_)|(k & -> & _)]; [lia|].
      assert (32 * 2 ^ Z.of_nat k ≠ 0) as Hk by (pose proof (Z.pow_pos_nonneg 2 (Z.of_nat k) ltac:(lia) ltac:(lia)); lia).
      apply Harr2 in Hk.
      assert (2 ^ (8 + Z.of_nat k) < 2 ^ 62) as Hlt.
      { rewrite Z.pow_add_r; [|lia|lia]. change (2 ^ 8) with 256. lia. }
      apply Z.pow_lt_mono_r_iff in Hlt; [|lia|lia].
      transitivity (2 ^ (9 + Z.of_nat k)); [rewrite Z.pow_add_r; [|lia|lia]; change (2 ^ 9) with 512; lia|].
      apply Z.pow_le_mono_r; lia. }
    assert (is_u64 arr ∧ arr + 8 * cap <= 2 ^ 62) as [Hau Hae].
    { destruct (decide (cap = 0)) as [->|Hc]; [|apply Harr2 in Hc; unfold is_u64; lia].
      destruct Hsh as [(_ & -> & _)|(k & Hk & _)]; [done|].
      pose proof (Z.pow_pos_nonneg 2 (Z.of_nat k) ltac:(lia) ltac:(lia)). lia. }
    repeat match goal with |- _ ∧ _ => split end;
      [done|lia|done| |done|done|intros Hc; split; [by apply Harr2|by apply Harr]|done].
    split; [|lia]. intros [a d] Hin. destruct (H1 a (dlen d)) as (?&?&?&?).
    { apply in_app_l. apply Hsub. apply elem_of_list_fmap. by exists (a, d). }
    unfold is_u64, dlen in *. simpl. lia.
  Qed.

  Lemma wp_pq_create Bf s Φ Ψ : as_size_ok S 24 →
    ainv Bf s -∗
    ((∀ o B' s', ⌜ext c (room 24) False s s' ∧ 320 < o < 2 ^ 62⌝ -∗ ainv (B' ++ Bf) s' -∗ pq_rep o [] B' -∗ Φ o) ∧
     (⌜¬ grow_allowed c (s_m s + room 24)⌝ -∗ ainv Bf s -∗ Ψ RuntimeError)) -∗
    wp (pq_create al) Φ Ψ.
  Proof.
    iIntros (Hs) "H W". unfold pq_create, pq_alloc_base.
    iApply (wp_allocate with "H"); [done|]. iSplit; [|by iDestruct "W" as "[_ W]"].
    iIntros (o s' Ho) "H R".
    iDestruct (raw_words1 with "R") as "[[%v W0] R]"; [lia|].
    iDestruct (raw_words1 with "R") as "[[%v' W8] R]"; [lia|].
    iDestruct (raw_words1 with "R") as "[[%v'' W16] R]"; [lia|].
    replace (o + 8 + 8) with (o + 16) by lia.
    iApply (wp_store64 with "W0"); [done|]. iIntros "W0". wpn.
    iApply (wp_store64 with "W8"); [done|]. iIntros "W8". wpn.
    iApply (wp_store64 with "W16"); [done|]. iIntros "W16". wpn. iApply wp_ret.
    iDestruct "W" as "[W _]". iApply ("W" $! o [(o, 24)] with "[] H").
    { iPureIntro. split; [tauto|lia]. }
    iExists 0, 0, [], []. iSplit.
    - iPureIntro. split_and!; [constructor|done| |done|left; done|done]. intros i Hi. simpl in Hi. lia.
    - unfold pq_core, arr_at, items, raws. simpl. iFrame. rewrite right_id. iSplit; [done|].
      change (Z.of_nat 0) with 0. replace (0 + 8 * 0) with 0 by lia. iSplit; [iApply raw_empty|done].
  Qed.

  (** The constructor that uses the pool's base object. *)
  Lemma wp_pq_open_base `{!BaseFree S} Bf s Φ Ψ : as_size_ok S 24 → is_u64 (s_bo s) →
    ainv Bf s -∗
    ((⌜s_bo s ≠ 0⌝ -∗ ainv Bf s -∗ Φ (s_bo s)) ∧
     (∀ o B' s', ⌜s_bo s = 0 ∧ s_bo s' = o ∧ ext c (room 24) False s (Ast (s_K s') 0 (s_m s') (s_e s')) ∧ 320 < o < 2 ^ 62⌝ -∗
        ainv (B' ++ Bf) s' -∗ pq_rep o [] B' -∗ Φ o) ∧
     (⌜s_bo s = 0 ∧ ¬ grow_allowed c (s_m s + room 24)⌝ -∗ ainv Bf s -∗ Ψ RuntimeError)) -∗
    wp (pq_open_base al) Φ Ψ.
  Proof.
    iIntros (Hs Hbo) "H W". unfold pq_open_base. iApply (wp_get_base with "H"). iIntros "H".
    case_bool_decide as Hb.
    - iApply wp_bind. change (pq_alloc_base al) with (pq_create al).
      iApply (wp_pq_create with "H"); [done|]. iSplit.
      2:{ iIntros (Hg) "H". iDestruct "W" as "[_ [_ W]]". iApply ("W" with "[] H"). done. }
      iIntros (o B' s' Ho) "H HR". iApply (wp_set_base with "H"); [unfold is_u64; lia|apply base_free|]. iIntros "H".
      iApply wp_ret. iDestruct "W" as "[_ [W _]]". iApply ("W" with "[] H HR").
      iPureIntro. destruct Ho as ((?&Hbo'&?&?)&?). simpl. rewrite Hb in Hbo'.
      split_and!; try done; lia.
    - iApply wp_ret. iDestruct "W" as "[W _]". by iApply "W".
  Qed.

  (** ** push *)
  Definition pq_push_rest (o : Z) (d : list Z) : prog unit :=
    item <- al_allocate al (Z.of_nat (length d)) ;;
    store_bytes item d ;;
    arr <- load64 (o + 16) ;;
    count <- load64 o ;;
    store64 (arr + 8 * count) item ;;
    count <- load64 o ;;
    store64 o (u64 (count + 1)) ;;
    count <- load64 o ;;
    pq_sift_down al o 0 (u64 (count - 1)).

  Lemma wp_pq_push_rest o v cap arr L G B Bf s d Φ Ψ :
    bytes_ok d → as_size_ok S (dlen d) →
    lsorted v → L.*2 ≡ₚ v → heap_ok snd L → Z.of_nat (length L) < cap → pq_shape cap arr G →
    B ≡ₚ pq_blocks o cap arr G L →
    ainv (B ++ Bf) s -∗ pq_core o cap arr L G -∗
    ((∀ B' s', ⌜ext c (room (dlen d)) False s s'⌝ -∗ ainv (B' ++ Bf) s' -∗
        pq_rep o (insert_sorted d v) B' -∗ Φ tt) ∧
     (⌜¬ grow_allowed c (s_m s + room (dlen d))⌝ -∗ ainv (B ++ Bf) s -∗ pq_rep o v B -∗ Ψ RuntimeError)) -∗
    wp (pq_push_rest o d) Φ Ψ.
  Proof.
    iIntros (Hd Hsz Hv HL Hh Hlt Hsh HB) "H Hq W".
    iDestruct (pq_bounds with "H") as %(Ho & Ho2 & Hcap & Hok & Hau & Hae & Harr & Hsub); [done|lia|done|].
    unfold pq_push_rest. fold (dlen d).
    iApply (wp_allocate with "H"); [done|]. iSplit.
    2:{ iIntros (Hg) "H". iDestruct "W" as "[_ W]". iApply ("W" with "[//] H"). iExists cap, arr, L, G.
        iFrame. iPureIntro. split_and!; try done. lia. }
    iIntros (a s' (Hext & Ha1 & Ha2 & Ha3)) "H R". iDestruct "W" as "[W _]".
    iDestruct "Hq" as "(H0 & H8 & H16 & Ha & Hr & HL & HG)".
    iApply (wp_store_bytes_b with "R"); [done|unfold dlen; lia|]. iIntros "Hp".
    iApply (wp_load64 with "H16"). iIntros "H16".
    iApply (wp_load64 with "H0"). iIntros "H0".
    iDestruct (raw_words1 with "Hr") as "[[%x Hx] Hr]"; [lia|].
    assert (is_u64 a) as Hua by (unfold is_u64, dlen in *; lia).
    iApply (wp_store64 with "Hx"); [done|]. iIntros "Hx".
    iApply (wp_load64 with "H0"). iIntros "H0".
    destruct Hok as [Hok1 Hok2].
    rewrite (u64_small (Z.of_nat (length L) + 1)); [|lia].
    iApply (wp_store64 with "H0"); [unfold is_u64; lia|]. iIntros "H0".
    iApply (wp_load64 with "H0"). iIntros "H0".
    rewrite (u64_small (Z.of_nat (length L) + 1 - 1)); [|lia].
    replace (Z.of_nat (length L) + 1 - 1) with (Z.of_nat (length L)) by lia.
    iApply (wp_sift_down ((a, dlen d) :: B ++ Bf) s' o arr (L ++ [(a, d)]) (length L) with "H H16 [HL Hp] [Ha Hx]").
    - rewrite item_blocks_snoc. intros x0 [Hx|Hx]%elem_of_app.
      + right. apply elem_of_app. left. by apply Hsub.
      + apply elem_of_list_singleton in Hx as ->. by left.
    - split; [|rewrite app_length /=; lia]. intros x0 [Hx| ->%elem_of_list_singleton]%elem_of_app; [by apply Hok1|done].
    - rewrite app_length /=. lia.
    - by apply heap_snoc.
    - unfold items. rewrite big_sepL_app /=. iFrame.
    - rewrite fmap_app /= arr_snoc fmap_length. iFrame.
    - iIntros (L' [HL' Hh']) "H H16 HL Ha".
      assert (length L' = Datatypes.S (length L)) as Hlen by (rewrite HL' app_length /=; lia).
      iApply ("W" $! ((a, dlen d) :: B) s' with "[] H"); [done|].
      iExists cap, arr, L', G. iSplit.
      + iPureIntro. split_and!; [by apply insert_sorted_sorted| |done|lia|done|].
        * rewrite insert_sorted_perm HL' fmap_app /= HL. symmetry. apply Permutation_cons_append.
        * rewrite HB. unfold pq_blocks. rewrite (item_blocks_perm _ _ HL') item_blocks_snoc /=.
          rewrite (perm_swap (o, 24)). f_equiv. rewrite !app_assoc. apply Permutation_cons_append.
      + unfold pq_core. rewrite Hlen. iFrame.
        replace (Z.of_nat (Datatypes.S (length L))) with (Z.of_nat (length L) + 1) by lia. iFrame.
        by replace (arr + 8 * Z.of_nat (length L) + 8) with (arr + 8 * (Z.of_nat (length L) + 1)) by lia.
  Qed.

  Lemma wp_pq_copy {A} old new : ∀ n done_ todo (k : unit → prog A) Φ Ψ,
    n = length todo → (∀ x, x ∈ todo → is_u64 x) →
    arr_at old (done_ ++ todo) -∗ arr_at new done_ -∗
    raw (new + 8 * Z.of_nat (length done_)) (new + 8 * Z.of_nat (length (done_ ++ todo))) -∗
    (arr_at old (done_ ++ todo) -∗ arr_at new (done_ ++ todo) -∗ wp (k tt) Φ Ψ) -∗
    wp (x <- pq_copy n (Z.of_nat (length done_)) old new ;; k x) Φ Ψ.
  Proof.
    induction n as [|n IH]; intros dn todo k Φ Ψ Hn Hu; iIntros "Ho Hn R W".
    - destruct todo; [|done]. rewrite app_nil_r. cbn [pq_copy]. wpn. iApply ("W" with "Ho Hn").
    - destruct todo as [|x todo]; [done|]. cbn [pq_copy]. wpn.
      iApply (arr_load_nth _ _ (length dn) x with "Ho").
      { rewrite lookup_app_r; [|lia]. by rewrite Nat.sub_diag. } { done. }
      iIntros "Ho".
      iDestruct (raw_words1 with "R") as "[[%y Hy] R]"; [rewrite app_length /=; lia|].
      wpn. iApply (wp_store64 with "Hy"); [apply Hu; by left|]. iIntros "Hy". 
      iPoseProof (IH (dn ++ [x]) todo k Φ Ψ with "[Ho] [Hn Hy] [R] [W]") as "G".
      + simpl in Hn. lia.
      + intros z Hz. apply Hu. by right.
      + by rewrite -app_assoc.
      + rewrite arr_snoc. iFrame.
      + rewrite -app_assoc !app_length /=.
        by replace (new + 8 * Z.of_nat (length dn) + 8) with (new + 8 * Z.of_nat (length dn + 1)) by lia.
      + by rewrite -app_assoc.
      + rewrite app_length /=. by replace (Z.of_nat (length dn + 1)) with (Z.of_nat (length dn) + 1) by lia.
  Qed.
  Lemma arr_raw a l b : b = a + 8 * Z.of_nat (length l) → arr_at a l ⊢ raw a b.
  Proof.
    intros ->. induction l as [|x l IH] using rev_ind.
    - iIntros "_". simpl. change (Z.of_nat 0) with 0. replace (a + 8 * 0) with a by lia. iApply raw_empty.
    - rewrite arr_snoc app_length /=. iIntros "[R W]". iDestruct (IH with "R") as "R".
      iDestruct (word_raw with "W") as "W"; [reflexivity|].
      iApply (raw_split _ (a + 8 * Z.of_nat (length l))); [lia|]. iFrame "R".
      by replace (a + 8 * Z.of_nat (length l) + 8) with (a + 8 * Z.of_nat (length l + 1)) by lia.
  Qed.


  Lemma wp_pq_push o v B Bf s d Φ Ψ :
    bytes_ok d → as_size_ok S (dlen d) →
    (∀ n, n <= 2 ^ 62 → n = 256 ∨ n = 16 * Z.of_nat (length v) ∧ 0 < n → as_size_ok S n) →
    ainv (B ++ Bf) s -∗ pq_rep o v B -∗
    ((∀ B' s', ⌜ext c (pq_need (length v) d) False s s'⌝ -∗ ainv (B' ++ Bf) s' -∗
        pq_rep o (insert_sorted d v) B' -∗ Φ tt) ∧
     (∀ B' s', ⌜¬ grow_allowed c (s_m s + pq_need (length v) d) ∧ ext c (pq_need (length v) d) False s s'⌝ -∗
        ainv (B' ++ Bf) s' -∗ pq_rep o v B' -∗ Ψ RuntimeError)) -∗
    wp (pq_push al o d) Φ Ψ.
  Proof.
    iIntros (Hd Hsz Hszg) "H (%cap & %arr & %L & %G & %Hpure & Hq) W".
    destruct Hpure as (Hv & HL & Hh & Hlt & Hsh & HB).
    iDestruct (pq_bounds with "H") as %(Ho & Ho2 & Hcap & Hok & Hau & Hae & Harr & Hsub); [done|lia|done|].
    assert (length v = length L) as Hlen by (by rewrite -HL fmap_length).
    assert (0 <= dlen d) as Hdl by (unfold dlen; lia).
    unfold pq_push. fold (pq_push_rest o d).
    iDestruct "Hq" as "(H0 & H8 & H16 & Ha & Hr & HL & HG)".
    iApply (wp_load64 with "H8"). iIntros "H8".
    iApply (wp_load64 with "H0"). iIntros "H0".
    case_bool_decide as Hc0.
    { (* first array *)
      subst cap. assert (L = []) as -> by (destruct L; simpl in *; [done|lia]).
      assert (arr = 0 ∧ G = []) as [-> ->].
      { destruct Hsh as [(_&?&?)|(k & Hk & _)]; [done|]. pose proof (Z.pow_pos_nonneg 2 (Z.of_nat k) ltac:(lia) ltac:(lia)). lia. }
      wpn. change (32 * 8) with 256. iApply (wp_allocate with "H"); [apply Hszg; [lia|by left]|]. iSplit.
      2:{ iIntros (Hg) "H". iDestruct "W" as "[_ W]". iApply ("W" $! B s with "[] H").
          - iPureIntro. split; [|eapply ext_weaken; [apply ext_refl|unfold pq_need, room; lia|done]].
            intros Hg'. apply Hg. eapply grow_allowed_mono; [|exact Hg']. unfold pq_need, room. lia.
          - iExists 0, 0, [], []. iFrame. done. }
      iIntros (a s1 (Hext & Ha1 & Ha2 & Ha3)) "H R". wpn.
      iApply (wp_load64 with "H16"). iIntros "H16".
      rewrite bool_decide_eq_true_2; [|lia]. wpn.
      iApply (wp_load64 with "H0"). iIntros "H0". simpl length. cbn [Z.to_nat pq_copy Z.of_nat]. wpn.
      iApply (wp_store64 with "H16"); [unfold is_u64; lia|]. iIntros "H16".
      iApply (wp_store64 with "H8"); [done|]. iIntros "H8".
      iApply (wp_pq_push_rest o v 32 a [] [] ((a, 256) :: B) Bf s1 d with "H [H0 H8 H16 R]");
        [done|done|done|done|done|simpl; lia|right; exists 0%nat; done| | |].
      { rewrite HB. apply perm_swap. }
      { unfold pq_core, arr_at, items, raws. simpl. iFrame. rewrite !left_id.
        change (Z.of_nat 0) with 0. replace (a + 8 * 0) with a by lia. change (8 * 32) with 256. by iFrame "R". }
      iSplit.
      - iIntros (B' s2 Hext2) "H HR". iDestruct "W" as "[W _]". iApply ("W" with "[] H HR").
        iPureIntro. eapply ext_weaken; [eapply ext_trans; [exact Hext|exact Hext2]|unfold pq_need, room; lia|tauto].
      - iIntros (Hg) "H HR". iDestruct "W" as "[_ W]". iApply ("W" $! ((a, 256) :: B) with "[] H HR").
        iPureIntro. split; [|eapply ext_weaken; [exact Hext|unfold pq_need, room; lia|tauto]].
        intros Hg'. apply Hg. eapply grow_allowed_mono; [|exact Hg'].
        destruct Hext as [? _]. unfold pq_need, room in *. lia. }
    case_bool_decide as Hcl.
    { (* a larger array *)
      destruct (Harr Hc0) as [Harr1 Harr2].
      rewrite (u64_small (cap * 2)); [|lia]. rewrite (u64_small (cap * 2 * 8)); [|lia].
      wpn. iApply (wp_allocate with "H"); [apply Hszg; [lia|right; lia]|]. iSplit.
      2:{ iIntros (Hg) "H". iDestruct "W" as "[_ W]". iApply ("W" $! B s with "[] H").
          - iPureIntro. split; [|eapply ext_weaken; [apply ext_refl|unfold pq_need, room; lia|done]].
            intros Hg'. apply Hg. eapply grow_allowed_mono; [|exact Hg']. unfold pq_need, room. lia.
          - iExists cap, arr, L, G. iFrame. iPureIntro. split_and!; done. }
      iIntros (a s1 (Hext & Ha1 & Ha2 & Ha3)) "H R". wpn.
      iAssert ⌜a ≠ arr⌝%I as %Hne.
      { iDestruct (ainv_facts with "H") as %[(_ & Hnd & _) _]. iPureIntro. simpl in Hnd.
        apply NoDup_cons in Hnd as [Hnd _]. intros ->. apply Hnd.
        apply elem_of_list_fmap. exists (arr, 8 * cap). split; [done|]. by apply in_app_l. }
      iApply (wp_load64 with "H16"). iIntros "H16".
      rewrite bool_decide_eq_true_2; [|lia]. wpn.
      iApply (wp_load64 with "H0"). iIntros "H0". wpn. rewrite Nat2Z.id.
      iDestruct (raw_split _ (a + 8 * cap) with "R") as "[R1 R2]"; [lia|].
      iPoseProof (wp_pq_copy arr a (length L) [] (L.*1)) as "Hcopy"; [by rewrite fmap_length| |].
      { intros x [y [-> Hy]]%elem_of_list_fmap. by apply Hok. }
      simpl app. simpl length. cbn [Z.of_nat].
      iApply ("Hcopy" with "Ha [] [R1]"); [by rewrite /arr_at| |].
      { rewrite fmap_length. change (Z.of_nat 0) with 0. replace (a + 8 * 0) with a by lia. by rewrite -Hcl. }
      iIntros "Ha Hn". wpn.
      iApply (wp_store64 with "H16"); [unfold is_u64; lia|]. iIntros "H16".
      iApply (wp_store64 with "H8"); [unfold is_u64; lia|]. iIntros "H8".
      iApply (wp_pq_push_rest o v (cap * 2) a L ((arr, 8 * cap) :: G) ((a, cap * 2 * 8) :: B) Bf s1 d
               with "H [H0 H8 H16 R2 Hn HL HG Ha Hr]"); [done|done|done|done|done|lia| | | |].
      { right. destruct Hsh as [(?&_)|(k & Hk & HG)]; [lia|]. exists (Datatypes.S k).
        rewrite sum_sz_cons /= HG Nat2Z.inj_succ Z.pow_succ_r; lia. }
      { rewrite HB. unfold pq_blocks, arr_blk. simpl. rewrite !bool_decide_eq_false_2; [|lia|lia].
        replace (8 * (cap * 2)) with (cap * 2 * 8) by lia. apply perm_swap. }
      { unfold pq_core, raws. simpl. iFrame. rewrite -Hcl.
        replace (a + cap * 2 * 8) with (a + 8 * (cap * 2)) by lia. iFrame.
        iApply (arr_raw with "Ha"). rewrite fmap_length. lia. }
      iSplit.
      - iIntros (B' s2 Hext2) "H HR". iDestruct "W" as "[W _]". iApply ("W" with "[] H HR").
        iPureIntro. eapply ext_weaken; [eapply ext_trans; [exact Hext|exact Hext2]|unfold pq_need, room; lia|tauto].
      - iIntros (Hg) "H HR". iDestruct "W" as "[_ W]". iApply ("W" $! ((a, cap * 2 * 8) :: B) with "[] H HR").
        iPureIntro. split; [|eapply ext_weaken; [exact Hext|unfold pq_need, room; lia|tauto]].
        intros Hg'. apply Hg. eapply grow_allowed_mono; [|exact Hg'].
        destruct Hext as [? _]. unfold pq_need, room in *. lia. }
    (* enough room *)
    wpn. iApply (wp_load64 with "H16"). iIntros "H16". wpn.
    iApply (wp_load64 with "H16"). iIntros "H16".
    rewrite bool_decide_eq_false_2; [|tauto]. wpn.
    iApply (wp_pq_push_rest o v cap arr L G B Bf s d with "H [H0 H8 H16 HL HG Ha Hr]");
      [done|done|done|done|done|lia|done|done|iFrame|]. iSplit.
    - iIntros (B' s2 Hext2) "H HR". iDestruct "W" as "[W _]". iApply ("W" with "[] H HR").
      iPureIntro. eapply ext_weaken; [exact Hext2|unfold pq_need, room; lia|tauto].
    - iIntros (Hg) "H HR". iDestruct "W" as "[_ W]". iApply ("W" $! B s with "[] H HR").
      iPureIntro. split; [|eapply ext_weaken; [apply ext_refl|unfold pq_need, room; lia|done]].
      intros Hg'. apply Hg. eapply grow_allowed_mono; [|exact Hg']. unfold pq_need, room. lia.
  Qed.

  (** ** pop *)

  Lemma heap_head_least x (M : list item) v :
    lsorted v → (x :: M).*2 ≡ₚ v → heap_ok snd (x :: M) →
    ∃ v', v = x.2 :: v' ∧ lsorted v' ∧ M.*2 ≡ₚ v'.
  Proof.
    intros Hv HP Hh. destruct v as [|d v'].
    { symmetry in HP. by apply Permutation_nil in HP. }
    assert (d = x.2) as ->.
    { apply lex_le_antisym.
      - assert (x.2 ∈ d :: v') as [->|Hin]%elem_of_cons by (rewrite -HP; by left).
        + apply lex_le_refl.
        + inversion_clear Hv as [|? ? ? Hall]. rewrite Forall_forall in Hall. by apply Hall.
      - assert (d ∈ (x :: M).*2) as Hin by (rewrite HP; by left).
        apply elem_of_list_fmap in Hin as (y & -> & Hin). apply elem_of_list_lookup_total in Hin as (i & Hi & <-).
        exact (heap_ok_min snd (x :: M) i Hh Hi). }
    exists v'. split; [done|]. inversion_clear Hv. split; [done|]. by apply Permutation_cons_inv in HP.
  Qed.

  Lemma wp_pq_pop o v B Bf s Φ Ψ :
    ainv (B ++ Bf) s -∗ pq_rep o v B -∗
    ((∀ d v' B' s', ⌜pq_pop_ideal v = Some (d, v') ∧ ext c 0 (as_leaky S (dlen d)) s s'⌝ -∗
        ainv (B' ++ Bf) s' -∗ pq_rep o v' B' -∗ Φ d) ∧
     (⌜pq_pop_ideal v = None⌝ -∗ ainv (B ++ Bf) s -∗ pq_rep o v B -∗ Ψ OutOfRange)) -∗
    wp (pq_pop al o) Φ Ψ.
  Proof.
    iIntros "H (%cap & %arr & %L & %G & %Hpure & Hq) W".
    destruct Hpure as (Hv & HL & Hh & Hlt & Hsh & HB).
    iDestruct (pq_bounds with "H") as %(Ho & Ho2 & Hcap & Hok & Hau & Hae & Harr & Hsub); [done|lia|done|].
    iDestruct "Hq" as "(H0 & H8 & H16 & Ha & Hr & HL & HG)". unfold pq_pop.
    iApply (wp_load64 with "H0"). iIntros "H0".
    case_bool_decide as Hc0.
    { iApply wp_throw. iDestruct "W" as "[_ W]". iApply ("W" with "[] H").
      - destruct L; [|done]. simpl in HL. apply Permutation_nil in HL as ->. done.
      - iExists cap, arr, L, G. iFrame. iPureIntro. split_and!; done. }
    destruct L as [|[a d] M]; [done|].
    destruct (heap_head_least _ _ _ Hv HL Hh) as (v' & -> & Hv' & HM). simpl in HM.
    (* after the item has been removed from the array *)
    iAssert (∀ L', ⌜L' ≡ₚ M ∧ heap_ok snd L'⌝ -∗ ainv (B ++ Bf) s -∗
        word o (Z.of_nat (length M)) -∗ word (o + 8) cap -∗ word (o + 16) arr -∗
        arr_at arr (L'.*1) -∗ raw (arr + 8 * Z.of_nat (length M)) (arr + 8 * cap) -∗
        items L' -∗ pts a d -∗ raws G -∗
        wp (n <- al_block_size al a ;; d <- load_bytes a (Z.to_nat n) ;; al_free al a ;; Ret d) Φ Ψ)%I
      with "[W]" as "Hk".
    { iIntros (L' [HL' Hh']) "H H0 H8 H16 Ha Hr HL Hd HG".
      assert (B ≡ₚ (a, dlen d) :: pq_blocks o cap arr G L') as HB'.
      { rewrite HB. unfold pq_blocks. rewrite (item_blocks_perm _ _ HL') item_blocks_cons.
        rewrite (perm_swap (o, 24)). f_equiv. simpl. rewrite !app_assoc. symmetry. apply Permutation_middle. }
      iDestruct (ainv_perm _ _ _ ((a, dlen d) :: (pq_blocks o cap arr G L' ++ Bf)) with "H") as "H"; [by rewrite HB'|].
      iApply (wp_block_size with "H"); [by left|]. iIntros "H".
      iApply (wp_load_bytes_b with "Hd"); [unfold dlen; lia|]. iIntros "Hd".
      iApply (wp_free with "H [Hd]"). { iApply (pts_raw with "Hd"). unfold dlen. lia. }
      iIntros (s' Hext) "H". iApply wp_ret. iDestruct "W" as "[W _]".
      iApply ("W" $! d v' (pq_blocks o cap arr G L') with "[//] H").
      iExists cap, arr, L', G. simpl in Hlt. assert (length L' = length M) as Hlen by (by rewrite HL').
      iSplit.
      - iPureIntro. split_and!; [done|by rewrite HL'|done|lia|done|done].
      - unfold pq_core. rewrite Hlen. iFrame. }
    case_bool_decide as Hc1.
    - (* the only item *)
      simpl in Hc1. assert (M = []) as -> by (destruct M; simpl in *; [done|lia]).
      wpn. iApply (wp_load64 with "H16"). iIntros "H16". wpn.
      unfold arr_at, items. simpl. iDestruct "Ha" as "[Ha _]". iDestruct "HL" as "[Hd _]".
      replace (arr + 8 * Z.of_nat 0) with arr by lia.
      iApply (wp_load64 with "Ha"). iIntros "Ha". wpn.
      iApply (wp_store64 with "H0"); [done|]. iIntros "H0". wpn.
      iApply ("Hk" $! [] with "[] H H0 H8 H16 [] [Ha Hr] [] Hd HG").
      + iPureIntro. split; [done|]. intros i Hi. simpl in Hi. lia.
      + by rewrite /arr_at.
      + simpl. replace (arr + 8 * Z.of_nat 0) with arr by lia. simpl in Hlt.
        iApply (words_raw1 with "Ha"); [lia|]. by replace (arr + 8 * Z.of_nat 1) with (arr + 8) by lia.
      + by rewrite /items.
    - (* two or more items *)
      destruct (list_snoc_cases M) as [->|(M' & y & ->)]. { simpl in Hc1. lia. }
      set (Lf := (a, d) :: M' ++ [y]) in *.
      assert (length Lf = Datatypes.S (Datatypes.S (length M'))) as HlenL.
      { unfold Lf. simpl. rewrite app_length /=. lia. }
      wpn. iApply (wp_load64 with "H16"). iIntros "H16". wpn.
      iApply (arr_load_nth _ _ 0 a with "Ha"); [done|lia|]. iIntros "Ha". wpn.
      iApply (arr_load_nth _ _ (Datatypes.S (length M')) y.1 with "Ha").
      { change (((M' ++ [y]).*1) !! length M' = Some y.1).
        rewrite fmap_app lookup_app_r; [|rewrite fmap_length; lia].
        by rewrite fmap_length Nat.sub_diag. }
      { lia. }
      iIntros "Ha". wpn.
      destruct Hok as [Hok1 Hok2].
      iApply (arr_store_nth _ _ 0 a with "Ha"); [done| |lia|].
      { apply Hok1. right. apply elem_of_app. right. by left. }
      iIntros "Ha". wpn.
      rewrite (u64_small (Z.of_nat (length Lf) - 1)); [|lia].
      iApply (wp_store64 with "H0"); [unfold is_u64; lia|]. iIntros "H0". wpn.
      iEval (unfold Lf, items; simpl; rewrite big_sepL_app /=) in "HL".
      iDestruct "HL" as "(Hd & HL & Hy & _)".
      change (<[0%nat := y.1]> (Lf.*1)) with (y.1 :: (M' ++ [y]).*1). rewrite fmap_app.
      iDestruct (arr_snoc arr (y.1 :: M'.*1) with "Ha") as "[Ha Hl]".
      assert (length (M' ++ [y]) = Datatypes.S (length M')) as HlM by (rewrite app_length /=; lia).
      assert ((y :: M') ≡ₚ M' ++ [y]) as HPy by apply Permutation_cons_append.
      iApply (wp_sift_up (B ++ Bf) s o arr (y :: M') with "H [H0] H16 [HL Hy] [Ha]").
      + intros x Hx. apply in_app_l. apply Hsub. unfold Lf. rewrite item_blocks_cons. right.
        by rewrite -(item_blocks_perm _ _ HPy).
      + split; [|simpl in *; lia]. intros x Hx. apply Hok1. right. by rewrite -HPy.
      + done.
      + by apply heap_replace_root in Hh.
      + simpl. by replace (Z.of_nat (Datatypes.S (length M'))) with (Z.of_nat (length Lf) - 1) by lia.
      + unfold items. simpl. iFrame.
      + done.
      + iIntros (L' [HL' Hh']) "H H0 H16 HL Ha". wpn.
        iApply ("Hk" $! L' with "[] H [H0] H8 H16 Ha [Hl Hr] HL Hd HG").
        * iPureIntro. split; [by rewrite HL' HPy|done].
        * by rewrite HlM.
        * rewrite HlM. simpl length. rewrite fmap_length.
          iApply (words_raw1 with "Hl"); [lia|].
          by replace (arr + 8 * Z.of_nat (Datatypes.S (length M')) + 8) with (arr + 8 * Z.of_nat (length Lf)) by lia.
  Qed.

  Lemma wp_pq_clear_loop {A} arr : ∀ L B s (k : unit → prog A) Φ Ψ,
    ainv (item_blocks L ++ B) s -∗ arr_at arr (L.*1) -∗ items L -∗
    (∀ s', ⌜ext c 0 (∃ d, d ∈ L.*2 ∧ as_leaky S (dlen d)) s s'⌝ -∗ ainv B s' -∗ arr_at arr (L.*1) -∗ wp (k tt) Φ Ψ) -∗
    wp (x <- pq_clear_loop al (length L) arr ;; k x) Φ Ψ.
  Proof.
    induction L as [|[a d] L IH] using rev_ind; intros B s k Φ Ψ; iIntros "H Ha HL W".
    - simpl. wpn. iApply ("W" with "[] H Ha"). iPureIntro. eapply ext_weaken; [apply ext_refl|lia|done].
    - rewrite app_length Nat.add_comm. cbn [pq_clear_loop length Nat.add]. wpn.
      rewrite fmap_app /=. iDestruct (arr_snoc with "Ha") as "[Ha Hl]". rewrite fmap_length.
      iApply (wp_load64 with "Hl"). iIntros "Hl". wpn.
      unfold items. rewrite big_sepL_app /=. iDestruct "HL" as "(HL & Hd & _)".
      iDestruct (ainv_perm _ _ _ ((a, dlen d) :: (item_blocks L ++ B)) with "H") as "H".
      { rewrite item_blocks_snoc /=. rewrite -app_assoc /=. symmetry. apply Permutation_middle. }
      iApply (wp_free with "H [Hd]"). { iApply (pts_raw with "Hd"). unfold dlen. lia. }
      iIntros (s1 Hext1) "H". wpn.
      iApply (IH with "H Ha HL"). iIntros (s2 Hext2) "H Ha". iApply ("W" with "[] H [Ha Hl]").
      + iPureIntro. eapply ext_weaken; [eapply ext_trans; [exact Hext1|exact Hext2]|lia|].
        intros [Hl|(e & He & Hl)].
        * exists d. split; [|done]. rewrite fmap_app. apply elem_of_app. right. by left.
        * exists e. split; [|done]. rewrite fmap_app. apply elem_of_app. by left.
      + rewrite arr_snoc fmap_length. iFrame.
  Qed.

  Lemma wp_pq_clear o v B Bf s Φ Ψ :
    ainv (B ++ Bf) s -∗ pq_rep o v B -∗
    (∀ B' s', ⌜ext c 0 (∃ d, d ∈ v ∧ as_leaky S (dlen d)) s s'⌝ -∗
        ainv (B' ++ Bf) s' -∗ pq_rep o [] B' -∗ Φ tt) -∗
    wp (pq_clear al o) Φ Ψ.
  Proof.
    iIntros "H (%cap & %arr & %L & %G & %Hpure & Hq) W".
    destruct Hpure as (Hv & HL & Hh & Hlt & Hsh & HB).
    iDestruct "Hq" as "(H0 & H8 & H16 & Ha & Hr & HL & HG)". unfold pq_clear.
    iApply (wp_load64 with "H16"). iIntros "H16".
    iApply (wp_load64 with "H0"). iIntros "H0".
    iApply (wp_store64 with "H0"); [done|]. iIntros "H0". rewrite Nat2Z.id.
    iDestruct (ainv_perm _ _ _ (item_blocks L ++ (pq_blocks o cap arr G [] ++ Bf)) with "H") as "H".
    { rewrite HB app_assoc. unfold pq_blocks. change (item_blocks []) with ([] : blocks).
      rewrite app_nil_r app_assoc. apply Permutation_app_tail.
      apply (Permutation_app_comm ((o, 24) :: arr_blk cap arr ++ G)). }
    iApply bind_ret_r.
    iApply (wp_pq_clear_loop with "H Ha HL"). iIntros (s' Hext) "H Ha". iApply wp_ret.
    iApply ("W" with "[] H").
    { iPureIntro. eapply ext_weaken; [exact Hext|lia|]. intros (d & Hd & Hl). exists d.
      split; [by rewrite -HL|done]. }
    iExists cap, arr, [], G. iSplit.
    - iPureIntro. split_and!; [constructor|done| |simpl; lia|done|done]. intros i Hi. simpl in Hi. lia.
    - unfold pq_core, items. simpl. iFrame. iSplit; [by rewrite /arr_at|].
      replace (arr + 8 * Z.of_nat 0) with arr by lia.
      iApply (raw_split _ (arr + 8 * Z.of_nat (length L))); [lia|]. iFrame.
      iApply (arr_raw with "Ha"). by rewrite fmap_length.
  Qed.

  Lemma wp_pq_size o v B Bf s Φ Ψ :
    ainv (B ++ Bf) s -∗ pq_rep o v B -∗
    (ainv (B ++ Bf) s -∗ pq_rep o v B -∗ Φ (Z.of_nat (length v))) -∗ wp (pq_size o) Φ Ψ.
  Proof.
    iIntros "H (%cap & %arr & %L & %G & %Hpure & Hc & Hq) W". iApply (wp_load64_t with "Hc"). iIntros "Hc".
    assert (length v = length L) as -> by (destruct Hpure as (_ & <- & _); by rewrite fmap_length).
    iApply ("W" with "H"). iExists cap, arr, L, G. iFrame. done.
  Qed.
End pq.
