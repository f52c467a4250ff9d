(** * Queue: representation and proofs. *)
From Verif Require Export QueueModel StructLib.
From iris.proofmode Require Import tactics.
From iris.prelude Require Import options.
Open Scope Z_scope.
Open Scope prog_scope.

Notation qnode := (Z * list Z)%type.
(** Links and data of the nodes [ns] between the node [p] and the node [q]. *)
Fixpoint q_seg (p : Z) (ns : list qnode) (q : Z) : hPropI :=
  match ns with
  | [] => (word (p + 8) q ∗ word q p)%I
  | (a, d) :: ns' => (word (p + 8) a ∗ word a p ∗ pts (a + 16) d ∗ q_seg a ns' q)%I
  end.
Lemma u64_idem_add x y : u64 (u64 x + y) = u64 (x + y).
Proof. unfold u64. rewrite Z.add_mod_idemp_l; lia. Qed.
Definition q_blocks (o : Z) (ns : list qnode) : blocks :=
  (o, 48) :: map (λ x, (x.1, 16 + dlen x.2)) ns.
Definition q_rep (o : Z) (l : list (list Z)) (B : blocks) : hPropI :=
  (∃ ns, ⌜l = map snd ns ∧ B ≡ₚ q_blocks o ns⌝ ∗
     word o (Z.of_nat (length ns)) ∗ word (o + 8) (q_total l) ∗
     word (o + 16) 0 ∗ word (o + 40) 0 ∗ q_seg (o + 16) ns (o + 32))%I.

Lemma q_seg_app p ns1 a d ns2 q :
  q_seg p (ns1 ++ (a, d) :: ns2) q ⊣⊢ q_seg p ns1 a ∗ pts (a + 16) d ∗ q_seg a ns2 q.
Proof.
  revert p; induction ns1 as [|[b e] ns1 IH]; intros p; simpl.
  - iSplit; iIntros "H"; [iDestruct "H" as "($ & $ & $)"|iDestruct "H" as "(($ & $) & $)"].
  - rewrite IH. iSplit; iIntros "H"; [iDestruct "H" as "($ & $ & $ & $)"|iDestruct "H" as "(($ & $ & $ & $) & $ & $)"].
Qed.
Definition q_first (ns : list qnode) (q : Z) : Z := match ns with [] => q | (a, _) :: _ => a end.
Definition q_last (p : Z) (ns : list qnode) : Z := match last ns with Some (a, _) => a | None => p end.
Lemma q_seg_first ns q : ∃ X : hPropI, ∀ p,
  q_seg p ns q ⊣⊢ word (p + 8) (q_first ns q) ∗ word (q_first ns q) p ∗ X.
Proof.
  destruct ns as [|[a d] ns].
  - exists emp%I. intros p. simpl. by rewrite right_id.
  - exists (pts (a + 16) d ∗ q_seg a ns q)%I. done.
Qed.
Lemma q_seg_last p ns : ∃ X : hPropI, ∀ q,
  q_seg p ns q ⊣⊢ word (q_last p ns + 8) q ∗ word q (q_last p ns) ∗ X.
Proof.
  destruct ns as [|[a d] ns _] using rev_ind.
  - exists emp%I. intros p'. simpl. by rewrite right_id.
  - exists (q_seg p ns a ∗ pts (a + 16) d)%I. intros q. rewrite q_seg_app. unfold q_last. rewrite last_snoc /=.
    iSplit; [iIntros "($ & $ & $ & $)"|iIntros "($ & $ & $ & $)"].
Qed.
Lemma q_seg_cut p ns1 a d ns2 q : ∃ X : hPropI,
  (q_seg p (ns1 ++ (a, d) :: ns2) q ⊢ word (q_last p ns1 + 8) a ∗ word a (q_last p ns1) ∗ pts (a + 16) d ∗
     word (a + 8) (q_first ns2 q) ∗ word (q_first ns2 q) a ∗ X) ∧
  (word (q_last p ns1 + 8) (q_first ns2 q) ∗ word (q_first ns2 q) (q_last p ns1) ∗ X ⊢ q_seg p (ns1 ++ ns2) q).
Proof.
  destruct (q_seg_last p ns1) as [X1 HX1]. destruct ns2 as [|[b e] ns2]; simpl.
  - exists X1. rewrite app_nil_r q_seg_app !HX1 /=. split; [iIntros "(($&$&$)&$&$&$)"|done].
  - exists (X1 ∗ pts (b + 16) e ∗ q_seg b ns2 q)%I. rewrite !q_seg_app !HX1 /=. split.
    + iIntros "(($&$&$)&$&$&$&$&$)".
    + iIntros "($&$&$&$&$)".
Qed.
Lemma q_total_app l1 l2 : q_total (l1 ++ l2) = q_total l1 + q_total l2.
Proof. induction l1 as [|x l1 IH]; simpl; [done|]. unfold q_total in *. simpl. lia. Qed.
Lemma q_total_nonneg l : 0 <= q_total l.
Proof. induction l as [|x l IH]; unfold q_total, dlen in *; simpl; lia. Qed.
Lemma sum_sz_nodes ns : sum_sz (map (λ x : qnode, (x.1, 16 + dlen x.2)) ns) =
  16 * Z.of_nat (length ns) + q_total (map snd ns).
Proof. induction ns as [|[a d] ns IH]; unfold sum_sz, q_total in *; simpl in *; lia. Qed.
Lemma q_blocks_perm o ns1 x ns2 :
  q_blocks o (ns1 ++ x :: ns2) ≡ₚ (x.1, 16 + dlen x.2) :: q_blocks o (ns1 ++ ns2).
Proof.
  unfold q_blocks. rewrite !map_app /=. rewrite -Permutation_middle. apply perm_swap.
Qed.

Section queue.
  Context {RR : Rep} {PR : PoolRep} {al : allocator} (S : alloc_spec al) (c : cfg).
  Notation ainv := (ainv S c).

  Lemma q_bounds o ns B Bf s :
    B ≡ₚ q_blocks o ns → ainv (B ++ Bf) s ⊢ ⌜320 < o ∧ o + 48 <= 2 ^ 62 ∧
      Z.of_nat (length ns) + q_total (map snd ns) <= 2 ^ 62 ∧
      (∀ a d, (a, d) ∈ ns → 320 < a ∧ a + 16 + dlen d <= 2 ^ 62 ∧ a ≠ o)⌝.
  Proof.
    iIntros (HB) "H". iDestruct (ainv_facts with "H") as %[(H1 & H2 & H3) [H4 _]]. iPureIntro.
    rewrite sum_sz_app (sum_sz_perm _ _ HB) in H3. unfold q_blocks in H3.
    change (sum_sz ((o, 48) :: ?l)) with (48 + sum_sz l) in H3. rewrite sum_sz_nodes in H3.
    assert (0 <= sum_sz Bf) as Hf.
    { apply sum_sz_nonneg. intros a n Hin. eapply H1. apply elem_of_app. by right. }
    pose proof (q_total_nonneg (map snd ns)).
    destruct (H1 o 48) as (?&?&?&?). { apply in_app_l. rewrite HB. by left. }
    split_and!; [lia|lia|lia|].
    intros a d Hin. destruct (H1 a (16 + dlen d)) as (?&?&?&?).
    { apply in_app_l. rewrite HB. right. apply elem_of_list_fmap. by exists (a, d). }
    split_and!; [lia|lia|].
    rewrite fmap_app in H2. apply NoDup_app in H2 as (H2 & _ & _). rewrite HB in H2.
    simpl in H2. apply NoDup_cons in H2 as [H2 _]. intros ->. apply H2.
    apply elem_of_list_fmap. exists (o, 16 + dlen d). split; [done|].
    apply elem_of_list_fmap. by exists (o, d).
  Qed.

  Lemma wp_q_alloc_base {A} Bf s (k : Z → prog A) Φ Ψ : as_size_ok S 48 →
    ainv Bf s -∗
    ((∀ o s', ⌜ext c (room 48) False s s' ∧ 320 < o ∧ o mod 8 = 0 ∧ o + 48 <= 2 ^ 62⌝ -∗
        ainv ((o, 48) :: Bf) s' -∗ word o 0 -∗ word (o + 8) 0 -∗ raw (o + 16) (o + 48) -∗ wp (k o) Φ Ψ) ∧
     (⌜¬ grow_allowed c (s_m s + room 48)⌝ -∗ ainv Bf s -∗ Ψ RuntimeError)) -∗
    wp (x <- q_alloc_base al ;; k x) Φ Ψ.
  Proof.
    iIntros (Hs) "H W". unfold q_alloc_base. wpn.
    iApply (wp_allocate with "H"); [done|]. iSplit; [|by iDestruct "W" as "[_ W]"].
    iIntros (o s' Ho) "H R". wpn.
    iDestruct (raw_words1 with "R") as "[[%v W0] R]"; [lia|].
    iDestruct (raw_words1 with "R") as "[[%v' W8] R]"; [lia|].
    iApply (wp_store64 with "W0"); [done|]. iIntros "W0". wpn.
    iApply (wp_store64 with "W8"); [done|]. iIntros "W8". wpn.
    iDestruct "W" as "[W _]". iApply ("W" with "[//] H W0 W8").
    by replace (o + 8 + 8) with (o + 16) by lia.
  Qed.
  Lemma wp_q_setup {A} o (k : unit → prog A) Φ Ψ : 320 < o ∧ o + 48 <= 2 ^ 62 →
    word o 0 -∗ word (o + 8) 0 -∗ raw (o + 16) (o + 48) -∗
    (q_rep o [] [(o, 48)] -∗ wp (k tt) Φ Ψ) -∗
    wp (x <- q_setup_base o ;; k x) Φ Ψ.
  Proof.
    iIntros (Ho) "W0 W8 R W". unfold q_setup_base, q_front, q_back. wpn.
    iDestruct (raw_words1 with "R") as "[[%v W16] R]"; [lia|].
    iDestruct (raw_words1 with "R") as "[[%v' W24] R]"; [lia|].
    iDestruct (raw_words1 with "R") as "[[%v'' W32] R]"; [lia|].
    iDestruct (raw_words1 with "R") as "[[%v''' W40] R]"; [lia|].
    replace (o + 16 + 8 + 8 + 8) with (o + 40) by lia. replace (o + 16 + 8 + 8) with (o + 32) by lia.
    iApply (wp_store64 with "W16"); [done|]. iIntros "W16". wpn.
    iApply (wp_store64 with "W24"); [unfold is_u64; lia|]. iIntros "W24". wpn.
    iApply (wp_store64 with "W32"); [unfold is_u64; lia|]. iIntros "W32". wpn.
    replace (o + 32 + 8) with (o + 40) by lia.
    iApply (wp_store64 with "W40"); [done|]. iIntros "W40".
    iApply "W". iExists []. iSplit; [done|]. simpl. iFrame.
  Qed.

  Lemma wp_q_create Bf s Φ Ψ : as_size_ok S 48 →
    ainv Bf s -∗
    ((∀ o B' s', ⌜ext c (room 48) False s s' ∧ 320 < o < 2 ^ 62⌝ -∗ ainv (B' ++ Bf) s' -∗ q_rep o [] B' -∗ Φ o) ∧
     (⌜¬ grow_allowed c (s_m s + room 48)⌝ -∗ ainv Bf s -∗ Ψ RuntimeError)) -∗
    wp (q_create al) Φ Ψ.
  Proof.
    iIntros (Hs) "H W". unfold q_create. iApply (wp_q_alloc_base with "H"); [done|].
    iSplit; [|by iDestruct "W" as "[_ W]"].
    iIntros (o s' Ho) "H W0 W8 R". iApply (wp_q_setup with "W0 W8 R"); [lia|]. iIntros "HR".
    iApply wp_ret. iDestruct "W" as "[W _]". iApply ("W" $! o [(o, 48)] with "[] H HR").
    iPureIntro. split; [tauto|lia].
  Qed.

  (** Inserting a node between its neighbours. *)
  Lemma wp_q_link_node {A} B s o cnt t a n p q x y (k : unit → prog A) Φ Ψ :
    (a, n) ∈ B → is_u64 p → is_u64 q → is_u64 a → 0 <= cnt < 2 ^ 63 → 0 <= t < 2 ^ 63 → 16 <= n < 2 ^ 63 →
    ainv B s -∗ word o cnt -∗ word (o + 8) t -∗ word a x -∗ word (a + 8) y -∗
    word (p + 8) q -∗ word q p -∗
    (ainv B s -∗ word o (cnt + 1) -∗ word (o + 8) (t + (n - 16)) -∗ word a p -∗ word (a + 8) q -∗
     word (p + 8) a -∗ word q a -∗ wp (k tt) Φ Ψ) -∗
    wp (z <- q_link_node al o a p q ;; k z) Φ Ψ.
  Proof.
    iIntros (Hin Hp Hq Ha Hc Ht Hn) "H Hc Ht Ha Ha8 Hp Hq W". unfold q_link_node. wpn.
    iApply (wp_store64 with "Ha"); [done|]. iIntros "Ha". wpn.
    iApply (wp_store64 with "Ha8"); [done|]. iIntros "Ha8". wpn.
    iApply (wp_store64 with "Hp"); [done|]. iIntros "Hp". wpn.
    iApply (wp_store64 with "Hq"); [done|]. iIntros "Hq". wpn.
    iApply (wp_load64 with "Hc"). iIntros "Hc". wpn.
    iApply (wp_store64 with "Hc"); [apply u64_range|]. iIntros "Hc". wpn.
    iApply (wp_block_size with "H"); [done|]. iIntros "H". wpn.
    iApply (wp_load64 with "Ht"). iIntros "Ht". wpn.
    iApply (wp_store64 with "Ht"); [apply u64_range|]. iIntros "Ht". wpn.
    rewrite (u64_small (cnt + 1)); [|lia]. rewrite (u64_small (t + _)); [|lia].
    iApply ("W" with "H Hc Ht Ha Ha8 Hp Hq").
  Qed.

  Lemma wp_q_create_node {A} B s d (k : Z → prog A) Φ Ψ :
    bytes_ok d → 0 <= dlen d <= 2 ^ 61 → as_size_ok S (16 + dlen d) →
    ainv B s -∗
    ((∀ a s', ⌜ext c (room (16 + dlen d)) False s s' ∧ 320 < a ∧ a + 16 + dlen d <= 2 ^ 62⌝ -∗
        ainv ((a, 16 + dlen d) :: B) s' -∗ word a 0 -∗ word (a + 8) 0 -∗ pts (a + 16) d -∗ wp (k a) Φ Ψ) ∧
     (⌜¬ grow_allowed c (s_m s + room (16 + dlen d))⌝ -∗ ainv B s -∗ Ψ RuntimeError)) -∗
    wp (x <- q_create_node al d ;; k x) Φ Ψ.
  Proof.
    iIntros (Hd Hl Hs) "H W". unfold q_create_node. wpn. fold (dlen d).
    rewrite (u64_small (16 + dlen d)); [|lia].
    iApply (wp_allocate with "H"); [done|]. iSplit; [|by iDestruct "W" as "[_ W]"].
    iIntros (a s' Ho) "H R". wpn.
    iDestruct (raw_words1 with "R") as "[[%v W0] R]"; [lia|].
    iDestruct (raw_words1 with "R") as "[[%v' W8] R]"; [lia|].
    iApply (wp_store64 with "W0"); [done|]. iIntros "W0". wpn.
    iApply (wp_store64 with "W8"); [done|]. iIntros "W8". wpn.
    replace (a + 8 + 8) with (a + 16) by lia.
    iApply (wp_store_bytes_b with "R"); [done|unfold dlen; lia|]. iIntros "R". wpn.
    iDestruct "W" as "[W _]". iApply ("W" with "[] H W0 W8 R"). iPureIntro.
    split_and!; [tauto|lia|lia].
  Qed.

  (** The node list with one node inserted. *)
  Lemma q_rep_insert o ns1 ns2 a d B :
    B ≡ₚ (a, 16 + dlen d) :: q_blocks o (ns1 ++ ns2) →
    word o (Z.of_nat (length (ns1 ++ ns2)) + 1) -∗
    word (o + 8) (q_total (map snd (ns1 ++ ns2)) + (16 + dlen d - 16)) -∗
    word (o + 16) 0 -∗ word (o + 40) 0 -∗
    q_seg (o + 16) ns1 a -∗ pts (a + 16) d -∗ q_seg a ns2 (o + 32) -∗
    q_rep o (map snd (ns1 ++ (a, d) :: ns2)) B.
  Proof.
    iIntros (HB) "Hc Ht H16 H40 S1 Hd S2". iExists (ns1 ++ (a, d) :: ns2).
    iSplit. { iPureIntro. split; [done|]. by rewrite q_blocks_perm. }
    rewrite q_seg_app. iFrame. rewrite !map_app !q_total_app !app_length /=.
    iSplitL "Hc".
    - by replace (Z.of_nat (length ns1 + Datatypes.S (length ns2)))
        with (Z.of_nat (length ns1 + length ns2) + 1) by lia.
    - unfold q_total at 4; simpl; fold q_total.
      replace (q_total (map snd ns1) + (dlen d + foldr (λ d0 s, dlen d0 + s) 0 (map snd ns2)))
        with (q_total (map snd ns1) + q_total (map snd ns2) + (16 + dlen d - 16)) by (unfold q_total; lia).
      done.
  Qed.


  Lemma wp_q_push o l B Bf s front d Φ Ψ :
    bytes_ok d → 0 <= dlen d <= 2 ^ 61 → as_size_ok S (16 + dlen d) →
    ainv (B ++ Bf) s -∗ q_rep o l B -∗
    ((∀ B' s', ⌜ext c (q_need d) False s s'⌝ -∗ ainv (B' ++ Bf) s' -∗
        q_rep o (q_push_ideal front d l) B' -∗ Φ tt) ∧
     (⌜¬ grow_allowed c (s_m s + q_need d)⌝ -∗ ainv (B ++ Bf) s -∗ q_rep o l B -∗ Ψ RuntimeError)) -∗
    wp (q_push al o front d) Φ Ψ.
  Proof.
    iIntros (Hd Hl Hs) "H (%ns & [-> %HB] & Hc & Ht & H16 & H40 & Hseg) W".
    iDestruct (q_bounds with "H") as %(Ho1 & Ho2 & Hsum & Hns); [done|].
    pose proof (q_total_nonneg (map snd ns)) as Hq.
    assert (q_push al o front d = (new <- q_create_node al d ;;
       if front then n <- load64 (q_front o + 8) ;; q_link_node al o new (q_front o) n
       else p <- load64 (q_back o) ;; q_link_node al o new p (q_back o))) as ->.
    { by destruct front. }
    iApply (wp_q_create_node with "H"); [done|done|done|]. iSplit.
    2:{ iIntros (Hg) "H". iDestruct "W" as "[_ W]". iApply ("W" with "[//] H").
        iExists ns. iSplit; [done|]. iFrame. }
    iIntros (a s' (Hext & Ha1 & Ha2)) "H Wa Wa8 Hda".
    assert ((a, 16 + dlen d) :: B ++ Bf ≡ₚ ((a, 16 + dlen d) :: B) ++ Bf) as HP by done.
    destruct front; unfold q_front, q_back.
    - destruct (q_seg_first ns (o + 32)) as [X HX].
      iDestruct (HX with "Hseg") as "(Hp & Hq & HX)".
      assert (is_u64 (q_first ns (o + 32))) as Hfu.
      { unfold is_u64. destruct ns as [|[b e] ns']; simpl; [lia|].
        destruct (Hns b e ltac:(by left)) as (?&?&_). unfold dlen in *. lia. }
      iApply (wp_load64 with "Hp"). iIntros "Hp". iApply bind_ret_r.
      iApply (wp_q_link_node with "H Hc Ht Wa Wa8 Hp Hq");
        [by left|unfold is_u64; lia|done|unfold is_u64; lia|lia|lia|lia|].
      iIntros "H Hc Ht Wa Wa8 Hp Hq". iApply wp_ret. iDestruct "W" as "[W _]".
      iApply ("W" $! ((a, 16 + dlen d) :: B) with "[//] H").
      iApply (q_rep_insert o [] ns a d with "Hc Ht H16 H40 [Hp Wa] Hda [Wa8 Hq HX]").
      + by rewrite HB.
      + simpl. iFrame.
      + iApply HX. iFrame.
    - destruct (q_seg_last (o + 16) ns) as [X HX].
      iDestruct (HX with "Hseg") as "(Hp & Hq & HX)".
      assert (is_u64 (q_last (o + 16) ns)) as Hfu.
      { unfold is_u64. destruct ns as [|[b e] ns' _] using rev_ind; unfold q_last; [simpl; lia|]. rewrite last_snoc.
        destruct (Hns b e) as (?&?&_); [apply elem_of_app; right; by left|]. unfold dlen in *. lia. }
      iApply (wp_load64 with "Hq"). iIntros "Hq". iApply bind_ret_r.
      iApply (wp_q_link_node with "H Hc Ht Wa Wa8 Hp Hq");
        [by left|done|unfold is_u64; lia|unfold is_u64; lia|lia|lia|lia|].
      iIntros "H Hc Ht Wa Wa8 Hp Hq". iApply wp_ret. iDestruct "W" as "[W _]".
      iApply ("W" $! ((a, 16 + dlen d) :: B) with "[//] H").
      iPoseProof (q_rep_insert o ns [] a d ((a, 16 + dlen d) :: B) with "[Hc] [Ht] H16 H40 [Hp Wa HX] Hda [Wa8 Hq]") as "HR".
      + by rewrite app_nil_r HB.
      + by rewrite app_nil_r.
      + by rewrite app_nil_r.
      + iApply HX. iFrame.
      + simpl. iFrame.
      + by rewrite map_app.
  Qed.

  Lemma wp_q_take o ns1 a d ns2 B Bf s Φ Ψ :
    B ≡ₚ q_blocks o (ns1 ++ (a, d) :: ns2) →
    ainv (B ++ Bf) s -∗
    word o (Z.of_nat (length (ns1 ++ (a, d) :: ns2))) -∗
    word (o + 8) (q_total (map snd (ns1 ++ (a, d) :: ns2))) -∗
    word (o + 16) 0 -∗ word (o + 40) 0 -∗ q_seg (o + 16) (ns1 ++ (a, d) :: ns2) (o + 32) -∗
    (∀ B' s', ⌜ext c 0 (as_leaky S (16 + dlen d)) s s'⌝ -∗ ainv (B' ++ Bf) s' -∗
        q_rep o (map snd (ns1 ++ ns2)) B' -∗ Φ d) -∗
    wp (q_take al o a) Φ Ψ.
  Proof.
    iIntros (HB) "H Hc Ht H16 H40 Hseg W".
    iDestruct (q_bounds with "H") as %(Ho1 & Ho2 & Hsum & Hns); [done|].
    rewrite q_blocks_perm in HB. simpl in HB.
    destruct (q_seg_cut (o + 16) ns1 a d ns2 (o + 32)) as (X & HX1 & HX2).
    iDestruct (HX1 with "Hseg") as "(Wp8 & Wa & Hd & Wa8 & Wq & HX)".
    iDestruct (ainv_perm _ _ _ ((a, 16 + dlen d) :: (q_blocks o (ns1 ++ ns2) ++ Bf)) with "H") as "H"; [by rewrite HB|].
    rewrite app_length /= !map_app !q_total_app /= in Hsum |- *.
    change (q_total (d :: map snd ns2)) with (dlen d + q_total (map snd ns2)) in *.
    pose proof (q_total_nonneg (map snd ns1)). pose proof (q_total_nonneg (map snd ns2)).
    assert (0 <= dlen d) by (unfold dlen; lia).
    unfold q_take, q_unlink_node. wpn.
    iApply (wp_load64 with "Wa"). iIntros "Wa". wpn.
    iApply (wp_load64 with "Wa8"). iIntros "Wa8". wpn.
    iDestruct (word_u64 with "Wa") as %?. iDestruct (word_u64 with "Wa8") as %?.
    iApply (wp_store64 with "Wp8"); [done|]. iIntros "Wp8". wpn.
    iApply (wp_store64 with "Wq"); [done|]. iIntros "Wq". wpn.
    iApply (wp_load64 with "Hc"). iIntros "Hc". wpn.
    iApply (wp_store64 with "Hc"); [apply u64_range|]. iIntros "Hc". wpn.
    iApply (wp_block_size with "H"); [by left|]. iIntros "H". wpn.
    iApply (wp_load64 with "Ht"). iIntros "Ht". wpn.
    iApply (wp_store64 with "Ht"); [apply u64_range|]. iIntros "Ht". wpn.
    iApply (wp_block_size with "H"); [by left|]. iIntros "H". wpn.
    rewrite (u64_small (16 + dlen d - 16)); [|lia].
    iApply (wp_load_bytes_b with "Hd"); [unfold dlen; lia|]. iIntros "Hd". wpn.
    iApply (wp_free with "H [Wa Wa8 Hd]").
    { iApply (words_raw1 with "Wa"); [lia|]. iApply (words_raw1 with "Wa8"); [lia|].
      replace (a + 8 + 8) with (a + 16) by lia. iApply (pts_raw with "Hd"). unfold dlen. lia. }
    iIntros (s' Hext) "H". iApply wp_ret.
    iApply ("W" $! (q_blocks o (ns1 ++ ns2)) with "[//] [H]"); [by rewrite /q_blocks map_app|]. iExists (ns1 ++ ns2). iSplit; [iPureIntro; split; [by rewrite map_app|done]|].
    rewrite (u64_small (_ - 1)); [|lia]. rewrite (u64_small (_ - (16 + dlen d - 16))); [|lia].
    rewrite app_length q_total_app. iFrame "H16 H40".
    iSplitL "Hc". { by replace (Z.of_nat (length ns1 + Datatypes.S (length ns2)) - 1) with (Z.of_nat (length ns1 + length ns2)) by lia. }
    iSplitL "Ht". { by replace (q_total (map snd ns1) + (dlen d + q_total (map snd ns2)) - (16 + dlen d - 16))
      with (q_total (map snd ns1) + q_total (map snd ns2)) by lia. }
    iApply HX2. iFrame.
  Qed.


  Lemma wp_q_pop o l B Bf s front Φ Ψ :
    ainv (B ++ Bf) s -∗ q_rep o l B -∗
    ((∀ d l' B' s', ⌜q_pop_ideal front l = Some (d, l') ∧ ext c 0 (as_leaky S (16 + dlen d)) s s'⌝ -∗
        ainv (B' ++ Bf) s' -∗ q_rep o l' B' -∗ Φ d) ∧
     (⌜q_pop_ideal front l = None⌝ -∗ ainv (B ++ Bf) s -∗ q_rep o l B -∗ Ψ OutOfRange)) -∗
    wp (q_pop al o front) Φ Ψ.
  Proof.
    iIntros "H (%ns & [-> %HB] & Hc & Ht & H16 & H40 & Hseg) W".
    iDestruct (q_bounds with "H") as %(Ho1 & Ho2 & Hsum & Hns); [done|].
    unfold q_pop. destruct front; unfold q_pop_front, q_pop_back, q_front, q_back.
    - destruct ns as [|[a d] ns]; simpl.
      + iDestruct "Hseg" as "[Hp Hq]". iApply (wp_load64 with "Hp"). iIntros "Hp".
        replace (o + 32 + 8) with (o + 40) by lia.
        iApply (wp_load64 with "H40"). iIntros "H40".
        rewrite (bool_decide_eq_true_2 (0 = 0)) //. iApply wp_throw. iDestruct "W" as "[_ W]".
        iApply ("W" with "[//] H"). iExists []. iSplit; [done|]. simpl. iFrame.
      + iDestruct "Hseg" as "(Hp & Ha & Hd & Hseg)".
        iApply (wp_load64 with "Hp"). iIntros "Hp".
        destruct (q_seg_first ns (o + 32)) as [X HX].
        iDestruct (HX with "Hseg") as "(Ha8 & Hq & HX)".
        iApply (wp_load64 with "Ha8"). iIntros "Ha8".
        iDestruct (HX with "[Ha8 Hq HX]") as "Hseg"; [iFrame|].
        rewrite (bool_decide_eq_false_2 (q_first ns (o + 32) = 0)).
        2:{ destruct ns as [|[b e] ns]; simpl; [lia|]. destruct (Hns b e) as (?&_); [right; by left|]. lia. }
        iApply (wp_q_take o [] a d ns with "H Hc Ht H16 H40 [Hp Ha Hd Hseg]"); [done| |].
        { simpl. iFrame. }
        iIntros (B' s' Hext) "H HR". iDestruct "W" as "[W _]". iApply ("W" with "[] H HR"). done.
    - destruct ns as [|[a d] ns _] using rev_ind; simpl.
      + iDestruct "Hseg" as "[Hp Hq]". iApply (wp_load64 with "Hq"). iIntros "Hq".
        iApply (wp_load64 with "H16"). iIntros "H16".
        rewrite (bool_decide_eq_true_2 (0 = 0)) //. iApply wp_throw. iDestruct "W" as "[_ W]".
        iApply ("W" with "[//] H"). iExists []. iSplit; [done|]. simpl. iFrame.
      + iDestruct (q_seg_app with "Hseg") as "(S1 & Hd & [Ha8 Hq])".
        iApply (wp_load64 with "Hq"). iIntros "Hq".
        destruct (q_seg_last (o + 16) ns) as [X HX].
        iDestruct (HX with "S1") as "(Hp8 & Ha & HX)".
        iApply (wp_load64 with "Ha"). iIntros "Ha".
        iDestruct (HX with "[Hp8 Ha HX]") as "S1"; [iFrame|].
        rewrite (bool_decide_eq_false_2 (q_last (o + 16) ns = 0)).
        2:{ destruct ns as [|[b e] ns _] using rev_ind; unfold q_last; [simpl; lia|]. rewrite last_snoc.
            destruct (Hns b e) as (?&_); [|lia]. apply elem_of_app. left. apply elem_of_app. right. by left. }
        iApply (wp_q_take o ns a d [] with "H Hc Ht H16 H40 [S1 Hd Ha8 Hq]"); [done| |].
        { iApply q_seg_app. simpl. iFrame. }
        iIntros (B' s' Hext) "H HR". iDestruct "W" as "[W _]". iApply ("W" with "[] H HR").
        iPureIntro. split; [|done]. unfold q_pop_ideal. rewrite map_app /= last_snoc removelast_last app_nil_r //.
  Qed.

  Lemma wp_q_size o l B Bf s Φ Ψ :
    ainv (B ++ Bf) s -∗ q_rep o l B -∗
    (ainv (B ++ Bf) s -∗ q_rep o l B -∗ Φ (Z.of_nat (length l))) -∗ wp (q_size o) Φ Ψ.
  Proof.
    iIntros "H (%ns & [-> %HB] & Hc & HR) W". iApply (wp_load64_t with "Hc"). iIntros "Hc".
    rewrite map_length. iApply ("W" with "H"). iExists ns. iFrame. done.
  Qed.
  Lemma wp_q_bytes o l B Bf s Φ Ψ :
    ainv (B ++ Bf) s -∗ q_rep o l B -∗
    (ainv (B ++ Bf) s -∗ q_rep o l B -∗ Φ (q_total l)) -∗ wp (q_bytes o) Φ Ψ.
  Proof.
    iIntros "H (%ns & [-> %HB] & Hc & Ht & HR) W". iApply (wp_load64_t with "Ht"). iIntros "Ht".
    iApply ("W" with "H"). iExists ns. iFrame. done.
  Qed.

  (** The blocks of a queue: sizes and total. *)
  Lemma q_rep_blocks o l B : q_rep o l B ⊢
    ⌜sum_sz B = (48 + 16 * Z.of_nat (length l) + q_total l)%Z ∧
     (∀ a n, (a, n) ∈ B → n = 48 ∨ ∃ d, d ∈ l ∧ n = (16 + dlen d)%Z)⌝.
  Proof.
    iIntros "(%ns & [-> %HB] & _)". iPureIntro. split.
    - rewrite (sum_sz_perm _ _ HB) /q_blocks. change (sum_sz ((o, 48) :: ?l)) with (48 + sum_sz l).
      rewrite sum_sz_nodes map_length. lia.
    - intros a n. rewrite HB /q_blocks elem_of_cons. intros [[= -> ->]|Hin]; [by left|right].
      apply elem_of_list_fmap in Hin as [[b d] [[= -> ->] Hin]]. exists d. split; [|done].
      apply elem_of_list_fmap. by exists (b, d).
  Qed.

  (** The constructor that uses the pool's base object. *)
  Lemma wp_q_open_base `{!BaseFree S} Bf s Φ Ψ : as_size_ok S 48 → is_u64 (s_bo s) →
    ainv Bf s -∗
    ((⌜s_bo s ≠ 0⌝ -∗ ainv Bf s -∗ Φ (s_bo s)) ∧
     (∀ o B' s', ⌜s_bo s = 0 ∧ s_bo s' = o ∧ ext c (room 48) False s (Ast (s_K s') 0 (s_m s') (s_e s')) ∧ 320 < o < 2 ^ 62⌝ -∗
        ainv (B' ++ Bf) s' -∗ q_rep o [] B' -∗ Φ o) ∧
     (⌜s_bo s = 0 ∧ ¬ grow_allowed c (s_m s + room 48)⌝ -∗ ainv Bf s -∗ Ψ RuntimeError)) -∗
    wp (q_open_base al) Φ Ψ.
  Proof.
    iIntros (Hs Hbo) "H W". unfold q_open_base. iApply (wp_get_base with "H"). iIntros "H".
    case_bool_decide as Hb.
    - iApply (wp_q_alloc_base with "H"); [done|]. iSplit.
      2:{ iIntros (Hg) "H". iDestruct "W" as "[_ [_ W]]". iApply ("W" with "[] H"). done. }
      iIntros (o s' Ho) "H W0 W8 R". iApply (wp_set_base with "H"); [unfold is_u64; lia|apply base_free|]. iIntros "H".
      iApply (wp_q_setup with "W0 W8 R"); [lia|]. iIntros "HR".
      iApply wp_ret. iDestruct "W" as "[_ [W _]]". iApply ("W" $! o [(o, 48)] with "[] H HR").
      iPureIntro. destruct Ho as ((?&Hbo'&?&?)&?). simpl. rewrite Hb in Hbo'.
      split_and!; try done; lia.
    - iApply wp_ret. iDestruct "W" as "[W _]". by iApply "W".
  Qed.

  (** verify() *)
  Definition q_is_node (o : Z) (B : blocks) (cur d0 : Z) : Prop :=
    (cur = o + 16 ∨ cur = o + 32) ∧ d0 = 0 ∨
    cur ≠ o + 16 ∧ cur ≠ o + 32 ∧ (cur, 16 + d0) ∈ B ∧ 0 <= d0 < 2 ^ 63.
  Lemma wp_q_verify_step {A} o B s F cur prev nx d0 cnt byt (k : Z * Z * Z → prog A) Φ Ψ :
    cur ≠ 0 → q_is_node o B cur d0 →
    ainv B s -∗ word cur prev -∗ word (cur + 8) nx -∗
    (ainv B s -∗ word cur prev -∗ word (cur + 8) nx -∗
      wp (x <- q_verify_loop al F o nx cur (u64 (cnt + 1)) (u64 (byt + d0)) ;; k x) Φ Ψ) -∗
    wp (x <- q_verify_loop al (Datatypes.S F) o cur prev cnt byt ;; k x) Φ Ψ.
  Proof.
    iIntros (Hcur Hd0) "H Hp Hn W". cbn [q_verify_loop].
    rewrite (bool_decide_eq_false_2 (cur = 0)) //. wpn.
    iAssert (∀ (k' : Z → prog A), (ainv B s -∗ wp (k' d0) Φ Ψ) -∗
      wp (n <- (if bool_decide (cur <> q_front o /\ cur <> q_back o)
            then bs <- al_block_size al cur ;; Ret (u64 (bs - 16)) else Ret 0) ;; k' n) Φ Ψ)%I
      with "[H]" as "Hk".
    { iIntros (k') "Hk". unfold q_front, q_back. destruct Hd0 as [[Hd ->]|(H1 & H2 & H3 & H4)].
      - rewrite bool_decide_eq_false_2; [|tauto]. wpn. by iApply "Hk".
      - rewrite bool_decide_eq_true_2; [|tauto]. wpn. iApply (wp_block_size with "H"); [exact H3|].
        iIntros "H". wpn. replace (16 + d0 - 16) with d0 by lia. rewrite (u64_small d0); [|lia]. by iApply "Hk". }
    iApply "Hk". iIntros "H". wpn.
    iApply (wp_load64 with "Hp"). iIntros "Hp". wpn.
    rewrite (bool_decide_eq_false_2 (prev ≠ prev)); [|tauto]. wpn.
    iApply (wp_load64 with "Hn"). iIntros "Hn". wpn. iApply ("W" with "H Hp Hn").
  Qed.
  Lemma wp_q_verify_loop {A} o B s : 320 < o → ∀ ns F prev cur d0 cnt byt (k : Z * Z * Z → prog A) Φ Ψ,
    (length ns + 2 <= F)%nat →
    (∀ a d, (a, d) ∈ ns → (a, 16 + dlen d) ∈ B ∧ a ≠ o + 16 ∧ a ≠ o + 32 ∧ a ≠ 0) →
    cur ≠ 0 → q_is_node o B cur d0 → 0 <= byt → 0 <= d0 → d0 + byt + q_total (map snd ns) < 2 ^ 63 →
    ainv B s -∗ word cur prev -∗ word (o + 40) 0 -∗ q_seg cur ns (o + 32) -∗
    (ainv B s -∗ word cur prev -∗ word (o + 40) 0 -∗ q_seg cur ns (o + 32) -∗
       wp (k (o + 32, u64 (cnt + 2 + Z.of_nat (length ns)), byt + d0 + q_total (map snd ns))) Φ Ψ) -∗
    wp (x <- q_verify_loop al F o cur prev cnt byt ;; k x) Φ Ψ.
  Proof.
    intros Ho ns. induction ns as [|[a d] ns IH]; intros F prev cur d0 cnt byt k Φ Ψ HF Hns Hcur Hd0 Hb Hdd Hbb;
      iIntros "H Hc H40 Hs W".
    - destruct F as [|[|F]]; [simpl in HF; lia|simpl in HF; lia|].
      cbn [q_seg]. iDestruct "Hs" as "[Hn Hq]".
      iApply (wp_q_verify_step with "H Hc Hn"); [done|exact Hd0|]. iIntros "H Hc Hn".
      iApply (wp_q_verify_step o B s F (o + 32) cur 0 0 with "H Hq [H40]"); [lia|left; tauto| |].
      { by replace (o + 32 + 8) with (o + 40) by lia. }
      iIntros "H Hq H40". destruct F as [|F]; cbn [q_verify_loop]; rewrite (bool_decide_eq_true_2 (0 = 0)) //; wpn.
      all: replace (o + 32 + 8) with (o + 40) by lia.
      all: simpl in Hbb; rewrite (u64_small (byt + d0)); [|lia]; rewrite (u64_small (byt + d0 + 0)); [|lia].
      all: rewrite u64_idem_add; replace (cnt + 1 + 1) with (cnt + 2 + Z.of_nat 0) by lia.
      all: iApply ("W" with "H Hc H40"); iFrame.
    - simpl in HF. destruct F as [|F]; [lia|]. cbn [q_seg]. iDestruct "Hs" as "(Hn & Ha & Hd & Hs)".
      destruct (Hns a d ltac:(by left)) as (Hin & Ha1 & Ha2 & Ha3).
      change (q_total (map snd ((a, d) :: ns))) with (dlen d + q_total (map snd ns)) in Hbb.
      assert (0 <= dlen d) as Hdl by (unfold dlen; lia). pose proof (q_total_nonneg (map snd ns)) as Hq.
      iApply (wp_q_verify_step with "H Hc Hn"); [done|exact Hd0|]. iIntros "H Hc Hn".
      rewrite (u64_small (byt + d0)); [|lia].
      iApply (IH F cur a (dlen d) with "H Ha H40 Hs"); [lia| |done|right; split_and!; try done; lia|lia|lia|lia|].
      { intros a' d' Hin'. apply Hns. by right. }
      iIntros "H Ha H40 Hs".
      iDestruct ("W" with "H Hc H40 [Hn Ha Hd Hs]") as "W"; [iFrame|].
      rewrite -(Z.add_assoc (u64 (cnt + 1))) u64_idem_add.
      replace (cnt + 1 + (2 + Z.of_nat (length ns))) with (cnt + 2 + Z.of_nat (Datatypes.S (length ns))) by lia.
      change (q_total (d :: map snd ns)) with (dlen d + q_total (map snd ns)).
      by replace (byt + d0 + dlen d + q_total (map snd ns)) with (byt + d0 + (dlen d + q_total (map snd ns))) by lia.
  Qed.
  Lemma wp_q_verify o l B Bf s F Φ Ψ : 2 ^ 62 <= Z.of_nat F →
    ainv (B ++ Bf) s -∗ q_rep o l B -∗
    (ainv (B ++ Bf) s -∗ q_rep o l B -∗ Φ tt) -∗ wp (q_verify al F o) Φ Ψ.
  Proof.
    iIntros (HF) "H (%ns & [-> %HB] & Hc & Ht & H16 & H40 & Hseg) W".
    iDestruct (q_bounds with "H") as %(Ho1 & Ho2 & Hsum & Hns); [done|].
    iDestruct (ainv_facts with "H") as %[(Hb1 & _ & Hb3) [Hm _]].
    unfold q_verify. unfold q_front.
    iAssert (⌜∀ a d, (a, d) ∈ ns → (a ≠ o + 16 ∧ a ≠ o + 32)%Z⌝)%I as %Hne.
    { iIntros (a d Hin). apply elem_of_list_split in Hin as (n1 & n2 & ->).
      iDestruct (q_seg_app with "Hseg") as "(S1 & Hd & S2)".
      destruct (q_seg_last (o + 16) n1) as [X HX]. iDestruct (HX with "S1") as "(_ & Ha & _)".
      destruct (q_seg_last a n2) as [Y HY]. iDestruct (HY with "S2") as "(_ & H32 & _)".
      iSplit; iIntros (->).
      - iDestruct (word_disjoint with "Ha H16") as %?. lia.
      - iDestruct (word_disjoint with "Ha H32") as %?. lia. }
    pose proof (q_total_nonneg (map snd ns)).
    assert ((length ns + 2 <= F)%nat) as HlF.
    { rewrite sum_sz_app (sum_sz_perm _ _ HB) in Hb3. unfold q_blocks in Hb3.
      change (sum_sz ((o, 48) :: ?l)) with (48 + sum_sz l) in Hb3. rewrite sum_sz_nodes in Hb3.
      assert (0 <= sum_sz Bf).
      { apply sum_sz_nonneg. intros a n Hin. eapply Hb1. apply elem_of_app. by right. }
      lia. }
    iApply (wp_q_verify_loop o _ _ Ho1 ns F 0 (o + 16) 0 with "H H16 H40 Hseg"); [done| |lia|left; tauto|lia|lia|lia|].
    { intros a d Hin. destruct (Hns a d Hin) as (?&?&?). destruct (Hne a d Hin). split_and!; try done; [|lia].
      apply in_app_l. rewrite HB. right. apply elem_of_list_fmap. by exists (a, d). }
    iIntros "H H16 H40 Hseg". unfold q_back. cbv beta iota.
    rewrite (bool_decide_eq_false_2 (o + 32 ≠ o + 32)); [|tauto].
    iApply (wp_load64 with "Hc"). iIntros "Hc".
    rewrite -(Z.add_assoc (u64 (-2))) u64_idem_add.
    replace (-2 + (2 + Z.of_nat (length ns))) with (Z.of_nat (length ns)) by lia.
    rewrite (u64_small (Z.of_nat (length ns))); [|lia].
    rewrite (bool_decide_eq_false_2 (Z.of_nat (length ns) ≠ Z.of_nat (length ns))); [|tauto].
    iApply (wp_load64 with "Ht"). iIntros "Ht".
    replace (0 + 0 + q_total (map snd ns)) with (q_total (map snd ns)) by lia.
    rewrite (bool_decide_eq_false_2 (q_total (map snd ns) ≠ q_total (map snd ns))); [|tauto].
    iApply wp_ret. iApply ("W" with "H"). iExists ns. iFrame. done.
  Qed.
End queue.
