(** * Emptying a queue after a crash: the proof.

    What [drains] needs of a queue that is emptied from one end: the links that lead from
    this end to the other, and the back link of the first node only. *)
From Verif Require Export CrashGame QueueDrainSpec.
From iris.proofmode Require Import tactics.
From iris.prelude Require Import options.
Open Scope Z_scope.
Open Scope prog_scope.

Local Arguments Z.pow : simpl never.
Local Arguments Z.mul : simpl never.
Local Arguments Z.add : simpl never.
Local Arguments u64 : simpl never.

(** ** Links *)
Definition anyw (a : Z) : hPropI := (∃ v, word a v)%I.
Lemma word_any a v : word a v ⊢ anyw a.
Proof. iIntros "H". by iExists v. Qed.
(** From the front ([d]): forward links at 8, backward links at 0; from the back: the
    other way round. *)
Definition fw (d : bool) : Z := if d then 8 else 0.
Definition bw (d : bool) : Z := if d then 0 else 8.
Definition nr (d : bool) (o : Z) : Z := if d then o + 16 else o + 32.
Definition fr (d : bool) (o : Z) : Z := if d then o + 32 else o + 16.

Fixpoint x_seg (d : bool) (p : Z) (ns : list qnode) (q : Z) : hPropI :=
  match ns with
  | [] => (word (p + fw d) q ∗ word (q + bw d) p)%I
  | (a, x) :: ns' => (word (p + fw d) a ∗ word (a + bw d) p ∗ pts (a + 16) x ∗ x_seg d a ns' q)%I
  end.
Fixpoint d_rest (d : bool) (p : Z) (ns : list qnode) (q : Z) : hPropI :=
  match ns with
  | [] => (word (p + fw d) q ∗ anyw (q + bw d))%I
  | (a, x) :: ns' => (word (p + fw d) a ∗ anyw (a + bw d) ∗ pts (a + 16) x ∗ d_rest d a ns' q)%I
  end.
Definition d_chain (d : bool) (p : Z) (ns : list qnode) (q : Z) : hPropI :=
  match ns with
  | [] => (word (p + fw d) q ∗ anyw (q + bw d))%I
  | (a, x) :: ns' => (word (p + fw d) a ∗ word (a + bw d) p ∗ pts (a + 16) x ∗ d_rest d a ns' q)%I
  end.

Lemma x_seg_app d p ns1 a x ns2 q :
  x_seg d p (ns1 ++ (a, x) :: ns2) q ⊣⊢ x_seg d p ns1 a ∗ pts (a + 16) x ∗ x_seg d a ns2 q.
Proof.
  revert p; induction ns1 as [|[b e] ns1 IH]; intros p; simpl.
  - iSplit; iIntros "H"; [iDestruct "H" as "($ & $ & $)"|iDestruct "H" as "(($ & $) & $)"].
  - rewrite IH. iSplit; iIntros "H"; [iDestruct "H" as "($ & $ & $ & $)"|iDestruct "H" as "(($ & $ & $ & $) & $ & $)"].
Qed.
Lemma x_seg_rev d p ns q : x_seg d p ns q ⊣⊢ x_seg (negb d) q (rev ns) p.
Proof.
  revert p. induction ns as [|[a x] ns IH]; intros p.
  - destruct d; simpl; iSplit; iIntros "[$ $]".
  - cbn [rev x_seg]. rewrite x_seg_app IH. destruct d; simpl; iSplit; iIntros "H";
      [iDestruct "H" as "($ & $ & $ & $)"|iDestruct "H" as "($ & $ & $ & $)"|iDestruct "H" as "($ & $ & $ & $)"|iDestruct "H" as "($ & $ & $ & $)"].
Qed.
Lemma q_x_seg p ns q : q_seg p ns q ⊣⊢ x_seg true p ns q.
Proof.
  revert p. induction ns as [|[a x] ns IH]; intros p; cbn [q_seg x_seg fw bw]; rewrite ?Z.add_0_r; [done|]. by rewrite IH.
Qed.
Definition ordn (d : bool) (ns : list qnode) : list qnode := if d then ns else rev ns.
Lemma q_d_seg d o ns : q_seg (o + 16) ns (o + 32) ⊣⊢ x_seg d (nr d o) (ordn d ns) (fr d o).
Proof. destruct d; rewrite q_x_seg; [done|]. by rewrite x_seg_rev. Qed.

Lemma x_rest d p ns q : x_seg d p ns q ⊢ d_rest d p ns q.
Proof.
  revert p. induction ns as [|[a x] ns IH]; intros p; simpl.
  - rewrite (word_any (q + bw d)). done.
  - rewrite IH (word_any (a + bw d)). done.
Qed.
Lemma x_chain d p ns q : x_seg d p ns q ⊢ d_chain d p ns q.
Proof. destruct ns as [|[a x] ns]; simpl; [by rewrite (word_any (q + bw d))|by rewrite x_rest]. Qed.
Lemma rest_snoc d p ns b y q :
  x_seg d p ns b ∗ pts (b + 16) y ∗ word (b + fw d) q ∗ anyw (q + bw d) ⊢ d_rest d p (ns ++ [(b, y)]) q.
Proof.
  revert p. induction ns as [|[a x] ns IH]; intros p; simpl.
  - iIntros "(($ & H) & $ & $ & $)". by iExists p.
  - iIntros "(($ & H & $ & X) & Y & Z)". iSplitL "H"; [by iExists p|]. iApply IH. iFrame.
Qed.
Lemma chain_snoc d p ns b y q :
  x_seg d p ns b ∗ pts (b + 16) y ∗ word (b + fw d) q ∗ anyw (q + bw d) ⊢ d_chain d p (ns ++ [(b, y)]) q.
Proof.
  destruct ns as [|[a x] ns]; simpl.
  - iIntros "(($ & $) & $ & $ & $)".
  - iIntros "(($ & $ & $ & X) & Y & Z)". iApply rest_snoc. iFrame.
Qed.
Lemma chain_far d p ns : ∃ X : hPropI, ∀ q,
  (x_seg d p ns q ⊣⊢ word (q_last p ns + fw d) q ∗ word (q + bw d) (q_last p ns) ∗ X) ∧
  (word (q_last p ns + fw d) q ∗ anyw (q + bw d) ∗ X ⊢ d_chain d p ns q).
Proof.
  destruct ns as [|[a x] ns _] using rev_ind.
  - exists emp%I. intros q. simpl. rewrite !right_id. done.
  - exists (x_seg d p ns a ∗ pts (a + 16) x)%I. intros q. unfold q_last. rewrite last_snoc. cbn iota. split.
    + rewrite x_seg_app. cbn [x_seg]. iSplit; [iIntros "($ & $ & $ & $)"|iIntros "($ & $ & $ & $)"].
    + iIntros "(H1 & H2 & H3 & H4)". iApply chain_snoc. iFrame.
Qed.
Lemma chain_near d ns q : ∃ X : hPropI, ∀ p,
  (x_seg d p ns q ⊣⊢ word (p + fw d) (q_first ns q) ∗ word (q_first ns q + bw d) p ∗ X) ∧
  (word (p + fw d) (q_first ns q) ∗ anyw (q_first ns q + bw d) ∗ X ⊢ d_rest d p ns q).
Proof.
  destruct ns as [|[a x] ns].
  - exists emp%I. intros p. simpl. rewrite !right_id. done.
  - exists (pts (a + 16) x ∗ x_seg d a ns q)%I. intros p. split; [done|]. simpl. by rewrite x_rest.
Qed.
Lemma dchain_near d ns q : ∃ X : hPropI, ∀ p,
  (d_rest d p ns q ⊣⊢ word (p + fw d) (q_first ns q) ∗ anyw (q_first ns q + bw d) ∗ X) ∧
  (word (p + fw d) (q_first ns q) ∗ word (q_first ns q + bw d) p ∗ X ⊢ d_chain d p ns q).
Proof.
  destruct ns as [|[a x] ns].
  - exists emp%I. intros p. simpl. rewrite !right_id. split; [done|]. by rewrite (word_any (q + bw d)).
  - exists (pts (a + 16) x ∗ d_rest d a ns q)%I. done.
Qed.

(** The queue [o], to be emptied from the end [d]; [l] is in the order of [d]. *)
Definition d_rep (d : bool) (o : Z) (l : list bytes) (B : blocks) : hPropI :=
  (∃ ns, ⌜l = map snd ns ∧ B ≡ₚ q_blocks o ns⌝ ∗ anyw o ∗ anyw (o + 8) ∗ word (fr d o + fw d) 0 ∗
     d_chain d (nr d o) ns (fr d o))%I.

Lemma q_blocks_rev o ns : q_blocks o (rev ns) ≡ₚ q_blocks o ns.
Proof. unfold q_blocks. f_equiv. rewrite map_rev. symmetry. apply Permutation_rev. Qed.
Lemma map_ordn d ns : map snd (ordn d ns) = from_end d (map snd ns).
Proof. destruct d; [done|]. simpl. by rewrite map_rev. Qed.
Lemma q_blocks_ordn d o ns : q_blocks o (ordn d ns) ≡ₚ q_blocks o ns.
Proof. destruct d; [done|]. apply q_blocks_rev. Qed.

Section pops.
  Context {RR : Rep} {PR : PoolRep} {al : allocator} (S : alloc_spec al) (c : cfg).
  Notation ainv := (ainv S c).

  Lemma wp_d_take d o a x ns B Bf s Φ Ψ :
    B ≡ₚ q_blocks o ((a, x) :: ns) →
    ainv (B ++ Bf) s -∗ anyw o -∗ anyw (o + 8) -∗ d_chain d (nr d o) ((a, x) :: ns) (fr d o) -∗
    (∀ s', ainv (q_blocks o ns ++ Bf) s' -∗ anyw o -∗ anyw (o + 8) -∗ d_chain d (nr d o) ns (fr d o) -∗ Φ x) -∗
    wp (q_take al o a) Φ Ψ.
  Proof.
    iIntros (HB) "H [%vc Hc] [%vt Ht] Hch W".
    iDestruct (q_bounds S c with "H") as %(Ho1 & Ho2 & Hsum & Hns); [done|].
    rewrite (q_blocks_perm o [] (a, x) ns) in HB. cbn [fst snd app] in HB.
    iDestruct (ainv_perm _ _ _ ((a, 16 + dlen x) :: (q_blocks o ns ++ Bf)) with "H") as "H"; [by rewrite HB|].
    destruct (Hns a x) as (Ha1 & Ha2 & _); [by left|].
    assert (0 <= dlen x) by (unfold dlen; lia).
    destruct (dchain_near d ns (fr d o)) as [X HX]. cbn [d_chain]. iDestruct "Hch" as "(Wp & Wa & Hd & Hr)".
    destruct (HX a) as [HX1 _]. rewrite HX1. iDestruct "Hr" as "(Wn & [%vn Wb] & HX)".
    iDestruct (word_u64 with "Wn") as %Hn. iDestruct (word_u64 with "Wa") as %Hp. clear HX1.
    destruct (HX (nr d o)) as [_ HX2]. clear HX. set (n := q_first ns (fr d o)) in *. set (pp := nr d o) in *.
    unfold q_take, q_unlink_node. wpn. destruct d; cbn [fw bw] in *; rewrite ?Z.add_0_r in HX2 |- *.
    - iApply (wp_load64 with "Wa"). iIntros "Wa". wpn.
      iApply (wp_load64 with "Wn"). iIntros "Wn". wpn.
      iApply (wp_store64 with "Wp"); [done|]. iIntros "Wp". wpn.
      iApply (wp_store64 with "Wb"); [done|]. iIntros "Wb". wpn.
      iApply (wp_load64 with "Hc"). iIntros "Hc". wpn.
      iApply (wp_store64 with "Hc"); [apply u64_range|]. iIntros "Hc". wpn.
      iApply (wp_block_size with "H"); [by left|]. iIntros "H". wpn.
      iApply (wp_load64 with "Ht"). iIntros "Ht". wpn.
      iApply (wp_store64 with "Ht"); [apply u64_range|]. iIntros "Ht". wpn.
      iApply (wp_block_size with "H"); [by left|]. iIntros "H". wpn.
      rewrite (u64_small (16 + dlen x - 16)); [|lia].
      iApply (wp_load_bytes_b with "Hd"); [unfold dlen; lia|]. iIntros "Hd". wpn.
      iApply (wp_free with "H [Wa Wn Hd]").
      { iApply (words_raw1 with "Wa"); [lia|]. iApply (words_raw1 with "Wn"); [lia|].
        replace (a + 8 + 8) with (a + 16) by lia. iApply (pts_raw with "Hd"). unfold dlen. lia. }
      iIntros (s' Hext) "H". iApply wp_ret. iApply ("W" with "H [Hc] [Ht]"); [by iExists _|by iExists _|].
      iApply HX2. iFrame.
    - iApply (wp_load64 with "Wn"). iIntros "Wn". wpn.
      iApply (wp_load64 with "Wa"). iIntros "Wa". wpn.
      iApply (wp_store64 with "Wb"); [done|]. iIntros "Wb". wpn.
      iApply (wp_store64 with "Wp"); [done|]. iIntros "Wp". wpn.
      iApply (wp_load64 with "Hc"). iIntros "Hc". wpn.
      iApply (wp_store64 with "Hc"); [apply u64_range|]. iIntros "Hc". wpn.
      iApply (wp_block_size with "H"); [by left|]. iIntros "H". wpn.
      iApply (wp_load64 with "Ht"). iIntros "Ht". wpn.
      iApply (wp_store64 with "Ht"); [apply u64_range|]. iIntros "Ht". wpn.
      iApply (wp_block_size with "H"); [by left|]. iIntros "H". wpn.
      rewrite (u64_small (16 + dlen x - 16)); [|lia].
      iApply (wp_load_bytes_b with "Hd"); [unfold dlen; lia|]. iIntros "Hd". wpn.
      iApply (wp_free with "H [Wa Wn Hd]").
      { iApply (words_raw1 with "Wn"); [lia|]. iApply (words_raw1 with "Wa"); [lia|].
        replace (a + 8 + 8) with (a + 16) by lia. iApply (pts_raw with "Hd"). unfold dlen. lia. }
      iIntros (s' Hext) "H". iApply wp_ret. iApply ("W" with "H [Hc] [Ht]"); [by iExists _|by iExists _|].
      iApply HX2. iFrame.
  Qed.
  Lemma wp_d_pop d o l B Bf s Φ Ψ :
    ainv (B ++ Bf) s -∗ d_rep d o l B -∗
    match l with
    | [] => ainv (B ++ Bf) s -∗ d_rep d o [] B -∗ Ψ OutOfRange
    | x :: l' => ∀ B' s', ainv (B' ++ Bf) s' -∗ d_rep d o l' B' -∗ Φ x
    end -∗
    wp (q_pop al o d) Φ Ψ.
  Proof.
    iIntros "H (%ns & [-> %HB] & Hc & Ht & Hz & Hch) W".
    iDestruct (q_bounds S c with "H") as %(Ho1 & Ho2 & Hsum & Hns); [done|].
    destruct ns as [|[a x] ns]; cbn [List.map snd].
    - cbn [d_chain]. iDestruct "Hch" as "[Hf Hb]".
      destruct d; unfold q_pop, q_pop_front, q_pop_back, q_front, q_back, nr, fr, fw, bw; rewrite ?Z.add_0_r.
      + iApply (wp_load64 with "Hf"). iIntros "Hf". iApply (wp_load64 with "Hz"). iIntros "Hz".
        rewrite (bool_decide_eq_true_2 (0 = 0)) //. iApply wp_throw. iApply ("W" with "H").
        iExists []. iSplit; [done|]. unfold nr, fr, fw, bw, d_chain. rewrite ?Z.add_0_r. iFrame.
      + iApply (wp_load64 with "Hf"). iIntros "Hf". iApply (wp_load64 with "Hz"). iIntros "Hz".
        rewrite (bool_decide_eq_true_2 (0 = 0)) //. iApply wp_throw. iApply ("W" with "H").
        iExists []. iSplit; [done|]. unfold d_chain, nr, fr, fw, bw. rewrite ?Z.add_0_r. iFrame.
    - assert (q_first ns (fr d o) ≠ 0) as Hn0.
      { destruct ns as [|[b e] ns]; simpl; [destruct d; simpl; lia|]. destruct (Hns b e) as (?&_); [right; by left|]. lia. }
      iAssert (∀ s', ainv (q_blocks o ns ++ Bf) s' -∗ anyw o -∗ anyw (o + 8) -∗ word (fr d o + fw d) 0 -∗
        d_chain d (nr d o) ns (fr d o) -∗ Φ x)%I with "[W]" as "W".
      { iIntros (s') "H Hc Ht Hz Hch". iApply ("W" with "H"). iExists ns. iSplit; [done|]. iFrame. }
      destruct (dchain_near d ns (fr d o)) as [X HX]. destruct (HX a) as [HX1 _]. clear HX.
      cbn [d_chain]. iDestruct "Hch" as "(Wp & Wa & Hd & Hr)". rewrite HX1. iDestruct "Hr" as "(Wn & Wb & HX)".
      iAssert (word (nr d o + fw d) a -∗ word (a + fw d) (q_first ns (fr d o)) -∗ wp (q_take al o a) Φ Ψ)%I
        with "[H Hc Ht Hz W Wa Hd Wb HX]" as "K".
      { iIntros "Wp Wn". iApply (wp_d_take d o a x ns B Bf s with "H Hc Ht [Wp Wa Hd Wn Wb HX]"); [done| |].
        - cbn [d_chain]. iFrame "Wp Wa Hd". rewrite HX1. iFrame.
        - iIntros (s') "H Hc Ht Hch". iApply ("W" with "H Hc Ht Hz Hch"). }
      destruct d; unfold q_pop, q_pop_front, q_pop_back, q_front, q_back, nr, fr, fw in *; rewrite ?Z.add_0_r.
      + iApply (wp_load64 with "Wp"). iIntros "Wp". iApply (wp_load64 with "Wn"). iIntros "Wn".
        rewrite (bool_decide_eq_false_2 (q_first ns (o + 32) = 0)) //. iApply ("K" with "Wp Wn").
      + iApply (wp_load64 with "Wp"). iIntros "Wp". iApply (wp_load64 with "Wn"). iIntros "Wn".
        rewrite (bool_decide_eq_false_2 (q_first ns (o + 16) = 0)) //. iApply ("K" with "Wp Wn").
  Qed.
End pops.

Section crashes.
  Context (F : nat) (HF : 2 ^ 62 <= Z.of_nat F) (c : cfg).
  Notation al := (simple_allocator F).
  Notation S := (simple_spec F HF).
  Notation ainv := (ainv S c).

  Lemma crash_counts {A} C D B s o a n (f : Z → Z) (g : Z → Z → Z) (K : unit → prog A) :
    (a, n) ∈ B → (acr c B (s_bo s) ∗ anyw o ∗ anyw (o + 8) ∗ D ⊢ C) →
    ainv B s -∗ anyw o -∗ anyw (o + 8) -∗ D -∗
    (ainv B s -∗ anyw o -∗ anyw (o + 8) -∗ D -∗ crash C (K tt)) -∗
    crash C (x <- load64 o ;; _ <- store64 o (u64 (f x)) ;; bs <- al_block_size al a ;;
             t <- load64 (o + 8) ;; u <- store64 (o + 8) (u64 (g bs t)) ;; K u).
  Proof using.
    iIntros (Hin HC) "H [%vc Hc] [%vt Ht] D W".
    assert (∀ vc vt, ainv B s ∗ word o vc ∗ word (o + 8) vt ∗ D ⊢ C) as HP.
    { intros v1 v2. rewrite -HC. iIntros "(H & Hc & Ht & D)". iDestruct (ainv_acr F HF c B s with "H") as "H".
      iFrame "H D". iSplitL "Hc"; [by iExists v1|by iExists v2]. }
    iApply (crash_load64 C (ainv B s ∗ word o vc ∗ word (o + 8) vt ∗ D) o vc with "[$H $Hc $Ht $D]"); [apply HP| |].
    { iIntros "(_ & $ & _)". }
    iIntros "(H & Hc & Ht & D)".
    iApply (crash_store64 C); [apply u64_range|]. iExists vc. iFrame "Hc". iSplit.
    { iIntros "Hc". iApply HP. iFrame. }
    iIntros "Hc".
    iApply (crash_quiet C (ainv B s ∗ word o (u64 (f vc)) ∗ word (o + 8) vt ∗ D) (al_block_size al a) (λ x, x = n) with "[$H $Hc $Ht $D]").
    { apply q_sa_block_size. }
    { apply HP. }
    { iIntros "(H & _)". iApply bind_ret_r. iApply (wp_block_size with "H"); [done|]. iIntros "_". by iApply wp_ret. }
    iIntros (x ->) "(H & Hc & Ht & D)".
    iApply (crash_load64 C (ainv B s ∗ word o (u64 (f vc)) ∗ word (o + 8) vt ∗ D) (o + 8) vt with "[$H $Hc $Ht $D]"); [apply HP| |].
    { iIntros "(_ & _ & $ & _)". }
    iIntros "(H & Hc & Ht & D)".
    iApply (crash_store64 C); [apply u64_range|]. iExists vt. iFrame "Ht". iSplit.
    { iIntros "Ht". iApply HP. iFrame. }
    iIntros "Ht". iApply ("W" with "H [Hc] [Ht] D"); by iExists _.
  Qed.

  Lemma crash_q_link C D B s o a n p q :
    (a, n) ∈ B → is_u64 p → is_u64 q → is_u64 a →
    (acr c B (s_bo s) ∗ anyw o ∗ anyw (o + 8) ∗ anyw a ∗ anyw (a + 8) ∗ word (p + 8) q ∗ word q p ∗ D ⊢ C) →
    (acr c B (s_bo s) ∗ anyw o ∗ anyw (o + 8) ∗ word a p ∗ word (a + 8) q ∗ word (p + 8) a ∗ word q p ∗ D ⊢ C) →
    (acr c B (s_bo s) ∗ anyw o ∗ anyw (o + 8) ∗ word a p ∗ word (a + 8) q ∗ word (p + 8) a ∗ word q a ∗ D ⊢ C) →
    ainv B s -∗ anyw o -∗ anyw (o + 8) -∗ anyw a -∗ anyw (a + 8) -∗ word (p + 8) q -∗ word q p -∗ D -∗
    crash C (q_link_node al o a p q).
  Proof using.
    iIntros (Hin Hp Hq Ha H0 H1 H2) "H Hc Ht [%v1 W0] [%v2 W8] P8 Q D". unfold q_link_node.
    iApply (crash_store64 C); [done|]. iExists v1. iFrame "W0". iSplit.
    { iIntros "W0". iApply H0. iDestruct (ainv_acr F HF c B s with "H") as "H". iFrame "H Hc Ht P8 Q D". iSplitL "W0"; by iExists _. }
    iIntros "W0".
    iApply (crash_store64 C); [done|]. iExists v2. iFrame "W8". iSplit.
    { iIntros "W8". iApply H0. iDestruct (ainv_acr F HF c B s with "H") as "H". iFrame "H Hc Ht P8 Q D". iSplitL "W0"; by iExists _. }
    iIntros "W8".
    iApply (crash_store64 C); [done|]. iExists q. iFrame "P8". iSplit.
    { iIntros "P8". iApply H0. iDestruct (ainv_acr F HF c B s with "H") as "H". iFrame "H Hc Ht P8 Q D". iSplitL "W0"; by iExists _. }
    iIntros "P8".
    iApply (crash_store64 C); [done|]. iExists p. iFrame "Q". iSplit.
    { iIntros "Q". iApply H1. iDestruct (ainv_acr F HF c B s with "H") as "H". iFrame. }
    iIntros "Q". iApply bind_ret_r. wpn.
    iApply (crash_counts C (word a p ∗ word (a + 8) q ∗ word (p + 8) a ∗ word q a ∗ D) B s o a n (λ x, x + 1) (λ bs t, t + (bs - 16)) (λ u, Ret u)
      with "H Hc Ht [$W0 $W8 $P8 $Q $D]"); [done| |].
    { rewrite -H2. iIntros "($ & $ & $ & $)". }
    iIntros "H Hc Ht (W0 & W8 & P8 & Q & D)". iApply crash_ret. iApply H2.
    iDestruct (ainv_acr F HF c B s with "H") as "H". iFrame.
  Qed.

  Lemma crash_q_unlink {A} C D B s o a n p q (K : unit → prog A) :
    (a, n) ∈ B →
    (acr c B (s_bo s) ∗ anyw o ∗ anyw (o + 8) ∗ word a p ∗ word (a + 8) q ∗ word (p + 8) a ∗ word q a ∗ D ⊢ C) →
    (acr c B (s_bo s) ∗ anyw o ∗ anyw (o + 8) ∗ word a p ∗ word (a + 8) q ∗ word (p + 8) q ∗ word q a ∗ D ⊢ C) →
    (acr c B (s_bo s) ∗ anyw o ∗ anyw (o + 8) ∗ word a p ∗ word (a + 8) q ∗ word (p + 8) q ∗ word q p ∗ D ⊢ C) →
    ainv B s -∗ anyw o -∗ anyw (o + 8) -∗ word a p -∗ word (a + 8) q -∗ word (p + 8) a -∗ word q a -∗ D -∗
    (ainv B s -∗ anyw o -∗ anyw (o + 8) -∗ word a p -∗ word (a + 8) q -∗ word (p + 8) q -∗ word q p -∗ D -∗ crash C (K tt)) -∗
    crash C (u <- q_unlink_node al o a ;; K u).
  Proof using.
    iIntros (Hin H0 H1 H2) "H Hc Ht W0 W8 P8 Q D W". unfold q_unlink_node.
    iDestruct (word_u64 with "W0") as %Hp. iDestruct (word_u64 with "W8") as %Hq. wpn.
    set (P := (ainv B s ∗ anyw o ∗ anyw (o + 8) ∗ word a p ∗ word (a + 8) q ∗ word (p + 8) a ∗ word q a ∗ D)%I).
    assert (P ⊢ C) as HP.
    { rewrite -H0. iIntros "(H & R)". iDestruct (ainv_acr F HF c B s with "H") as "H". iFrame. }
    iAssert P with "[$H $Hc $Ht $W0 $W8 $P8 $Q $D]" as "P".
    iApply (crash_load64 C P a p with "P"); [done| |].
    { iIntros "(_ & _ & _ & $ & _)". }
    iIntros "P". wpn. iApply (crash_load64 C P (a + 8) q with "P"); [done| |].
    { iIntros "(_ & _ & _ & _ & $ & _)". }
    iIntros "(H & Hc & Ht & W0 & W8 & P8 & Q & D)". wpn.
    iApply (crash_store64 C); [done|]. iExists a. iFrame "P8". iSplit.
    { iIntros "P8". iApply H0. iDestruct (ainv_acr F HF c B s with "H") as "H". iFrame. }
    iIntros "P8". wpn.
    iApply (crash_store64 C); [done|]. iExists a. iFrame "Q". iSplit.
    { iIntros "Q". iApply H1. iDestruct (ainv_acr F HF c B s with "H") as "H". iFrame. }
    iIntros "Q". wpn.
    iApply (crash_counts C (word a p ∗ word (a + 8) q ∗ word (p + 8) q ∗ word q p ∗ D) B s o a n (λ x, x - 1) (λ bs t, t - (bs - 16)) K
      with "H Hc Ht [$W0 $W8 $P8 $Q $D]"); [done| |].
    { rewrite -H2. iIntros "($ & $ & $ & $)". }
    iIntros "H Hc Ht (W0 & W8 & P8 & Q & D)". iApply ("W" with "H Hc Ht W0 W8 P8 Q D").
  Qed.

  (** The whole of pop_back and pop_front after the test: [H0], [H1] and [H2] are the states
      in which both, one or none of the links to the node are left. *)
  Lemma crash_q_take C D B s o a x p q :
    (acr c ((a, 16 + dlen x) :: B) (s_bo s) ∗ anyw o ∗ anyw (o + 8) ∗ word a p ∗ word (a + 8) q ∗ pts (a + 16) x ∗ word (p + 8) a ∗ word q a ∗ D ⊢ C) →
    (acr c ((a, 16 + dlen x) :: B) (s_bo s) ∗ anyw o ∗ anyw (o + 8) ∗ word a p ∗ word (a + 8) q ∗ pts (a + 16) x ∗ word (p + 8) q ∗ word q a ∗ D ⊢ C) →
    (acr c B (s_bo s) ∗ anyw o ∗ anyw (o + 8) ∗ word (p + 8) q ∗ word q p ∗ D ⊢ C) → 320 < a → a + 16 + dlen x <= 2 ^ 62 →
    ainv ((a, 16 + dlen x) :: B) s -∗ anyw o -∗ anyw (o + 8) -∗ word a p -∗ word (a + 8) q -∗ pts (a + 16) x -∗ word (p + 8) a -∗ word q a -∗ D -∗
    crash C (q_take al o a).
  Proof using.
    iIntros (H0 H1 H2 Ha1 Ha2) "H Hc Ht W0 W8 Hd P8 Q D". unfold q_take. assert (0 <= dlen x) by (unfold dlen; lia).
    iApply (crash_q_unlink C (pts (a + 16) x ∗ D) with "H Hc Ht W0 W8 P8 Q [$Hd $D]"); [by left| | | |].
    { rewrite -H0. iIntros "($ & $ & $ & $ & $ & $ & $ & $ & $)". }
    { rewrite -H1. iIntros "($ & $ & $ & $ & $ & $ & $ & $ & $)". }
    { rewrite -H2. iIntros "(H & $ & $ & _ & _ & $ & $ & _ & $)". iApply (acr_leak with "H"). }
    iIntros "H Hc Ht W0 W8 P8 Q [Hd D]".
    set (P := (ainv ((a, 16 + dlen x) :: B) s ∗ anyw o ∗ anyw (o + 8) ∗ word a p ∗ word (a + 8) q ∗ pts (a + 16) x ∗ word (p + 8) q ∗ word q p ∗ D)%I).
    assert (P ⊢ C) as HP.
    { rewrite -H2. iIntros "(H & Hc & Ht & _ & _ & _ & P8 & Q & D)". iDestruct (ainv_acr F HF c with "H") as "H".
      iDestruct (acr_leak with "H") as "H". iFrame. }
    iAssert P with "[$H $Hc $Ht $W0 $W8 $Hd $P8 $Q $D]" as "P".
    iApply (crash_quiet C P (al_block_size al a) (λ y, y = 16 + dlen x) with "P"); [apply q_sa_block_size|done| |].
    { iIntros "(H & _)". iApply bind_ret_r. iApply (wp_block_size with "H"); [by left|]. iIntros "_". by iApply wp_ret. }
    iIntros (y ->) "P". rewrite (u64_small (16 + dlen x - 16)); [|lia].
    iApply (crash_quiet C P (load_bytes (a + 16) (Z.to_nat (16 + dlen x - 16))) (λ y, y = x) with "P"); [apply q_load_bytes|done| |].
    { iIntros "(_ & _ & _ & _ & _ & Hd & _)". iApply bind_ret_r.
      iApply (wp_load_bytes_b with "Hd"); [unfold dlen; lia|]. iIntros "Hd". by iApply wp_ret. }
    iIntros (y ->) "(H & Hc & Ht & W0 & W8 & Hd & P8 & Q & D)".
    iApply (crash_free F HF c C (anyw o ∗ anyw (o + 8) ∗ word (p + 8) q ∗ word q p ∗ D) with "H [W0 W8 Hd] [$Hc $Ht $P8 $Q $D]").
    { rewrite -H2. iIntros "($ & $ & $ & $ & $ & $)". }
    { iApply (words_raw1 with "W0"); [lia|]. iApply (words_raw1 with "W8"); [lia|].
      replace (a + 8 + 8) with (a + 16) by lia. iApply (pts_raw with "Hd"). unfold dlen. lia. }
    iIntros (s' Hs') "H (Hc & Ht & P8 & Q & D)". iApply crash_ret. iApply H2. rewrite -Hs'.
    iDestruct (ainv_acr F HF c with "H") as "H". iFrame.
  Qed.

  Definition Cq (d : bool) (o : Z) (l1 l2 : list bytes) (Bf : blocks) (bo : Z) : hPropI :=
    (∃ l' B', ⌜l' = l1 ∨ l' = l2⌝ ∗ acr c (B' ++ Bf) bo ∗ d_rep d o (from_end d l') B')%I.
  Lemma Cq_mk d o ns l1 l2 B Bf bo : map snd ns = l1 ∨ map snd ns = l2 → B ≡ₚ q_blocks o ns ++ Bf →
    acr c B bo ∗ anyw o ∗ anyw (o + 8) ∗ word (fr d o + fw d) 0 ∗ d_chain d (nr d o) (ordn d ns) (fr d o) ⊢
    Cq d o l1 l2 Bf bo.
  Proof using.
    clear F HF. iIntros (Hl HB) "(H & Hc & Ht & Hz & Hch)". iExists (map snd ns), (q_blocks o ns). iSplit; [done|].
    iSplitL "H"; [by iApply (acr_perm with "H")|]. iExists (ordn d ns). iFrame. iPureIntro. split; [by rewrite map_ordn|].
    by rewrite q_blocks_ordn.
  Qed.
  Lemma q_rep_links d o (X : hPropI) : word (o + 16) 0 ∗ word (o + 40) 0 ∗ X ⊢ word (fr d o + fw d) 0 ∗ X.
  Proof using.
    clear F HF. destruct d; unfold fr, fw; [replace (o + 32 + 8) with (o + 40) by lia|rewrite Z.add_0_r]; iIntros "(H1 & H2 & $)"; iFrame.
  Qed.
  Definition qst o ns (vc vt : Z) : hPropI :=
    (word o vc ∗ word (o + 8) vt ∗ word (o + 16) 0 ∗ word (o + 40) 0 ∗ q_seg (o + 16) ns (o + 32))%I.
  Lemma qst_old d o ns vc vt l2 B Bf bo : B ≡ₚ q_blocks o ns ++ Bf →
    acr c B bo ∗ qst o ns vc vt ⊢ Cq d o (map snd ns) l2 Bf bo.
  Proof using.
    clear F HF. iIntros (HB) "(H & Hc & Ht & H16 & H40 & Hs)". iApply (Cq_mk d o ns); [by left|done|]. iFrame "H".
    iSplitL "Hc"; [by iExists _|]. iSplitL "Ht"; [by iExists _|]. iApply (q_rep_links d o). iFrame "H16 H40".
    rewrite (q_d_seg d). by iApply x_chain.
  Qed.
  Lemma q_last_rev q ns : q_last q (rev ns) = q_first ns q.
  Proof using. clear. destruct ns as [|[a x] ns]; [done|]. unfold q_last. cbn [rev]. by rewrite last_snoc. Qed.
  Lemma q_first_rev q ns : q_first (rev ns) q = q_last q ns.
  Proof using. clear. by rewrite -q_last_rev rev_involutive. Qed.

  Lemma crash_q_create_node {A} C D B s x (K : Z → prog A) :
    bytes_ok x → dlen x <= 2 ^ 61 → (acr c B (s_bo s) ∗ D ⊢ C) →
    ainv B s -∗ D -∗
    (∀ a s', ⌜320 < a ∧ a + 16 + dlen x <= 2 ^ 62 ∧ s_bo s' = s_bo s⌝ -∗ ainv ((a, 16 + dlen x) :: B) s' -∗
       word a 0 -∗ word (a + 8) 0 -∗ pts (a + 16) x -∗ D -∗ crash C (K a)) -∗
    crash C (a <- q_create_node al x ;; K a).
  Proof using.
    iIntros (Hx Hl HC) "H D W". unfold q_create_node. wpn. fold (dlen x). assert (0 <= dlen x) by (unfold dlen; lia).
    rewrite (u64_small (16 + dlen x)); [|lia].
    iApply (crash_allocate F HF c C D with "H D"); [lia|done|]. iIntros (a s' (Ha1 & Ha2 & Ha3 & Hb)) "H R D". wpn.
    assert (∀ X, ainv ((a, 16 + dlen x) :: B) s' ∗ D ∗ X ⊢ C) as HP.
    { intros X. iIntros "(H & D & _)". iApply HC. iFrame "D". rewrite -Hb. iApply (acr_leak c B (s_bo s') a (16 + dlen x)).
      iApply (ainv_acr F HF c with "H"). }
    iDestruct (raw_words1 with "R") as "[[%v W0] R]"; [lia|].
    iDestruct (raw_words1 with "R") as "[[%v' W8] R]"; [lia|].
    iApply (crash_store64 C); [done|]. iExists v. iFrame "W0". iSplit.
    { iIntros "W0". iApply (HP (word a v)). iFrame. }
    iIntros "W0". wpn. iApply (crash_store64 C); [done|]. iExists v'. iFrame "W8". iSplit.
    { iIntros "W8". iApply (HP (word (a + 8) v')). iFrame. }
    iIntros "W8". wpn. replace (a + 8 + 8) with (a + 16) by lia.
    iApply (crash_local C (ainv ((a, 16 + dlen x) :: B) s' ∗ D ∗ word a 0 ∗ word (a + 8) 0 ∗
      (∀ a s', ⌜320 < a ∧ a + 16 + dlen x <= 2 ^ 62 ∧ s_bo s' = s_bo s⌝ -∗ ainv ((a, 16 + dlen x) :: B) s' -∗
       word a 0 -∗ word (a + 8) 0 -∗ pts (a + 16) x -∗ D -∗ crash C (K a))) (a + 16) (a + (16 + dlen x)) with "[$H $D $W0 $W8 $W $R]").
    { apply si_store_bytes; [lia|unfold dlen; lia]. }
    { iIntros "[P _]". iApply (HP with "P"). }
    iIntros "[(H & D & W0 & W8 & W) (%bs & %Hbs & R)]". iApply (wp_store_bytes with "R"); [unfold dlen in *; lia|done|].
    iIntros "R". wpn. iApply ("W" $! a s' with "[] H W0 W8 R D"). iPureIntro. split; [done|]. split; [lia|done].
  Qed.

  Lemma crash_q_push d f o l x B Bf s :
    (f = false → d = true) → bytes_ok x → dlen x <= 2 ^ 61 →
    ainv (B ++ Bf) s -∗ q_rep o l B -∗
    crash (Cq d o l (if f then x :: l else l ++ [x]) Bf (s_bo s)) (q_push al o f x).
  Proof using.
    iIntros (Hd Hx Hlx) "H (%ns & [-> %HB] & Hq)".
    iDestruct (q_bounds S c with "H") as %(Ho1 & Ho2 & Hsum & Hns); [done|].
    set (l2 := if f then _ else _). set (C := Cq d o (map snd ns) l2 Bf (s_bo s)).
    set (vc := Z.of_nat (length ns)). set (vt := q_total (map snd ns)).
    assert (q_push al o f x = (new <- q_create_node al x ;;
       if f then n <- load64 (q_front o + 8) ;; q_link_node al o new (q_front o) n
       else p <- load64 (q_back o) ;; q_link_node al o new p (q_back o))) as ->.
    { by destruct f. }
    assert (B ++ Bf ≡ₚ q_blocks o ns ++ Bf) as HB2 by by rewrite HB.
    iApply (crash_q_create_node C (qst o ns vc vt) (B ++ Bf) s x with "H Hq"); [done|done| |].
    { by apply qst_old. }
    iIntros (a s' (Ha1 & Ha2 & Hb)) "H W0 W8 Hx Hq". unfold C. rewrite -Hb. clear C. set (C := Cq d o (map snd ns) l2 Bf (s_bo s')).
    set (P := (ainv ((a, 16 + dlen x) :: B ++ Bf) s' ∗ word a 0 ∗ word (a + 8) 0 ∗ pts (a + 16) x ∗ qst o ns vc vt)%I).
    assert (P ⊢ C) as HP.
    { iIntros "(H & _ & _ & _ & Q)". iApply (qst_old d o ns vc vt l2 (B ++ Bf)); [done|]. iFrame "Q".
      iApply (acr_leak c (B ++ Bf) (s_bo s') a (16 + dlen x)). iApply (ainv_acr F HF c with "H"). }
    iAssert P with "[$H $W0 $W8 $Hx $Hq]" as "P".
    assert (∀ T : hPropI, acr c ((a, 16 + dlen x) :: B ++ Bf) (s_bo s') ∗ T ⊢ acr c (B ++ Bf) (s_bo s') ∗ T) as Hleak.
    { intros T. iIntros "[H $]". by iApply acr_leak. }
    assert (0 <= dlen x) as Hx0 by (unfold dlen; lia). assert (is_u64 a) as Hau by (unfold is_u64; lia).
    (* adding the node at the far end *)
    assert (∀ X L, (∀ q, (x_seg d (nr d o) (ordn d ns) q ⊣⊢ word (L + fw d) q ∗ word (q + bw d) L ∗ X) ∧
        (word (L + fw d) q ∗ anyw (q + bw d) ∗ X ⊢ d_chain d (nr d o) (ordn d ns) q)) → map snd (ns ++ [(a, x)]) = l2 ∨ map snd ((a, x) :: ns) = l2 →
      from_end d l2 = from_end d (map snd ns) ++ [x] →
      (acr c ((a, 16 + dlen x) :: B ++ Bf) (s_bo s') ∗ anyw o ∗ anyw (o + 8) ∗ word (fr d o + fw d) 0 ∗
        (word (L + fw d) (fr d o) ∗ anyw (fr d o + bw d)) ∗ X ⊢ C) ∧
      (acr c ((a, 16 + dlen x) :: B ++ Bf) (s_bo s') ∗ anyw o ∗ anyw (o + 8) ∗ word (fr d o + fw d) 0 ∗
        ((word (L + fw d) a ∗ word (a + bw d) L) ∗ word (a + fw d) (fr d o) ∗ anyw (fr d o + bw d)) ∗ pts (a + 16) x ∗ X ⊢ C)) as Hfar.
    { intros X L HX Hl2 Hfe. split.
      - rewrite Hleak. iIntros "(H & Hc & Ht & Hz & (W1 & W2) & HX)". iApply (Cq_mk d o ns); [by left|done|]. iFrame "H Hc Ht Hz".
        destruct (HX (fr d o)) as [_ HX2]. iApply HX2. iFrame.
      - iIntros "(H & Hc & Ht & Hz & ((W1 & W2) & W3 & W4) & Hx & HX)".
        iExists l2, ((a, 16 + dlen x) :: q_blocks o ns). iSplit; [iPureIntro; by right|]. iSplitL "H".
        { iApply (acr_perm with "H"). by rewrite HB. }
        iExists (ordn d ns ++ [(a, x)]). iFrame "Hc Ht Hz". iSplit.
        { iPureIntro. split; [by rewrite map_app map_ordn Hfe|]. rewrite (q_blocks_perm o _ (a, x) []) app_nil_r. by rewrite q_blocks_ordn. }
        iApply chain_snoc. destruct (HX a) as [HX1 _]. rewrite HX1. iFrame. }
    destruct f; unfold q_front, q_back.
    - destruct (q_seg_first ns (o + 32)) as [X HX]. set (q := q_first ns (o + 32)) in *.
      assert (is_u64 q) as Hq.
      { unfold is_u64, q. destruct ns as [|[b e] ns']; simpl; [lia|].
        destruct (Hns b e ltac:(by left)) as (?&?&_). unfold dlen in *. lia. }
      iApply (crash_load64 C P (o + 16 + 8) q with "P"); [done| |].
      { iIntros "(_ & _ & _ & _ & _ & _ & _ & _ & Q)". iDestruct (HX with "Q") as "[$ _]". }
      clear X HX. iIntros "(H & W0 & W8 & Hx & (Hc & Ht & H16 & H40 & Hseg))".
      rewrite (q_d_seg d). destruct d.
      + clear Hfar. destruct (chain_near true ns (o + 32)) as [X HX]. destruct (HX (o + 16)) as [HX1 _]. destruct (HX a) as [_ HX2].
        unfold nr, fr, ordn. rewrite HX1. iDestruct "Hseg" as "(P8 & Q & HX)". fold q. fold q in HX1, HX2. unfold fw, bw in HX1, HX2 |- *. repeat rewrite Z.add_0_r in HX1; repeat rewrite Z.add_0_r in HX2; rewrite ?Z.add_0_r.
        assert (acr c ((a, 16 + dlen x) :: B ++ Bf) (s_bo s') ∗ anyw o ∗ anyw (o + 8) ∗ word a (o + 16) ∗ word (a + 8) q ∗ word (o + 16 + 8) a ∗ anyw q ∗
          (pts (a + 16) x ∗ word (o + 40) 0 ∗ X) ⊢ C) as Hnew.
        { iIntros "(H & Hc & Ht & Wa & Wa8 & P8 & Q & Hx & H40 & HX)".
          iApply (Cq_mk true o ((a, x) :: ns) (map snd ns) l2 ((a, 16 + dlen x) :: B ++ Bf) with "[-]"); [by right|by rewrite (q_blocks_perm o [] (a, x) ns) HB|]. iFrame "H Hc Ht".
          unfold fr, nr, ordn. unfold d_chain. unfold fw at 1 2, bw at 1. rewrite ?Z.add_0_r. replace (o + 32 + 8) with (o + 40) by lia.
          iFrame "H40 P8 Wa Hx". iApply HX2. iFrame. }
        iApply (crash_q_link C (pts (a + 16) x ∗ word (o + 40) 0 ∗ X) ((a, 16 + dlen x) :: B ++ Bf) s' o a (16 + dlen x) (o + 16) q
          with "H [Hc] [Ht] [W0] [W8] P8 Q [$Hx $H40 $HX]"); [by left|unfold is_u64; lia|done|done| | | |by iExists _|by iExists _|by iExists _|by iExists _].
        * rewrite Hleak. iIntros "(H & Hc & Ht & _ & _ & P8 & Q & _ & H40 & HX)".
          iApply (Cq_mk true o ns with "[-]"); [by left|done|]. iFrame "H Hc Ht". unfold fr, nr, ordn. replace (o + 32 + fw true) with (o + 40) by (unfold fw; lia).
          iFrame "H40". iApply x_chain. rewrite HX1. iFrame.
        * rewrite -Hnew. iIntros "($ & $ & $ & $ & $ & $ & Q & $)". by iExists _.
        * rewrite -Hnew. iIntros "($ & $ & $ & $ & $ & $ & Q & $)". by iExists _.
      + destruct (chain_far false (nr false o) (ordn false ns)) as [X HX].
        assert (q_last (nr false o) (ordn false ns) = q) as HL by (apply q_last_rev).
        rewrite HL in HX. destruct (Hfar X q HX) as [H0 H1]; [by right|done|]. clear Hfar.
        destruct (HX (fr false o)) as [HX1 _]. rewrite HX1. iDestruct "Hseg" as "(Q & P8 & HX)". clear HX HX1.
        unfold nr, fr, fw, bw in *. repeat rewrite Z.add_0_r in H0; repeat rewrite Z.add_0_r in H1; rewrite ?Z.add_0_r.
        iApply (crash_q_link C (pts (a + 16) x ∗ word (o + 16) 0 ∗ X) ((a, 16 + dlen x) :: B ++ Bf) s' o a (16 + dlen x) (o + 16) q
          with "H [Hc] [Ht] [W0] [W8] P8 Q [$Hx $H16 $HX]"); [by left|unfold is_u64; lia|done|done| | | |by iExists _|by iExists _|by iExists _|by iExists _].
        * rewrite -H0. iIntros "($ & $ & $ & _ & _ & P8 & $ & _ & $ & $)". by iExists _.
        * rewrite -H0. iIntros "($ & $ & $ & _ & _ & P8 & $ & _ & $ & $)". by iExists _.
        * rewrite -H1. iIntros "($ & $ & $ & $ & $ & P8 & $ & $ & $ & $)". by iExists _.
    - rewrite (Hd eq_refl) in C P HP Hfar |- *. clear Hd.
      destruct (q_seg_last (o + 16) ns) as [X HX]. set (p := q_last (o + 16) ns) in *.
      assert (is_u64 p) as Hp.
      { unfold is_u64, p. destruct ns as [|[b e] ns' _] using rev_ind; unfold q_last; [simpl; lia|]. rewrite last_snoc.
        destruct (Hns b e) as (?&?&_); [apply elem_of_app; right; by left|]. unfold dlen in *. lia. }
      iApply (crash_load64 C P (o + 32) p with "P"); [done| |].
      { iIntros "(_ & _ & _ & _ & _ & _ & _ & _ & Q)". iDestruct (HX with "Q") as "(_ & $ & _)". }
      clear X HX. iIntros "(H & W0 & W8 & Hx & (Hc & Ht & H16 & H40 & Hseg))".
      rewrite (q_d_seg true).
      destruct (chain_far true (nr true o) (ordn true ns)) as [X HX].
      change (q_last (nr true o) (ordn true ns)) with p in HX.
      destruct (Hfar X p HX) as [H0 H1]; [left; by rewrite map_app|done|]. clear Hfar.
      destruct (HX (fr true o)) as [HX1 _]. rewrite HX1. iDestruct "Hseg" as "(P8 & Q & HX)". clear HX HX1.
      unfold nr, fr, fw, bw in *. repeat rewrite Z.add_0_r in H0; repeat rewrite Z.add_0_r in H1; rewrite ?Z.add_0_r. replace (o + 32 + 8) with (o + 40) in H0, H1 by lia.
      iApply (crash_q_link C (pts (a + 16) x ∗ word (o + 40) 0 ∗ X) ((a, 16 + dlen x) :: B ++ Bf) s' o a (16 + dlen x) p (o + 32)
        with "H [Hc] [Ht] [W0] [W8] P8 Q [$Hx $H40 $HX]"); [by left|done|unfold is_u64; lia|done| | | |by iExists _|by iExists _|by iExists _|by iExists _].
      * rewrite -H0. iIntros "($ & $ & $ & _ & _ & $ & Q & _ & $ & $)". by iExists _.
      * rewrite -H1. iIntros "($ & $ & $ & $ & $ & $ & Q & $ & $ & $)". by iExists _.
      * rewrite -H1. iIntros "($ & $ & $ & $ & $ & $ & Q & $ & $ & $)". by iExists _.
  Qed.
End crashes.
