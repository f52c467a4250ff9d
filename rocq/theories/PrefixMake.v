(** * PrefixTree: making the nodes of a key. *)
From Verif Require Export PrefixWalk.
From iris.proofmode Require Import tactics.
From iris.prelude Require Import options.
Open Scope Z_scope.
Open Scope prog_scope.

Local Arguments Z.pow : simpl never.
Local Arguments Z.mul : simpl never.
Local Arguments Z.add : simpl never.

Lemma u64_u64_add x d : u64 (u64 x + d) = u64 (x + d).
Proof. unfold u64. by rewrite Zplus_mod_idemp_l. Qed.

(** ** Loops over slots *)
Lemma wp_t_zero {RR : Rep} {A} n : ∀ a b (K : unit → prog A) Φ Ψ, b = a + 8 * Z.of_nat n →
  raw a b -∗ (wds a (repeat 0 n) -∗ wp (K tt) Φ Ψ) -∗ wp (x <- t_zero n a ;; K x) Φ Ψ.
Proof.
  induction n as [|n IH]; intros a b K Φ Ψ ->; iIntros "R W"; cbn [t_zero]; wpn.
  - iApply "W". unfold wds. done.
  - iDestruct (raw_words1 with "R") as "[[%v Wd] R]"; [lia|]. iApply (wp_store64 with "Wd"); [done|]. iIntros "Wd". wpn.
    iApply (IH with "R"); [lia|]. iIntros "Ws". iApply "W". cbn [repeat]. rewrite words_cons. iFrame.
Qed.
Lemma wp_t_copy {RR : Rep} {A} ws : ∀ n a b e (K : unit → prog A) Φ Ψ, n = length ws → e = b + 8 * Z.of_nat n →
  wds a ws -∗ raw b e -∗ (wds a ws -∗ wds b ws -∗ wp (K tt) Φ Ψ) -∗ wp (x <- t_copy n a b ;; K x) Φ Ψ.
Proof.
  induction ws as [|w ws IH]; intros n a b e K Φ Ψ -> ->; iIntros "Wa R W"; cbn [t_copy length]; wpn.
  - iApply ("W" with "Wa"). unfold wds. done.
  - rewrite words_cons. iDestruct "Wa" as "[Wd Wa]". iApply (wp_load64 with "Wd"). iIntros "Wd". wpn.
    iDestruct (word_u64 with "Wd") as %Hw.
    iDestruct (raw_words1 with "R") as "[[%v Wb] R]"; [simpl; lia|]. iApply (wp_store64 with "Wb"); [done|]. iIntros "Wb". wpn.
    iApply (IH with "Wa R"); [done|simpl; lia|]. iIntros "Wa Ws". iApply ("W" with "[Wd Wa]"); [iFrame|].
    rewrite words_cons. iFrame.
Qed.
Lemma wp_t_init_node {RR : Rep} {A} o s e ps v (K : unit → prog A) Φ Ψ : is_byte s → is_byte e → is_byte ps → is_u64 v →
  raw o (o + 16) -∗
  (pts o [s] -∗ pts (o + 1) [e] -∗ pts (o + 2) [ps] -∗ raw (o + 3) (o + 8) -∗ word (o + 8) v -∗ wp (K tt) Φ Ψ) -∗
  wp (x <- t_init_node o s e ps v ;; K x) Φ Ψ.
Proof.
  iIntros (Hs He Hp Hv) "R W". unfold t_init_node.
  iDestruct (raw_split _ (o + 1) with "R") as "[R1 R]"; [lia|].
  iDestruct (raw_split _ (o + 2) with "R") as "[R2 R]"; [lia|].
  iDestruct (raw_split _ (o + 3) with "R") as "[R3 R]"; [lia|].
  iDestruct (raw_split _ (o + 8) with "R") as "[R4 R]"; [lia|].
  iDestruct (raw_word with "R") as "[%w Wd]"; [lia|]. wpn.
  iApply (wp_store8 with "R1"); [done|]. iIntros "P1". wpn.
  replace (o + 2) with (o + 1 + 1) by lia. iApply (wp_store8 with "R2"); [done|]. iIntros "P2". wpn.
  replace (o + 3) with (o + 2 + 1) by lia. replace (o + 1 + 1) with (o + 2) by lia.
  iApply (wp_store8 with "R3"); [done|]. iIntros "P3". wpn.
  iApply (wp_store64 with "Wd"); [done|]. iIntros "Wd". wpn. replace (o + 2 + 1) with (o + 3) by lia.
  iApply ("W" with "P1 P2 P3 R4 Wd").
Qed.
Local Opaque t_init_node.

Lemma node_raw M N p (r : Z * Z) o : r.1 <= r.2 → node_at M N p (r, o) ⊢ raw o (o + node_bytes r).
Proof.
  iIntros (Hr) "(P1 & P2 & P3 & R & W & Ws)". unfold node_bytes.
  iApply (raw_split _ (o + 1)); [lia|]. iSplitL "P1"; [by iApply (pts_raw with "P1")|].
  iApply (raw_split _ (o + 2)); [lia|]. iSplitL "P2"; [iApply (pts_raw with "P2"); simpl; lia|].
  iApply (raw_split _ (o + 3)); [lia|]. iSplitL "P3"; [iApply (pts_raw with "P3"); simpl; lia|].
  iApply (raw_split _ (o + 8)); [lia|]. iFrame "R".
  iApply (words_raw1 with "W"); [lia|]. replace (o + 8 + 8) with (o + 16) by lia.
  iApply (words_raw with "Ws"). rewrite map_length. unfold chars. rewrite seqZ_length. lia.
Qed.
Lemma map_zeros (f : Z → Z) l : (∀ d, d ∈ l → f d = 0) → map f l = repeat 0 (length l).
Proof.
  induction l as [|d l IH]; intros H; [done|]. cbn [map repeat length]. rewrite H; [|by left]. f_equal.
  apply IH. intros. apply H. by right.
Qed.

(** ** Blocks *)
Lemma tblocks_ins b M N q x : q ≠ [] → N !! q = None →
  tblocks b M (<[q := x]> N) ≡ₚ (x.2, node_bytes x.1) :: tblocks b M N.
Proof.
  intros Hq HN. unfold tblocks. rewrite (nblocks_insert _ _ _ Hq HN). apply perm_swap.
Qed.
Lemma tblocks_del b M N q x : q ≠ [] → N !! q = Some x →
  tblocks b M N ≡ₚ (x.2, node_bytes x.1) :: tblocks b M (delete q N).
Proof.
  intros Hq HN. rewrite -{1}(insert_delete N q x); [|done]. apply tblocks_ins; [done|]. apply lookup_delete.
Qed.
Lemma tok_out b M N p r o c : tok b M N → N !! p = Some (r, o) → ¬ in_range r c →
  M !! (p ++ [c]) = None ∧ N !! (p ++ [c]) = None.
Proof.
  intros HT Hp Hnr. split; [destruct (M !! (p ++ [c])) eqn:E|destruct (N !! (p ++ [c])) eqn:E]; try done; exfalso.
  - destruct (tok_key' _ _ _ _ _ HT ltac:(eauto)) as (r' & o' & H & Hc). by simplify_eq.
  - destruct (tok_node _ _ _ _ _ HT ltac:(eauto)) as (r' & o' & H & Hc). by simplify_eq.
Qed.
Lemma alter_none (N : ndmap) k : N !! k = None → partial_alter (λ _, None) k N = N.
Proof. intros H. change (delete k N = N). by apply delete_notin. Qed.
Lemma sword_none M N k : M !! k = None → N !! k = None → sword M N k = 0.
Proof. intros H1 H2. unfold sword, vword. by rewrite H2 H1. Qed.

Lemma reach_app b M N q : ∀ p k, tok b M N → is_Some (N !! (p ++ q)) →
  t_reach (rng N) p (q ++ k) = t_reach (rng N) (p ++ q) k.
Proof.
  induction q as [|c q IH]; intros p k HT Hs; [by rewrite app_nil_r|].
  assert ((p ++ [c]) ++ q = p ++ c :: q) as E by by rewrite -assoc.
  assert (is_Some (N !! (p ++ [c]))) as Hc.
  { destruct (N !! (p ++ [c])) eqn:En; [eauto|]. destruct (tok_no_node _ _ _ _ q HT En) as [H _].
    rewrite E in H. rewrite H in Hs. by destruct Hs. }
  cbn [app]. rewrite reach_step; [|by apply rng_Some]. rewrite IH; [by rewrite E|done|by rewrite E].
Qed.
Lemma chain_ext k : ∀ N p c, t_chain N p (c :: k) = match k with [] => N | c' :: _ => t_chain (<[p ++ [c] := (c', c')]> N) (p ++ [c]) k end.
Proof. intros N p c. by destruct k. Qed.
Lemma chain_sizes_cons c c' k : chain_sizes (c :: c' :: k) = 24 :: chain_sizes (c' :: k).
Proof. done. Qed.

Lemma space_nonneg' l : Forall (λ n, 0 <= n) l → 0 <= space l.
Proof. induction 1 as [|x l]; [done|]. change (space (x :: l)) with (room x + space l). unfold room. lia. Qed.
Lemma space_app l k : space (l ++ k) = space l + space k.
Proof.
  induction l as [|x l IH]; [done|]. cbn [app]. change (space (x :: l ++ k)) with (room x + space (l ++ k)).
  change (space (x :: l)) with (room x + space l). lia.
Qed.
Lemma chain_sizes_nonneg k : Forall (λ n, 0 <= n) (chain_sizes k).
Proof. induction k as [|c k IH]; [constructor|]. destruct k; [constructor|]. rewrite chain_sizes_cons. constructor; [lia|done]. Qed.

Section make.
  Context `{ne : NodeErr}.
  Context {RR : Rep} {PR : PoolRep} {al : allocator} (S : alloc_spec al) (cf : cfg).
  Notation ainv := (ainv S cf).

  (** A block of one of these sizes may have been leaked. *)
  Definition lk (l : list Z) : Prop := ∃ n, n ∈ l ∧ as_leaky S n.
  Lemma lk_sub l k : (∀ n, n ∈ l → n ∈ k) → lk l → lk k.
  Proof using. intros H (n & Hn & Hl). exists n. split; [by apply H|done]. Qed.
  Lemma lk_nil : ¬ lk [].
  Proof using. intros (n & Hn & _). by apply elem_of_nil in Hn. Qed.

  (** The tree with its blocks. *)
  Definition tst b M N x R s : hPropI := (ainv (tblocks b M N ++ R) s ∗ tinv b M N x)%I.

  Lemma node_sizes_in (N : ndmap) q r o : q ≠ [] → N !! q = Some (r, o) → node_bytes r ∈ node_sizes (rng N).
  Proof using.
    intros Hq HN. unfold node_sizes. apply elem_of_list_fmap. exists (q, r). split; [done|].
    apply elem_of_map_to_list. rewrite lookup_delete_ne; [|done]. apply rng_lookup. eauto.
  Qed.

  Lemma wp_t_extend {A} b M N x R s q r no par c (K : Z → prog A) Φ Ψ :
    N !! q = Some (r, no) → is_byte c →
    (q = [] ∨ ∃ q' d r', q = q' ++ [d] ∧ N !! q' = Some (r', par) ∧ in_range r' d) →
    (¬ in_range r c → as_size_ok S (node_bytes (widen c r))) →
    tst b M N x R s -∗
    ((∀ N' r' no' s', ⌜rng N' = alter (widen c) q (rng N) ∧ N' !! q = Some (r', no') ∧ in_range r' c ∧
          (∀ j, j ≠ q → N' !! j = N !! j) ∧
          ext cf (space (if (fst r <=? c) && (c <=? snd r) then [] else [node_bytes (widen c r)])) (lk (if (fst r <=? c) && (c <=? snd r) then [] else [node_bytes r])) s s'⌝ -∗
        tst b M N' x R s' -∗ wp (K no') Φ Ψ) ∧
     (⌜¬ in_range r c ∧ ¬ grow_allowed cf (s_m s + room (node_bytes (widen c r)))⌝ -∗ tst b M N x R s -∗ Ψ RuntimeError)) -∗
    wp (y <- t_extend al par no c ;; K y) Φ Ψ.
  Proof using.
    iIntros (Hq Hc Hpar Hsz) "[H (%HT & Wi & Wn & T & V)] W". unfold t_extend. wpn.
    iDestruct (node_acc _ _ _ _ Hq with "T") as "[(P1 & P2 & P3 & Rr & Wv & Ws) T]".
    iApply (wp_load8 with "P1"). iIntros "P1". wpn.
    iApply (wp_load8 with "P2"). iIntros "P2". wpn.
    destruct (tok_rng _ _ _ _ _ _ HT Hq) as (Hr0 & Hr1 & Hr2).
    destruct (bool_decide_reflect (c < r.1 ∨ c > r.2)) as [Hnr|Hin].
    2:{ assert (in_range r c) as Hcr by (unfold in_range; lia). wpn.
      iDestruct "W" as "[W _]". iApply ("W" $! N r no s with "[]").
      - iPureIntro. split_and!; try done.
        + erewrite alter_widen_in; [done| |done]. apply rng_lookup. eauto.
        + rewrite (proj2 (in_range_b r c) Hcr). eapply ext_weaken; [apply ext_refl|done|done].
      - iFrame "H". iSplit; [done|]. iFrame. iApply "T". iFrame. }
    assert (¬ in_range r c) as Hnr' by (unfold in_range; lia).
    assert (q ≠ []) as Hq0.
    { intros ->. rewrite (tk_root _ _ _ HT) in Hq. simplify_eq. simpl in *. unfold is_byte in Hc. lia. }
    destruct Hpar as [?|(q' & d & rp & -> & Hp & Hd)]; [done|]. set (q := q' ++ [d]) in *.
    destruct (tok_rng _ _ _ _ _ _ HT Hp) as (Hp0 & Hp1 & Hp2).
    set (s' := if bool_decide (c < r.1) then c else r.1). set (e' := if bool_decide (c < r.1) then r.2 else c).
    assert (widen c r = (s', e')) as Hw.
    { unfold widen, s', e'. case_bool_decide; f_equal; lia. }
    assert (s' <= r.1 ∧ r.2 <= e' ∧ 0 <= s' ∧ e' <= 255 ∧ s' <= c <= e') as (Hs1 & Hs2 & Hs3 & Hs4 & Hs5).
    { unfold s', e', is_byte in *. case_bool_decide; lia. }
    assert (∀ (H : c < r.1), s' = c) as Es1 by (intros H; unfold s'; by rewrite bool_decide_eq_true_2).
    assert (∀ (H : c < r.1), e' = r.2) as Ee1 by (intros H; unfold e'; by rewrite bool_decide_eq_true_2).
    assert (∀ (H : ¬ c < r.1), s' = r.1) as Es2 by (intros H; unfold s'; by rewrite bool_decide_eq_false_2).
    assert (∀ (H : ¬ c < r.1), e' = c) as Ee2 by (intros H; unfold e'; by rewrite bool_decide_eq_false_2).
    clearbody s' e'. wpn. iApply (wp_load8 with "P3"). iIntros "P3". wpn.
    iApply (wp_load64 with "Wv"). iIntros "Wv". wpn.
    iDestruct (word_u64 with "Wv") as %Hvu.
    iDestruct (pts_bytes_ok with "P3") as %Hlb. assert (lastc q = d) as Hld by apply lastc_snoc.
    assert (16 + 8 * (e' - s' + 1) = node_bytes (widen c r)) as Hnb by (rewrite Hw; unfold node_bytes; simpl; lia).
    rewrite Hnb.
    iSpecialize ("T" with "[P1 P2 P3 Rr Wv Ws]"); [iFrame|].
    iApply (wp_allocate with "H"); [by apply Hsz|]. iSplit.
    2:{ iDestruct "W" as "[_ W]". iIntros (Hg) "H". iApply "W"; [done|]. iFrame. done. }
    iIntros (new s1 (Hext & Hn1 & Hn8 & Hn2)) "H R". wpn. rewrite -Hnb.
    iDestruct (raw_split _ (new + 16) with "R") as "[R1 R]"; [lia|].
    assert (is_byte s' ∧ is_byte e' ∧ is_byte (lastc q)) as (Hb1 & Hb2 & Hb3).
    { unfold is_byte in *. split_and!; [lia|lia|lia|lia| |]; rewrite Hld; unfold in_range in Hd; lia. }
    iApply (wp_t_init_node with "R1"); [done|done|done|done|]. iIntros "Q1 Q2 Q3 Q4 Q5". wpn.
    set (f := λ c0, sword M N (q ++ [c0])).
    assert (∀ c0, ¬ in_range r c0 → f c0 = 0) as Hf0.
    { intros c0 Hc0. unfold f. destruct (tok_out _ _ _ _ _ _ _ HT Hq Hc0). by apply sword_none. }
    (* the slots of the new node *)
    iApply (wp_bind (if bool_decide (c < r.1) then _ else _)).
    iAssert (∀ Φ', (tnodes M N -∗ wds (new + 16) (map f (chars (s', e'))) -∗ Φ' tt) -∗
      wp (if bool_decide (c < r.1)
       then x <- t_zero (Z.to_nat (r.1 - s')) (new + 16) ;; t_copy (Z.to_nat (r.2 - r.1 + 1)) (no + 16) (new + 16 + 8 * (r.1 - s'))
       else x <- t_copy (Z.to_nat (r.2 - r.1 + 1)) (no + 16) (new + 16) ;; t_zero (Z.to_nat (e' - r.2)) (new + 16 + 8 * (r.2 - r.1 + 1))) Φ' Ψ)%I
      with "[T R]" as "Hloop".
    { iIntros (Φ') "W". iDestruct (node_acc _ _ _ _ Hq with "T") as "[(P1 & P2 & P3 & Rr & Wv & Ws) T]".
      assert (length (map f (chars r)) = Z.to_nat (r.2 - r.1 + 1)) as Hlen by (rewrite map_length; unfold chars; by rewrite seqZ_length).
      destruct (bool_decide_reflect (c < r.1)) as [Hlt|Hge].
      - rewrite Es1 // Ee1 //.
        iDestruct (raw_split _ (new + 16 + 8 * (r.1 - c)) with "R") as "[R1 R]"; [lia|].
        iApply (wp_t_zero with "R1"); [lia|]. iIntros "Wz". iApply bind_ret_r.
        iApply (wp_t_copy _ _ (no + 16) _ (new + (16 + 8 * (r.2 - c + 1))) with "Ws R"); [by rewrite Hlen|lia|].
        iIntros "Ws Wn". iApply wp_ret. iApply ("W" with "[T P1 P2 P3 Rr Wv Ws]"); [iApply "T"; iFrame|].
        assert (map f (chars (c, r.2)) = repeat 0 (Z.to_nat (r.1 - c)) ++ map f (chars r)) as ->.
        { unfold chars. cbn [fst snd]. replace (r.2 - c + 1) with ((r.1 - c) + (r.2 - r.1 + 1)) by lia.
          rewrite seqZ_app; [|lia|lia]. rewrite map_app. f_equal; [|do 2 f_equal; lia].
          rewrite map_zeros; [by rewrite seqZ_length|]. intros d0 Hd0. apply elem_of_seqZ in Hd0. apply Hf0.
          unfold in_range. lia. }
        rewrite words_app. iFrame "Wz". rewrite repeat_length. replace (8 * Z.of_nat (Z.to_nat (r.1 - c))) with (8 * (r.1 - c)) by lia. done.
      - rewrite Es2 // Ee2 //.
        iDestruct (raw_split _ (new + 16 + 8 * (r.2 - r.1 + 1)) with "R") as "[R1 R]"; [lia|].
        iApply (wp_t_copy _ _ (no + 16) _ (new + 16 + 8 * (r.2 - r.1 + 1)) with "Ws R1"); [by rewrite Hlen|lia|].
        iIntros "Ws Wn". iApply bind_ret_r. iApply (wp_t_zero with "R"); [lia|]. iIntros "Wz".
        iApply wp_ret. iApply ("W" with "[T P1 P2 P3 Rr Wv Ws]"); [iApply "T"; iFrame|].
        assert (map f (chars (r.1, c)) = map f (chars r) ++ repeat 0 (Z.to_nat (c - r.2))) as ->.
        { unfold chars. cbn [fst snd]. replace (c - r.1 + 1) with ((r.2 - r.1 + 1) + (c - r.2)) by lia.
          rewrite seqZ_app; [|lia|lia]. rewrite map_app. f_equal.
          rewrite map_zeros; [by rewrite seqZ_length|]. intros d0 Hd0. apply elem_of_seqZ in Hd0. apply Hf0.
          unfold in_range. lia. }
        rewrite words_app. iFrame "Wn". rewrite Hlen. replace (8 * Z.of_nat (Z.to_nat (r.2 - r.1 + 1))) with (8 * (r.2 - r.1 + 1)) by lia. done. }
    iApply "Hloop". iIntros "T Ws". wpn.
    iDestruct (node_acc _ _ _ _ Hp with "T") as "[(P1 & P2 & P3 & Rr & Wv & Wsp) T]".
    iApply (wp_load8 with "P1"). iIntros "P1". wpn.
    iSpecialize ("T" with "[P1 P2 P3 Rr Wv Wsp]"); [iFrame|].
    iDestruct (parent_acc _ _ _ _ _ _ Hp Hd with "T") as "(Hold & Wc & T)". fold q. rewrite Hq Hld.
    iApply (wp_store64 with "Wc"); [unfold is_u64; lia|]. iIntros "Wc". wpn.
    iSpecialize ("T" $! (Some (widen c r, new))).
    change (partial_alter (λ _ : option nd, Some (widen c r, new)) q N) with (<[q := (widen c r, new)]> N).
    set (N' := <[q := (widen c r, new)]> N) in *.
    assert (sword M N' q = new) as Hsq by (unfold sword, N'; by rewrite lookup_insert).
    iSpecialize ("T" with "[Wc] [Q1 Q2 Q3 Q4 Q5 Ws]"); [by rewrite Hsq| |].
    { rewrite Hw. unfold node_at. cbn [fst snd]. rewrite Hld. iFrame.
      assert (map f (chars (s', e')) = map (λ c0, sword M N' (q ++ [c0])) (chars (s', e'))) as <-; [|done].
      apply map_ext. intros c0. unfold f, sword, N'. rewrite lookup_insert_ne; [done|]. apply ne_snoc. }
    iDestruct (node_raw with "Hold") as "Hold"; [lia|].
    assert (tok b M N') as HT'.
    { apply (tok_set b M N q' d rp par); try done.
      - rewrite Hw. simpl. lia.
      - simpl. split; [done|]. rewrite Hw in Hn2. unfold node_bytes in Hn2. simpl in Hn2. lia.
      - fold q. rewrite Hq. intros d0 r0 o0 [= <- <-] Hd0. rewrite Hw. unfold in_range in *. simpl. lia. }
    iApply (wp_free _ _ _ s1 no (node_bytes r) with "[H] Hold").
    { iApply (ainv_perm with "H"). rewrite (tblocks_del b M N q _ Hq0 Hq). cbn [fst snd app]. apply perm_swap. }
    iIntros (s2 He2) "H". wpn. rewrite Hnb. iDestruct "W" as "[W _]". iApply ("W" $! N' (widen c r) new s2).
    - iPureIntro. split_and!.
      + unfold N'. rewrite rng_insert. apply map_eq. intros j. destruct (decide (j = q)) as [->|].
        * rewrite lookup_insert lookup_alter. unfold rng. rewrite lookup_fmap Hq. done.
        * by rewrite lookup_insert_ne // lookup_alter_ne.
      + unfold N'. by rewrite lookup_insert.
      + rewrite Hw. unfold in_range. simpl. lia.
      + intros j Hj. unfold N'. by rewrite lookup_insert_ne.
      + assert ((r.1 <=? c) && (c <=? r.2) = false) as ->.
        { apply not_true_iff_false. rewrite in_range_b. done. }
        eapply ext_weaken; [eapply ext_trans; [exact Hext|exact He2]| |].
        * change (space [node_bytes (widen c r)]) with (room (node_bytes (widen c r)) + 0). lia.
        * intros [?|?]; [done|]. eexists. split; [|done]. by left.
    - iSplitL "H".
      + iApply (ainv_perm with "H"). unfold N'. rewrite -(insert_delete_insert N).
        rewrite (tblocks_ins b M (delete q N) q _ Hq0); [|apply lookup_delete]. done.
      + iSplit; [done|]. iFrame. unfold N'. rewrite map_size_insert Hq. done.
  Qed.
  Local Opaque t_extend.

  Lemma wp_t_nodes_add {A} b n d (K : unit → prog A) Φ Ψ :
    word (b + 8) (u64 n) -∗ (word (b + 8) (u64 (n + d)) -∗ wp (K tt) Φ Ψ) -∗ wp (y <- t_nodes_add b d ;; K y) Φ Ψ.
  Proof using.
    iIntros "Wn W". unfold t_nodes_add. wpn. iApply (wp_load64 with "Wn"). iIntros "Wn". wpn.
    rewrite u64_u64_add. iApply (wp_store64 with "Wn"); [apply u64_range|]. iIntros "Wn". wpn. by iApply "W".
  Qed.
  Lemma wp_t_items_add {A} b n d (K : unit → prog A) Φ Ψ :
    word b (u64 n) -∗ (word b (u64 (n + d)) -∗ wp (K tt) Φ Ψ) -∗ wp (y <- t_items_add b d ;; K y) Φ Ψ.
  Proof using.
    iIntros "Wn W". unfold t_items_add. wpn. iApply (wp_load64 with "Wn"). iIntros "Wn". wpn.
    rewrite u64_u64_add. iApply (wp_store64 with "Wn"); [apply u64_range|]. iIntros "Wn". wpn. by iApply "W".
  Qed.

  Lemma wp_t_chain {A} b x R k : ∀ M N s q c r no (K : Z → prog A) Φ Ψ,
    N !! q = Some (r, no) → in_range r c → N !! (q ++ [c]) = None → bytes_ok (c :: k) →
    Forall (as_size_ok S) (chain_sizes (c :: k)) →
    tst b M N x R s -∗
    ((∀ N' s', ⌜rng N' = t_chain (rng N) q (c :: k) ∧ has_place N' (q ++ c :: k) ∧ N' !! (q ++ c :: k) = None ∧
          ext cf (space (chain_sizes (c :: k))) False s s'⌝ -∗
        tst b M N' x R s' -∗ wp (K (place N' (q ++ c :: k))) Φ Ψ) ∧
     (∀ N' s' n, ⌜rng N' = t_chain (rng N) q (take (Datatypes.S n) (c :: k)) ∧
          ext cf (space (chain_sizes (c :: k))) False s s' ∧ chain_sizes (c :: k) ≠ [] ∧
          ¬ grow_allowed cf (s_m s + space (chain_sizes (c :: k)))⌝ -∗
        tst b M N' x R s' -∗ Ψ RuntimeError)) -∗
    wp (y <- t_chain_nodes al b no c k ;; K y) Φ Ψ.
  Proof using.
    induction k as [|c' k IH]; intros M N s q c r no K Φ Ψ Hq Hc Hqc Hk Hsz; iIntros "[H (%HT & Wi & Wn & T & V)] W".
    - cbn [t_chain_nodes]. wpn.
      iDestruct (node_acc _ _ _ _ Hq with "T") as "[(P1 & P2) T]".
      iApply (wp_load8 with "P1"). iIntros "P1". wpn. iDestruct "W" as "[W _]".
      rewrite -(place_child _ _ _ _ _ Hqc Hq). iApply ("W" $! N s).
      + iPureIntro. split_and!; try done; [right; exists q, c, r, no; done|].
        eapply ext_weaken; [apply ext_refl|done|done].
      + iFrame "H". iSplit; [done|]. iFrame. iApply "T". iFrame.
    - cbn [t_chain_nodes]. wpn. rewrite chain_sizes_cons in Hsz |- *. inversion Hsz as [|? ? Hs24 Hsz']; subst.
      inversion Hk as [|? ? Hkc Hk']; subst. inversion Hk' as [|? ? Hkc' _]; subst.
      iDestruct (node_acc _ _ _ _ Hq with "T") as "[(P1 & P2) T]".
      iApply (wp_load8 with "P1"). iIntros "P1". wpn. iSpecialize ("T" with "[P1 P2]"); [iFrame|].
      iDestruct (parent_acc _ _ _ _ _ _ Hq Hc with "T") as "(He & Wc & T)".
      iApply (wp_load64 with "Wc"). iIntros "Wc". wpn. iDestruct (word_u64 with "Wc") as %Hu.
      assert (sword M N (q ++ [c]) = vword M (q ++ [c])) as Hsw by (unfold sword; by rewrite Hqc).
      change (space (24 :: chain_sizes (c' :: k))) with (room 24 + space (chain_sizes (c' :: k))).
      pose proof (space_nonneg' _ (chain_sizes_nonneg (c' :: k))) as Hnn.
      iApply (wp_allocate with "H"); [done|]. iSplit.
      2:{ iDestruct "W" as "[_ W]". iIntros (Hg) "H". iApply ("W" $! N s 0%nat).
        - iPureIntro. cbn [take]. split_and!; try done.
          + eapply ext_weaken; [apply ext_refl|unfold room; lia|done].
          + intros Hgr. apply Hg. eapply grow_allowed_mono; [|exact Hgr]. lia.
        - iFrame "H". iSplit; [done|]. iFrame. iSpecialize ("T" $! None).
          rewrite (alter_none N _ Hqc).
          iApply ("T" with "Wc"). done. }
      iIntros (new s1 (Hext & Hn1 & Hn8 & Hn2)) "H Rw". wpn.
      iDestruct (raw_split _ (new + 16) with "Rw") as "[R1 Rw]"; [lia|].
      iDestruct (raw_word with "Rw") as "[%w0 Ws]"; [lia|].
      iApply (wp_t_init_node with "R1"); [done|done|done|done|]. iIntros "Q1 Q2 Q3 Q4 Q5". wpn.
      iApply (wp_store64 with "Ws"); [done|]. iIntros "Ws". wpn.
      set (N' := <[q ++ [c] := (c', c', new)]> N).
      assert (tok b M N') as HT'.
      { apply (tok_set b M N q c r no); try done.
        - unfold is_byte in *. simpl. lia.
        - split; [done|lia].
        - rewrite Hqc. done. }
      (* read the first byte of the parent again *)
      iSpecialize ("T" $! None).
      rewrite (alter_none N _ Hqc).
      iSpecialize ("T" with "Wc [//]").
      iDestruct (node_acc _ _ _ _ Hq with "T") as "[(P1 & P2) T]".
      iApply (wp_load8 with "P1"). iIntros "P1". wpn. iSpecialize ("T" with "[P1 P2]"); [iFrame|].
      iDestruct (parent_acc _ _ _ _ _ _ Hq Hc with "T") as "(_ & Wc & T)".
      iApply (wp_store64 with "Wc"); [unfold is_u64; lia|]. iIntros "Wc". wpn.
      iSpecialize ("T" $! (Some (c', c', new))).
      change (partial_alter (λ _ : option nd, Some (c', c', new)) (q ++ [c]) N) with N'.
      assert (sword M N' (q ++ [c]) = new) as Hsq by (unfold sword, N'; by rewrite lookup_insert).
      destruct (tok_no_node _ _ _ _ [c'] HT Hqc) as [Hno1 Hno2]. specialize (Hno2 ltac:(done)).
      assert (N' !! ((q ++ [c]) ++ [c']) = None) as Hno1'.
      { unfold N'. rewrite lookup_insert_ne; [done|]. apply ne_snoc. }
      iSpecialize ("T" with "[Wc] [Q1 Q2 Q3 Q4 Q5 Ws]"); [by rewrite Hsq| |].
      { unfold node_at. cbn [fst snd]. rewrite lastc_snoc -Hsw. iFrame.
        assert (chars (c', c') = [c']) as ->.
        { unfold chars. cbn [fst snd]. replace (c' - c' + 1) with 1 by lia. unfold seqZ. simpl. done. }
        cbn [List.map]. rewrite sword_none; [|done|done]. unfold wds. rewrite big_sepL_singleton.
        by replace (new + 16 + 8 * Z.of_nat 0) with (new + 16) by lia. }
      iApply (wp_t_nodes_add with "Wn"). iIntros "Wn".
      assert (Z.of_nat (size N) + node_err + 1 = Z.of_nat (size N') + node_err) as ->.
      { unfold N'. rewrite map_size_insert Hqc. simpl. lia. }
      iApply (IH M N' s1 (q ++ [c]) c' (c', c') new with "[H Wi Wn T V]").
      + unfold N'. by rewrite lookup_insert.
      + unfold in_range. simpl. lia.
      + done.
      + by inversion Hk.
      + done.
      + iSplitL "H".
        { iApply (ainv_perm with "H"). unfold N'. rewrite (tblocks_ins b M N (q ++ [c]) _); [|by destruct q|done].
          unfold node_bytes. cbn [fst snd]. by replace (16 + 8 * (c' - c' + 1)) with 24 by lia. }
        iSplit; [done|]. iFrame.
      + assert ((q ++ [c]) ++ c' :: k = q ++ c :: c' :: k) as Eq by by rewrite -assoc.
        assert (rng N' = <[q ++ [c] := (c', c')]> (rng N)) as Er by (unfold N'; by rewrite rng_insert).
        rewrite Eq. iSplit.
        * iDestruct "W" as "[W _]". iIntros (N2 s2 (H1 & H2 & H3 & H4)) "HT". iApply ("W" with "[] HT"). iPureIntro.
          split_and!; [by rewrite H1 Er|done|done|].
          eapply ext_weaken; [eapply ext_trans; [exact Hext|exact H4]|lia|tauto].
        * iDestruct "W" as "[_ W]". iIntros (N2 s2 n (H1 & H2 & H3 & H4)) "HT".
          iApply ("W" $! N2 s2 (Datatypes.S n) with "[] HT"). iPureIntro. split_and!; try done.
          -- rewrite H1 Er. done.
          -- eapply ext_weaken; [eapply ext_trans; [exact Hext|exact H2]|lia|tauto].
          -- intros Hgr. apply H4. eapply grow_allowed_mono; [|exact Hgr]. destruct Hext as (? & _). lia.
  Qed.

  Lemma chain_sizes_none c k : chain_sizes (c :: k) = [] → k = [].
  Proof using. by destruct k. Qed.

  (** Walking from the root and making what is missing. *)
  Lemma wp_t_make {A} b M N x R s k (K : Z → prog A) Φ Ψ :
    bytes_ok k → Forall (as_size_ok S) (reach_sizes (rng N) [] k) →
    tst b M N x R s -∗
    ((∀ N' s', ⌜rng N' = t_reach (rng N) [] k ∧ has_place N' k ∧
          ext cf (space (reach_sizes (rng N) [] k)) (lk (reach_frees (rng N) [] k)) s s'⌝ -∗
        tst b M N' x R s' -∗ wp (K (place N' k)) Φ Ψ) ∧
     (∀ N' s', ⌜partly_reached k (rng N) (rng N') ∧
          ext cf (space (reach_sizes (rng N) [] k)) (lk (reach_frees (rng N) [] k)) s s' ∧ reach_sizes (rng N) [] k ≠ [] ∧
          ¬ grow_allowed cf (s_m s + space (reach_sizes (rng N) [] k))⌝ -∗
        tst b M N' x R s' -∗ Ψ RuntimeError)) -∗
    wp (y <- t_make al b k ;; K y) Φ Ψ.
  Proof using.
    iIntros (Hk Hsz) "[H (%HT & Wi & Wn & T & V)] W". unfold t_make, t_traverse. wpn.
    pose proof (tk_root _ _ _ HT) as Hroot.
    iApply (wp_t_walk with "T"); [done|exact Hroot|]. iIntros (w Hw) "T". wpn.
    destruct w as [slot ns|par no rest]; unfold walk_post in Hw; cbn [app] in Hw.
    - destruct Hw as (-> & Hpl & _ & _ & Hr & Hs & Hfr). wpn. iDestruct "W" as "[W _]". iApply ("W" $! N s).
      + iPureIntro. rewrite Hr Hs Hfr. split_and!; [done|done|]. eapply ext_weaken; [apply ext_refl|done|done].
      + iFrame "H". iSplit; [done|]. iFrame.
    - destruct Hw as (q & c & k' & r & -> & -> & Hq & Hqc & Hcase & Hpar & Hreach & Hsizes & Hfrees & HM & HN).
      rewrite Hreach Hsizes Hfrees. rewrite Hsizes in Hsz.
      assert (rng N !! (q ++ [c]) = None) as Hrqc by by apply rng_None.
      assert (rng N !! q = Some r) as Hrq by (apply rng_lookup; eauto).
      rewrite (sizes_stop _ _ _ _ r) // in Hsz |- *. rewrite (frees_stop _ _ _ _ r) //. rewrite reach_stop // in Hreach |- *.
      apply Forall_app in Hsz as [Hsz1 Hsz2]. apply Forall_app in Hk as [_ Hk].
      pose proof (space_nonneg' _ (chain_sizes_nonneg (c :: k'))) as Hnn.
      rewrite space_app. set (sz1 := if (r.1 <=? c) && (c <=? r.2) then [] else [node_bytes (widen c r)]) in *.
      destruct (tok_rng _ _ _ _ _ _ HT Hq) as (Hr0 & Hr1 & Hr2).
      assert (is_byte c) as Hcb by by inversion Hk.
      assert (0 <= space sz1) as Hnn1.
      { unfold sz1. destruct (_ && _); [done|]. unfold space, room, node_bytes, widen. simpl. lia. }
      assert (∀ n, t_reach (rng N) [] (take (length q + n) (q ++ c :: k')) = t_reach (rng N) q (take n (c :: k'))) as Htake.
      { intros n. rewrite take_add_app; [|done]. by rewrite (reach_app b M N q [] _ HT). }
      wpn. iApply (wp_t_extend b M N x R s q r no par c with "[H Wi Wn T V]"); [done|done| | | |].
      + destruct Hpar as [[-> _]|Hpar]; [by left|by right].
      + intros Hnr. unfold sz1 in Hsz1. assert ((r.1 <=? c) && (c <=? r.2) = false) as Eb.
        { apply not_true_iff_false. rewrite in_range_b. done. }
        rewrite Eb in Hsz1. by inversion Hsz1.
      + iFrame "H". iSplit; [done|]. iFrame.
      + iSplit.
        2:{ iIntros ([Hnr Hg]) "HT". iDestruct "W" as "[_ W]". iApply ("W" $! N s with "[] HT"). iPureIntro.
          assert ((r.1 <=? c) && (c <=? r.2) = false) as Eb.
          { apply not_true_iff_false. rewrite in_range_b. done. }
          assert (sz1 = [node_bytes (widen c r)]) as Esz by (unfold sz1; by rewrite Eb).
          rewrite Esz. change (space [node_bytes (widen c r)]) with (room (node_bytes (widen c r)) + 0). rewrite Esz in Hnn1.
          split_and!; [|eapply ext_weaken; [apply ext_refl| |done]|done|].
          - exists (length q). pose proof (Htake 0%nat) as Ht. rewrite Nat.add_0_r in Ht. rewrite Ht. done.
          - change (space [node_bytes (widen c r)]) with (room (node_bytes (widen c r)) + 0) in Hnn1. lia.
          - intros Hgr. apply Hg. eapply grow_allowed_mono; [|exact Hgr]. lia. }
        iIntros (N1 r1 no1 s1 (Er1 & Hq1 & Hc1 & Hoth & He1)) "HT".
        iApply (wp_t_chain b x R k' M N1 s1 q c r1 no1 with "HT"); [done|done| |done|done|].
        { rewrite Hoth; [done|]. apply snoc_ne. done. }
        rewrite Er1. iSplit.
        * iDestruct "W" as "[W _]". iIntros (N2 s2 (H1 & H2 & H3 & H4)) "HT". iApply ("W" with "[] HT"). iPureIntro.
          split_and!; [by rewrite H1|done|].
          eapply ext_weaken; [eapply ext_trans; [exact He1|exact H4]|done|tauto].
        * iDestruct "W" as "[_ W]". iIntros (N2 s2 n (H1 & H2 & H3 & H4)) "HT".
          iApply ("W" $! N2 s2 with "[] HT"). iPureIntro. split_and!.
          -- exists (length q + Datatypes.S n)%nat. rewrite Htake H1. cbn [take]. by rewrite reach_stop.
          -- eapply ext_weaken; [eapply ext_trans; [exact He1|exact H2]|done|tauto].
          -- intros Hnil. apply app_eq_nil in Hnil as [_ ?]. done.
          -- intros Hgr. apply H4. eapply grow_allowed_mono; [|exact Hgr]. destruct He1 as (He1 & _). change (s_m s <= s_m s1 <= s_m s + space sz1) in He1. lia.
  Qed.
End make.
