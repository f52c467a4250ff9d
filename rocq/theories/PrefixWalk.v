(** * PrefixTree: following and making the nodes of a key. *)
From Verif Require Export PrefixRep.
From iris.proofmode Require Import tactics.
From iris.prelude Require Import options.
Open Scope Z_scope.
Open Scope prog_scope.

Local Arguments Z.pow : simpl never.
Local Arguments Z.mul : simpl never.
Local Arguments Z.add : simpl never.

(** ** Structure *)
Lemma parent_acc M N p c r o : N !! p = Some (r, o) → in_range r c →
  tnodes M N ⊢
    match N !! (p ++ [c]) with Some x => node_at M N (p ++ [c]) x | None => emp end ∗
    word (o + 16 + 8 * (c - r.1)) (sword M N (p ++ [c])) ∗
    (∀ X : option nd, let N' := partial_alter (λ _, X) (p ++ [c]) N in
       word (o + 16 + 8 * (c - r.1)) (sword M N' (p ++ [c])) -∗
       match X with Some x => node_at M N' (p ++ [c]) x | None => emp end -∗ tnodes M N').
Proof.
  intros Hp Hc. set (k := p ++ [c]). assert (p ≠ k) as Hpk by apply ne_snoc. iIntros "T".
  iAssert (match N !! k with Some x => node_at M N k x | None => emp end ∗
           [∗ map] q ↦ x ∈ delete k N, node_at M N q x)%I with "[T]" as "[$ T]".
  { unfold tnodes. destruct (N !! k) as [x|] eqn:E.
    - rewrite (big_sepM_delete _ _ k); [|exact E]. iFrame.
    - rewrite delete_notin; [|done]. iFrame. }
  rewrite (big_sepM_delete _ (delete k N) p (r, o)); [|rewrite lookup_delete_ne; [done|congruence]].
  iDestruct "T" as "[(P1 & P2 & P3 & R & W & Ws) T]".
  iDestruct (slot_word_acc _ _ _ _ _ _ Hc with "Ws") as "[Wc Ws]". iFrame "Wc".
  iIntros (X). set (N' := partial_alter (λ _, X) k N). iIntros "Wc X". iSpecialize ("Ws" with "Wc").
  assert (∀ q d, q ++ [d] ≠ k → sword M N (q ++ [d]) = sword M N' (q ++ [d])) as Hsw.
  { intros q d Hq. unfold sword, N'. rewrite lookup_partial_alter_ne; [done|congruence]. }
  assert (N' !! p = Some (r, o)) as Hp' by (unfold N'; rewrite lookup_partial_alter_ne; [done|congruence]).
  iAssert (match X with Some x => node_at M N' k x | None => emp end ∗
           [∗ map] q ↦ x ∈ delete k N', node_at M N' q x)%I with "[-]" as "T".
  { iFrame "X". rewrite (big_sepM_delete _ (delete k N') p (r, o)); [|rewrite lookup_delete_ne; [done|congruence]].
    iSplitR "T".
    - unfold node_at. iFrame. fold k.
      assert (map (λ d, if decide (d = c) then sword M N' k else sword M N (p ++ [d])) (chars r) =
              map (λ c, sword M N' (p ++ [c])) (chars r)) as ->; [|done].
      apply map_ext. intros d. destruct (decide (d = c)) as [->|Hd]; [done|].
      apply Hsw. intros Hx. by apply snoc_inj in Hx as [_ ?].
    - assert (delete k N' = delete k N) as ->.
      { unfold N'. apply map_eq. intros j. destruct (decide (j = k)) as [->|].
        - by rewrite !lookup_delete.
        - rewrite !lookup_delete_ne //. by rewrite lookup_partial_alter_ne. }
      iApply (big_sepM_mono with "T"). intros q [r' o'] Hq.
      apply lookup_delete_Some in Hq as [Hne Hq]. apply lookup_delete_Some in Hq as [Hnk Hq].
      change (node_at M N q (r', o') ⊢ node_at M N' q (r', o')). rewrite (node_at_ext M N M N'); [done|done|].
      intros d _. apply Hsw. intros Hx. by apply snoc_inj in Hx as [? _]. }
  unfold tnodes. destruct X as [x|].
  - rewrite (big_sepM_delete _ N' k); [done|]. unfold N'. by rewrite lookup_partial_alter.
  - iDestruct "T" as "[_ T]". rewrite delete_notin; [done|]. unfold N'. by rewrite lookup_partial_alter.
Qed.
Lemma sword_set M N k X : sword M (partial_alter (λ _, X) k N) k = match X with Some x => x.2 | None => vword M k end.
Proof. unfold sword. rewrite lookup_partial_alter. by destruct X as [[? ?]|]. Qed.

(** ** Preservation of well-formedness *)
Lemma tok_rng b M N p r o : tok b M N → N !! p = Some (r, o) → 0 <= r.1 ∧ r.1 <= r.2 ∧ r.2 <= 255.
Proof. intros HT Hp. apply (wf_range _ _ (tk_wf _ _ _ HT) p). apply rng_lookup. eauto. Qed.
Lemma tok_node b M N p c : tok b M N → is_Some (N !! (p ++ [c])) → ∃ r o, N !! p = Some (r, o) ∧ in_range r c.
Proof.
  intros HT Hp. apply rng_Some in Hp. destruct (wf_node _ _ (tk_wf _ _ _ HT) _ _ Hp) as (r & Hr & Hc).
  apply rng_lookup in Hr as [o Ho]. eauto.
Qed.
Lemma tok_key' b M N p c : tok b M N → is_Some (M !! (p ++ [c])) → ∃ r o, N !! p = Some (r, o) ∧ in_range r c.
Proof.
  intros HT Hp. destruct (wf_key _ _ (tk_wf _ _ _ HT) _ _ Hp) as (r & Hr & Hc).
  apply rng_lookup in Hr as [o Ho]. eauto.
Qed.
Lemma rng_insert N k r o : rng (<[k := (r, o)]> N) = <[k := r]> (rng N).
Proof. unfold rng. by rewrite fmap_insert. Qed.
Lemma rng_delete N k : rng (delete k N) = delete k (rng N).
Proof. unfold rng. by rewrite fmap_delete. Qed.
Lemma vls_insert M k v o : vls (<[k := (v, o)]> M) = <[k := v]> (vls M).
Proof. unfold vls. by rewrite fmap_insert. Qed.
Lemma vls_delete M k : vls (delete k M) = delete k (vls M).
Proof. unfold vls. by rewrite fmap_delete. Qed.

(** A node is added or replaced by a wider one. *)
Lemma tok_set b M N p c rp op (r : Z * Z) o : tok b M N → N !! p = Some (rp, op) → in_range rp c →
  0 <= r.1 ∧ r.1 <= r.2 ∧ r.2 <= 255 → o mod 8 = 0 ∧ 0 < o <= 2 ^ 62 →
  (∀ d r0 o0, N !! (p ++ [c]) = Some (r0, o0) → in_range r0 d → in_range r d) →
  tok b M (<[p ++ [c] := (r, o)]> N).
Proof.
  intros HT Hp Hc Hr Ho Hw. set (k := p ++ [c]) in *.
  assert (∀ q d, (∃ r0, rng N !! q = Some r0 ∧ in_range r0 d) →
            ∃ r0, rng (<[k := (r, o)]> N) !! q = Some r0 ∧ in_range r0 d) as Hgo.
  { intros q d (r0 & Hq & Hd). rewrite rng_insert. destruct (decide (q = k)) as [->|].
    - rewrite lookup_insert. apply rng_lookup in Hq as [o0 Hq]. exists r. split; [done|]. by eapply Hw.
    - rewrite lookup_insert_ne; [|done]. eauto. }
  split; [split| | |].
  - rewrite rng_insert lookup_insert_ne; [|unfold k; by destruct p]. apply (wf_root _ _ (tk_wf _ _ _ HT)).
  - intros q r0. rewrite rng_insert. destruct (decide (q = k)) as [->|].
    + rewrite lookup_insert. by intros [= <-].
    + rewrite lookup_insert_ne; [|done]. apply (wf_range _ _ (tk_wf _ _ _ HT)).
  - intros q d Hq. apply Hgo. rewrite rng_Some in Hq. destruct (decide (q ++ [d] = k)) as [E|].
    + apply snoc_inj in E as [-> ->]. exists rp. split; [|done]. apply rng_lookup. eauto.
    + rewrite lookup_insert_ne in Hq; [|done]. apply (wf_node _ _ (tk_wf _ _ _ HT)). by apply rng_Some.
  - intros q d Hq. apply Hgo. by apply (wf_key _ _ (tk_wf _ _ _ HT)).
  - rewrite lookup_insert_ne; [|unfold k; by destruct p]. apply (tk_root _ _ _ HT).
  - intros q r0 o0. destruct (decide (q = k)) as [->|].
    + rewrite lookup_insert. intros [= <- <-]. done.
    + rewrite lookup_insert_ne; [|done]. apply (tk_off _ _ _ HT).
  - apply (tk_val _ _ _ HT).
Qed.
(** A node without children is removed. *)
Lemma tok_unset b M N k : tok b M N → k ≠ [] → (∀ d, M !! (k ++ [d]) = None ∧ N !! (k ++ [d]) = None) →
  tok b M (delete k N).
Proof.
  intros HT Hk Hno.
  assert (∀ q d, q ≠ k → (∃ r0, rng N !! q = Some r0 ∧ in_range r0 d) →
            ∃ r0, rng (delete k N) !! q = Some r0 ∧ in_range r0 d) as Hgo.
  { intros q d Hq (r0 & Hq' & Hd). rewrite rng_delete lookup_delete_ne; [|done]. eauto. }
  split; [split| | |].
  - rewrite rng_delete lookup_delete_ne; [|done]. apply (wf_root _ _ (tk_wf _ _ _ HT)).
  - intros q r0. rewrite rng_delete. rewrite lookup_delete_Some. intros [_ H].
    by apply (wf_range _ _ (tk_wf _ _ _ HT)) in H.
  - intros q d Hq. rewrite rng_Some in Hq. destruct Hq as [x Hq]. apply lookup_delete_Some in Hq as [Hne Hq].
    apply Hgo; [|apply (wf_node _ _ (tk_wf _ _ _ HT)); apply rng_Some; eauto].
    intros ->. destruct (Hno d) as [_ H]. congruence.
  - intros q d Hq. apply Hgo; [|by apply (wf_key _ _ (tk_wf _ _ _ HT))].
    intros ->. destruct (Hno d) as [H _]. rewrite H in Hq. by destruct Hq.
  - rewrite lookup_delete_ne; [|done]. apply (tk_root _ _ _ HT).
  - intros q r0 o0. rewrite lookup_delete_Some. intros [_ H]. by eapply (tk_off _ _ _ HT).
  - apply (tk_val _ _ _ HT).
Qed.
Lemma tok_put b M N k v o : tok b M N → has_place N k → sval_ok v → blk_off_ok v o → tok b (<[k := (v, o)]> M) N.
Proof.
  intros HT Hk Hv Ho. split; [split| | |].
  - apply (wf_root _ _ (tk_wf _ _ _ HT)).
  - apply (wf_range _ _ (tk_wf _ _ _ HT)).
  - apply (wf_node _ _ (tk_wf _ _ _ HT)).
  - intros p c Hp. destruct (decide (p ++ [c] = k)) as [<-|].
    + destruct Hk as [Hk|(p' & c' & r & o' & E & Hp' & Hc)].
      * apply (wf_node _ _ (tk_wf _ _ _ HT)). by apply rng_Some.
      * apply snoc_inj in E as [-> ->]. exists r. split; [|done]. apply rng_lookup. eauto.
    + rewrite lookup_insert_ne in Hp; [|done]. by apply (wf_key _ _ (tk_wf _ _ _ HT)).
  - apply (tk_root _ _ _ HT).
  - apply (tk_off _ _ _ HT).
  - intros k' v' o'. destruct (decide (k' = k)) as [->|].
    + rewrite lookup_insert. by intros [= <- <-].
    + rewrite lookup_insert_ne; [|done]. apply (tk_val _ _ _ HT).
Qed.
Lemma tok_del b M N k : tok b M N → tok b (delete k M) N.
Proof.
  intros HT. split; [split| | |].
  - apply (wf_root _ _ (tk_wf _ _ _ HT)).
  - apply (wf_range _ _ (tk_wf _ _ _ HT)).
  - apply (wf_node _ _ (tk_wf _ _ _ HT)).
  - intros p c [x Hp]. apply lookup_delete_Some in Hp as [_ Hp]. apply (wf_key _ _ (tk_wf _ _ _ HT)). eauto.
  - apply (tk_root _ _ _ HT).
  - apply (tk_off _ _ _ HT).
  - intros k' v' o'. rewrite lookup_delete_Some. intros [_ H]. by eapply (tk_val _ _ _ HT).
Qed.
Lemma tok_no_node b M N p k : tok b M N → N !! p = None → N !! (p ++ k) = None ∧ (k ≠ [] → M !! (p ++ k) = None).
Proof.
  intros HT Hp. induction k as [|c k IH] using rev_ind; [by rewrite app_nil_r|].
  destruct IH as [IH _]. rewrite assoc. split.
  - destruct (N !! ((p ++ k) ++ [c])) eqn:E; [|done].
    destruct (tok_node _ _ _ _ _ HT ltac:(eauto)) as (r & o & H & _). congruence.
  - intros _. destruct (M !! ((p ++ k) ++ [c])) eqn:E; [|done].
    destruct (tok_key' _ _ _ _ _ HT ltac:(eauto)) as (r & o & H & _). congruence.
Qed.

(** ** The spec functions *)
Lemma reach_step N p c k : is_Some (N !! (p ++ [c])) → t_reach N p (c :: k) = t_reach N (p ++ [c]) k.
Proof. intros H. simpl. by rewrite bool_decide_eq_true_2. Qed.
Lemma reach_stop N p c k : N !! (p ++ [c]) = None → t_reach N p (c :: k) = t_chain (alter (widen c) p N) p (c :: k).
Proof. intros H. simpl. rewrite bool_decide_eq_false_2; [done|]. rewrite H. by intros [? ?]. Qed.
Lemma sizes_step N p c k : is_Some (N !! (p ++ [c])) → reach_sizes N p (c :: k) = reach_sizes N (p ++ [c]) k.
Proof. intros H. simpl. by rewrite bool_decide_eq_true_2. Qed.
Lemma sizes_stop N p c k r : N !! (p ++ [c]) = None → N !! p = Some r →
  reach_sizes N p (c :: k) = (if (fst r <=? c) && (c <=? snd r) then [] else [node_bytes (widen c r)]) ++ chain_sizes (c :: k).
Proof. intros H Hp. simpl. rewrite bool_decide_eq_false_2; [|rewrite H; by intros [? ?]]. by rewrite Hp. Qed.
Lemma frees_step N p c k : is_Some (N !! (p ++ [c])) → reach_frees N p (c :: k) = reach_frees N (p ++ [c]) k.
Proof. intros H. simpl. by rewrite bool_decide_eq_true_2. Qed.
Lemma frees_stop N p c k r : N !! (p ++ [c]) = None → N !! p = Some r →
  reach_frees N p (c :: k) = if (fst r <=? c) && (c <=? snd r) then [] else [node_bytes r].
Proof. intros H Hp. simpl. rewrite bool_decide_eq_false_2; [|rewrite H; by intros [? ?]]. by rewrite Hp. Qed.
Lemma path_step N p c k : is_Some (N !! (p ++ [c])) → t_path N p (c :: k) = t_path N (p ++ [c]) k ++ [p ++ [c]].
Proof. intros H. simpl. by rewrite bool_decide_eq_true_2. Qed.
Lemma path_stop N p c k : N !! (p ++ [c]) = None → t_path N p (c :: k) = [].
Proof. intros H. simpl. rewrite bool_decide_eq_false_2; [done|]. rewrite H. by intros [? ?]. Qed.
Lemma widen_in r c : in_range r c → widen c r = r.
Proof. unfold in_range, widen. destruct r as [s e]. simpl. intros H. f_equal; lia. Qed.
Lemma alter_widen_in (N : gmap bytes (Z * Z)) p r c : N !! p = Some r → in_range r c → alter (widen c) p N = N.
Proof.
  intros Hp Hc. apply map_eq. intros q. destruct (decide (q = p)) as [->|].
  - rewrite lookup_alter Hp /=. by rewrite widen_in.
  - by rewrite lookup_alter_ne.
Qed.
Lemma in_range_b (r : Z * Z) c : (fst r <=? c) && (c <=? snd r) = true ↔ in_range r c.
Proof. unfold in_range. rewrite andb_true_iff !Z.leb_le. done. Qed.

Definition offs (N : ndmap) (l : list bytes) : list Z := map (λ p, match N !! p with Some x => x.2 | None => 0 end) l.

(** What the walk finds. *)
Definition walk_post (M : vlmap) (N : ndmap) (p k : bytes) (parent : Z) (nodes : list Z) (w : walked) : Prop :=
  match w with
  | Found slot ns =>
      slot = place N (p ++ k) ∧ has_place N (p ++ k) ∧ (is_Some (M !! (p ++ k)) ∨ is_Some (N !! (p ++ k))) ∧
      ns = nodes ++ offs N (rev (t_path (rng N) p k)) ∧
      t_reach (rng N) p k = rng N ∧ reach_sizes (rng N) p k = [] ∧ reach_frees (rng N) p k = []
  | Stopped par nd rest =>
      ∃ q c k' r, rest = c :: k' ∧ p ++ k = q ++ c :: k' ∧ N !! q = Some (r, nd) ∧ N !! (q ++ [c]) = None ∧
        (k' ≠ [] ∨ ¬ in_range r c ∨ M !! (q ++ [c]) = None) ∧
        ((q = p ∧ par = parent) ∨ ∃ q' d r', q = q' ++ [d] ∧ N !! q' = Some (r', par) ∧ in_range r' d) ∧
        t_reach (rng N) p k = t_reach (rng N) q rest ∧ reach_sizes (rng N) p k = reach_sizes (rng N) q rest ∧
        reach_frees (rng N) p k = reach_frees (rng N) q rest ∧
        M !! (p ++ k) = None ∧ N !! (p ++ k) = None
  end.

Lemma wp_t_walk {RR : Rep} {A} b M N k : ∀ p r o parent nodes (K : walked → prog A) Φ Ψ,
  tok b M N → N !! p = Some (r, o) →
  tnodes M N -∗
  (∀ w, ⌜walk_post M N p k parent nodes w⌝ -∗ tnodes M N -∗ wp (K w) Φ Ψ) -∗
  wp (w <- t_walk parent o nodes k ;; K w) Φ Ψ.
Proof.
  induction k as [|c k IH]; intros p r o parent nodes K Φ Ψ HT Hp; iIntros "T W".
  - cbn [t_walk]. wpn. iApply ("W" $! (Found _ _) with "[] T"). iPureIntro. simpl. rewrite !app_nil_r.
    rewrite (place_node _ _ _ _ Hp). split_and!; [done|left; by rewrite Hp|right; by rewrite Hp|done|done|done|done].
  - cbn [t_walk]. wpn.
    iDestruct (node_acc _ _ _ _ Hp with "T") as "[(P1 & P2 & P3 & R & Wv & Ws) T]".
    iApply (wp_load8 with "P1"). iIntros "P1". wpn.
    iApply (wp_load8 with "P2"). iIntros "P2". wpn.
    assert (∀ q, N !! (p ++ [c]) = None → M !! (p ++ c :: q) = None ∨ q = []) as Hq1.
    { intros q Hn. destruct q; [by right|left]. destruct (tok_no_node _ _ _ _ (z :: q) HT Hn) as [_ H].
      rewrite -assoc in H. by apply H. }
    assert (N !! (p ++ [c]) = None → N !! (p ++ c :: k) = None) as Hq2.
    { intros Hn. destruct (tok_no_node _ _ _ _ k HT Hn) as [H _]. by rewrite -assoc in H. }
    assert (¬ in_range r c → M !! (p ++ [c]) = None ∧ N !! (p ++ [c]) = None) as Hout.
    { intros Hnr. split; [destruct (M !! (p ++ [c])) eqn:E|destruct (N !! (p ++ [c])) eqn:E]; try done; exfalso.
      - destruct (tok_key' _ _ _ _ _ HT ltac:(eauto)) as (r' & o' & H & Hc). by simplify_eq.
      - destruct (tok_node _ _ _ _ _ HT ltac:(eauto)) as (r' & o' & H & Hc). by simplify_eq. }
    destruct (bool_decide_reflect (c < r.1 ∨ c > r.2)) as [Hc|Hc].
    + wpn. iApply ("W" $! (Stopped _ _ _) with "[]"); [|iApply "T"; iFrame].
      iPureIntro. assert (¬ in_range r c) as Hnr by (unfold in_range; lia). destruct (Hout Hnr) as [Hm Hn].
      simpl. exists p, c, k, r. split_and!; try done; [by right; left|by left| |by apply Hq2].
      destruct (Hq1 k Hn) as [?| ->]; done.
    + assert (in_range r c) as Hcr by (unfold in_range; lia). wpn.
      iDestruct (slot_word_acc _ _ _ _ _ _ Hcr with "Ws") as "[Wc Ws]".
      iApply (wp_load64 with "Wc"). iIntros "Wc". wpn. iSpecialize ("Ws" with "Wc").
      assert (map (λ d, if decide (d = c) then sword M N (p ++ [c]) else sword M N (p ++ [d])) (chars r) =
              map (λ c, sword M N (p ++ [c])) (chars r)) as Em.
      { apply map_ext. intros d. by destruct (decide (d = c)) as [->|]. }
      rewrite Em. iSpecialize ("T" with "[P1 P2 P3 R Wv Ws]"); [iFrame|].
      destruct (N !! (p ++ [c])) as [[r' o']|] eqn:En.
      * assert (sword M N (p ++ [c]) = o') as -> by (unfold sword; by rewrite En).
        destruct (tk_off _ _ _ HT _ _ _ En) as [Ho1 Ho2].
        rewrite (bool_decide_eq_false_2 (o' = 0)); [|lia].
        rewrite (bool_decide_eq_false_2 (t_type o' ≠ 0)); [|rewrite t_type_mod; lia].
        iApply (IH with "T"); [done|exact En|]. iIntros (w Hw) "T". iApply ("W" with "[] T"). iPureIntro.
        assert (is_Some (rng N !! (p ++ [c]))) as HS by (apply rng_Some; eauto).
        destruct w as [slot ns|par nd0 rest]; unfold walk_post in *.
        -- rewrite -assoc in Hw. rewrite reach_step // sizes_step // frees_step // path_step //. rewrite rev_app_distr. cbn [rev app].
           destruct Hw as (H1 & H2 & H3 & H4 & H5 & H6 & H6'). split_and!; try done.
           rewrite H4 -assoc. f_equal. unfold offs. cbn [map app]. by rewrite En.
        -- destruct Hw as (q & c' & k' & r1 & H1 & H2 & H3 & H4 & H5 & H6 & H7 & H8 & H8' & H9 & H10). exists q, c', k', r1.
           rewrite -!assoc in H2, H9, H10. rewrite reach_step // sizes_step // frees_step //.
           split_and!; try done. right. destruct H6 as [[-> ->]|H6]; [|done]. exists p, c, r. done.
      * assert (sword M N (p ++ [c]) = vword M (p ++ [c])) as -> by (unfold sword; by rewrite En).
        destruct (bool_decide_reflect (vword M (p ++ [c]) = 0)) as [Hv|Hv].
        { apply (vword_pos _ _ _ _ HT) in Hv. wpn. iApply ("W" $! (Stopped _ _ _) with "[] T"). iPureIntro.
          simpl. exists p, c, k, r. split_and!; try done; [by right; right|by left| |by apply Hq2].
          destruct (Hq1 k eq_refl) as [?| ->]; done. }
        assert (M !! (p ++ [c]) ≠ None) as Hm by (intros Hm; apply Hv; by apply (vword_pos _ _ _ _ HT)).
        rewrite (bool_decide_eq_true_2 (t_type (vword M (p ++ [c])) ≠ 0)); [|by eapply vword_type].
        destruct (bool_decide_reflect (k = [])) as [->|Hk].
        -- wpn. iApply ("W" $! (Found _ _) with "[] T"). iPureIntro. unfold walk_post. rewrite (place_child _ _ _ _ _ En Hp).
           assert (rng N !! (p ++ [c]) = None) as Hrn by by apply rng_None.
           assert (rng N !! p = Some r) as Hrp by (apply rng_lookup; eauto).
           rewrite reach_stop // path_stop // (sizes_stop _ _ _ _ r) // (frees_stop _ _ _ _ r) //. cbn [t_chain chain_sizes rev]; unfold offs; cbn [List.map].
           rewrite (proj2 (in_range_b r c) Hcr). rewrite app_nil_r (alter_widen_in _ _ r); [|done|done].
           split_and!; [done| |left; by apply not_eq_None_Some|done|done|done|done].
           right. exists p, c, r, o. done.
        -- wpn. iApply ("W" $! (Stopped _ _ _) with "[] T"). iPureIntro. unfold walk_post.
           exists p, c, k, r. split_and!; try done; [by left|by left| |by apply Hq2].
           destruct (Hq1 k eq_refl) as [?|?]; done.
Qed.
