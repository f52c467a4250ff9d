(** * PrefixTree: next_key and iteration. *)
From Verif Require Export PrefixOrder PrefixRead.
From iris.proofmode Require Import tactics.
From iris.prelude Require Import options.
Open Scope Z_scope.
Open Scope prog_scope.

Local Arguments Z.pow : simpl never.
Local Arguments Z.mul : simpl never.
Local Arguments Z.add : simpl never.
Local Arguments u64 : simpl never.
Local Arguments bool_decide : simpl never.
Local Opaque t_lookup.

(** ** The nodes above a node, lowest first *)
Fixpoint ups_r (rq : bytes) : list bytes :=
  rev rq :: match rq with [] => [] | _ :: rq' => ups_r rq' end.
Definition ups (q : bytes) : list bytes := ups_r (rev q).
Lemma ups_nil : ups [] = [[]].
Proof. done. Qed.
Lemma ups_snoc p c : ups (p ++ [c]) = (p ++ [c]) :: ups p.
Proof. unfold ups. rewrite rev_app_distr. cbn [rev app ups_r]. by rewrite rev_involutive. Qed.
Lemma ups_head q : ∃ l, ups q = q :: l.
Proof. destruct q as [|c q _] using rev_ind; [by exists []|]. rewrite ups_snoc. eauto. Qed.
Fixpoint downs (p k : bytes) : list bytes :=
  match k with [] => [] | c :: k' => (p ++ [c]) :: downs (p ++ [c]) k' end.
Lemma ups_downs k : ∀ p, rev (ups (p ++ k)) = rev (ups p) ++ downs p k.
Proof.
  induction k as [|c k IH]; intros p; cbn [downs]; [by rewrite !app_nil_r|].
  rewrite cons_middle assoc IH ups_snoc. cbn [rev]. by rewrite -assoc.
Qed.
Lemma offs_cons N p l r o : N !! p = Some (r, o) → offs N (p :: l) = o :: offs N l.
Proof. intros H. unfold offs. cbn [List.map]. by rewrite H. Qed.
Lemma offs_rev N l : rev (offs N l) = offs N (rev l).
Proof. unfold offs. symmetry. apply map_rev. Qed.

Lemma wp_t_key_of {RR : Rep} {A} b M N k : ∀ p (K : list Z → prog A) Φ Ψ, tok b M N → is_Some (N !! (p ++ k)) →
  tnodes M N -∗ (tnodes M N -∗ wp (K k) Φ Ψ) -∗ wp (y <- t_key_of (offs N (downs p k)) ;; K y) Φ Ψ.
Proof.
  induction k as [|c k IH]; intros p K Φ Ψ HT Hk; iIntros "T W".
  - cbn [downs]. unfold offs. cbn [List.map t_key_of]. wpn. by iApply "W".
  - cbn [downs]. assert (is_Some (N !! (p ++ [c]))) as [[r o] Hp].
    { apply (node_prefix b M N _ k HT). by rewrite -assoc. }
    rewrite (offs_cons _ _ _ _ _ Hp). cbn [t_key_of]. wpn.
    iDestruct (node_acc _ _ _ _ Hp with "T") as "[(P1 & P2 & P3 & P4 & Wv & Ws) T]".
    iApply (wp_load8 with "P3"). iIntros "P3". wpn. iSpecialize ("T" with "[P1 P2 P3 P4 Wv Ws]"); [iFrame|].
    assert (lastc (p ++ [c]) = c) as -> by (unfold lastc; by rewrite last_snoc).
    iApply (IH with "T"); [done|by rewrite -assoc|]. iIntros "T". wpn. by iApply "W".
Qed.

(** ** The search *)
Definition pos (q : bytes) (sid : Z) : bytes := if bool_decide (sid < 0) then q else q ++ [sid].
Definition up2 (q : bytes) : bytes := map (λ c, 2 * c + 1) q.
Definition spos (q : bytes) (sid : Z) : bytes := if bool_decide (sid < 0) then up2 q else up2 q ++ [2 * sid].
Definition places (N : ndmap) : list bytes :=
  gather (λ p r, up2 p :: map (λ d, up2 p ++ [2 * d]) (seqZ r.1 (r.2 - r.1 + 2))) N.
Definition left_over (N : ndmap) (e : bytes) : nat := length (List.filter (λ u, lex_lt e u) (places N)).
Lemma filter_less {A} (f g : A → bool) l x : (∀ y, g y = true → f y = true) → x ∈ l → f x = true → g x = false →
  (length (List.filter g l) < length (List.filter f l))%nat.
Proof.
  intros Hfg Hx Hf Hg.
  assert (∀ l, (length (List.filter g l) <= length (List.filter f l))%nat) as Hle.
  { clear -Hfg. induction l as [|y l IH]; simpl; [done|]. destruct (g y) eqn:E; [rewrite (Hfg _ E); simpl; lia|].
    destruct (f y); simpl; lia. }
  induction l as [|y l IH]; [by apply elem_of_nil in Hx|]. apply elem_of_cons in Hx as [<-|Hx]; simpl.
  - rewrite Hf Hg. specialize (Hle l). simpl. lia.
  - specialize (IH Hx). destruct (g y) eqn:E; [rewrite (Hfg _ E); simpl; lia|]. destruct (f y); simpl; lia.
Qed.
Lemma left_over_less N e e' : lex_lt e e' = true → e' ∈ places N → (left_over N e' < left_over N e)%nat.
Proof.
  intros He Hin. unfold left_over. apply (filter_less _ _ _ e'); [|done|done|apply lex_lt_irrefl].
  intros y Hy. by eapply lex_trans.
Qed.
Lemma left_over_bound b M N e : tok b M N → sum_sz (tblocks b M N) <= 2 ^ 62 → Z.of_nat (left_over N e) < 2 ^ 62.
Proof.
  intros HT Hs. assert (left_over N e <= length (places N))%nat as Hl.
  { unfold left_over. induction (places N) as [|y l IH]; simpl; [done|]. destruct (lex_lt e y); simpl; lia. }
  cut (8 * Z.of_nat (length (places N)) <= 2 ^ 62); [lia|]. eapply gather_length; [done| |done].
  intros p r Hr. cbn [length]. rewrite map_length seqZ_length. unfold node_bytes. lia.
Qed.
Lemma places_node N p : is_Some (N !! p) → up2 p ∈ places N.
Proof. intros [[r o] Hp]. apply elem_of_gather. exists p, r, o. split; [done|]. by left. Qed.
Lemma places_slot N p r o d : N !! p = Some (r, o) → r.1 <= d <= r.2 + 1 → up2 p ++ [2 * d] ∈ places N.
Proof.
  intros Hp Hd. apply elem_of_gather. exists p, r, o. split; [done|]. right. apply elem_of_list_In, in_map_iff. exists d.
  split; [done|]. apply elem_of_list_In, elem_of_seqZ. lia.
Qed.
Lemma up2_snoc p c : up2 (p ++ [c]) = up2 p ++ [2 * c + 1].
Proof. unfold up2. by rewrite map_app. Qed.

Definition scan_post (M : vlmap) (N : ndmap) (P : bytes) (y : Z * Z * list Z) : Prop :=
  (y.1.1 = 0 ∧ ∀ k, is_Some (M !! k) → from P k = false) ∨
  ∃ q k v o, M !! k = Some (v, o) ∧ y.1.1 = venc v o ∧ y.2 = offs N (ups q) ∧ is_Some (N !! q) ∧
    k = q ++ (if bool_decide (y.1.2 >= 0) then [y.1.2] else []) ∧ from P k = true ∧
    ∀ k', is_Some (M !! k') → from P k' = true → lex_lt k' k = false.
Lemma scan_post_from M N P P' y : (∀ k, is_Some (M !! k) → from P k = from P' k) → scan_post M N P' y → scan_post M N P y.
Proof.
  intros HP [[H1 H2]|(q & k & v & o & Hk & H1 & H2 & H3 & H4 & H5 & H6)].
  - left. split; [done|]. intros k Hk. rewrite HP; auto.
  - right. exists q, k, v, o. split_and!; try done; [rewrite HP; eauto|]. intros k' Hk'. rewrite HP; auto.
Qed.

Lemma wp_t_scan {RR : Rep} {A} b M N G : ∀ q sid (K : Z * Z * list Z → prog A) Φ Ψ,
  tok b M N → is_Some (N !! q) → (left_over N (spos q sid) < G)%nat →
  tnodes M N -∗ (∀ y, ⌜scan_post M N (pos q sid) y⌝ -∗ tnodes M N -∗ wp (K y) Φ Ψ) -∗
  wp (y <- t_scan G sid (offs N (ups q)) ;; K y) Φ Ψ.
Proof.
  induction G as [|G IH]; intros q sid K Φ Ψ HT [[r o] Hq] HG; [lia|]. iIntros "T W".
  destruct (ups_head q) as [rest Hups].
  assert (offs N (ups q) = o :: offs N rest) as Eo by (rewrite Hups; by apply offs_cons with r). rewrite Eo.
  pose proof (tok_rng _ _ _ _ _ _ HT Hq) as Hr.
  cbn [t_scan]. wpn. iDestruct (node_acc _ _ _ _ Hq with "T") as "[(P1 & P2 & P3 & P4 & Wv & Ws) T]".
  iApply (wp_load8 with "P1"). iIntros "P1". wpn. iApply (wp_load8 with "P2"). iIntros "P2". wpn.
  (* the value of the node *)
  iAssert (∀ v, ⌜if bool_decide (sid < 0) then v = vword M q else v = 0⌝ -∗ tnodes M N -∗
    wp (y <- (if bool_decide (v <> 0) then Ret (v, sid, o :: offs N rest)
      else
        let slot_id := if bool_decide (sid < r.1) then r.1 else sid in
        if bool_decide (slot_id > r.2) then
          match offs N rest with
          | [] => Ret (0, slot_id, [])
          | _ => ps <- load8 (o + 2) ;; t_scan G (ps + 1) (offs N rest)
          end
        else
          c <- load64 (o + 16 + 8 * (slot_id - r.1)) ;;
          if bool_decide (c = 0) then t_scan G (slot_id + 1) (o :: offs N rest)
          else if bool_decide (t_type c <> 0) then Ret (c, slot_id, o :: offs N rest)
          else t_scan G (- 1) (t_value c :: o :: offs N rest)) ;; K y) Φ Ψ)%I with "[W]" as "X".
  2:{ destruct (bool_decide_reflect (sid < 0)) as [Hs|Hs]; wpn.
      - iApply (wp_load64 with "Wv"). iIntros "Wv". wpn. iApply ("X" with "[//]"). iApply "T". iFrame.
      - iApply ("X" with "[//]"). iApply "T". iFrame. }
  iIntros (v Hv) "T". destruct (bool_decide_reflect (v <> 0)) as [Hv0|Hv0].
  { destruct (bool_decide_reflect (sid < 0)) as [Hs|Hs]; [|done]. subst v. wpn. iApply ("W" with "[] T"). iPureIntro.
    right. destruct (M !! q) as [[w ow]|] eqn:Em; [|exfalso; apply Hv0; by apply (vword_pos _ _ _ _ HT)].
    exists q, q, w, ow. cbn [fst snd]. rewrite (bool_decide_eq_false_2 (sid >= 0)); [|lia].
    unfold pos. rewrite (bool_decide_eq_true_2 (sid < 0)); [|done]. unfold vword. rewrite Em. rewrite app_nil_r -Eo Hq.
    split_and!; try done; [apply from_self|]. intros k' _ Hk'. unfold from in Hk'. by destruct (lex_lt k' q). }
  assert (∀ d rest, ¬ in_range r d → ¬ is_Some (M !! (q ++ d :: rest))) as Hout.
  { intros d rs Hd [z Hz]. destruct (tok_below _ _ _ _ _ _ _ rs HT Hq Hd) as [E _]. congruence. }
  set (sd := if bool_decide (sid < r.1) then r.1 else sid). cbv zeta.
  assert (∀ k, is_Some (M !! k) → from (pos q sid) k = from (q ++ [sd]) k) as Hsd.
  { intros k Hk. unfold pos, sd. destruct (bool_decide_reflect (sid < 0)) as [Hs|Hs].
    - rewrite bool_decide_eq_true_2; [|lia]. apply from_enter.
      + intros ->. assert (vword M q = 0) as Hz by lia. apply (vword_pos _ _ _ _ HT) in Hz. rewrite Hz in Hk. by destruct Hk.
      + intros d rs -> Hd. apply (Hout d rs); [unfold in_range; lia|done].
    - destruct (bool_decide_reflect (sid < r.1)) as [Hs1|Hs1]; [|done]. apply from_slots; [lia|].
      intros d rs -> Hd. apply (Hout d rs); [unfold in_range; lia|done]. }
  assert (lex_lt (spos q sid) (up2 q ++ [2 * sd + 1]) = true ∧ lex_lt (spos q sid) (up2 q ++ [2 * (sd + 1)]) = true) as [Hl1 Hl2].
  { unfold spos, sd. destruct (bool_decide_reflect (sid < 0)) as [Hs|Hs].
    - rewrite -{1 3}(app_nil_r (up2 q)) !lex_app. done.
    - rewrite !lex_app. simpl. rewrite !(proj2 (Z.ltb_lt _ _)) //; destruct (bool_decide_reflect (sid < r.1)); lia. }
  assert (0 <= sd ∧ r.1 <= sd) as [Hsd0 Hsd1] by (unfold sd; destruct (bool_decide_reflect (sid < r.1)); lia).
  clearbody sd.
  destruct (bool_decide_reflect (sd > r.2)) as [Hse|Hse].
  - destruct q as [|c p _] using rev_ind.
    + rewrite ups_nil in Hups. injection Hups as <-. unfold offs at 1. cbn [List.map]. wpn. iApply ("W" with "[] T"). iPureIntro.
      apply (scan_post_from _ _ _ _ _ Hsd). left. split; [done|]. intros k Hk. cbn [app]. unfold from. destruct k as [|d rs]; [done|].
      simpl. rewrite lex_nil andb_false_r orb_false_r. destruct (decide (in_range r d)) as [Hd|Hd].
      * unfold in_range in Hd. by rewrite (proj2 (Z.ltb_lt d sd)); [|lia].
      * exfalso. by apply (Hout d rs).
    + rewrite ups_snoc in Hups. injection Hups as <-. destruct (tok_node _ _ _ _ _ HT ltac:(eauto)) as (rp & op & Hp & Hc).
      destruct (ups_head p) as [rest' Hup]. assert (offs N (ups p) = op :: offs N rest') as Eop by (rewrite Hup; by apply offs_cons with rp).
      rewrite Eop. wpn. iDestruct (node_acc _ _ _ _ Hq with "T") as "[(P1 & P2 & P3 & P4 & Wv & Ws) T]".
      iApply (wp_load8 with "P3"). iIntros "P3". wpn. iSpecialize ("T" with "[P1 P2 P3 P4 Wv Ws]"); [iFrame|].
      assert (lastc (p ++ [c]) = c) as -> by (unfold lastc; by rewrite last_snoc). rewrite -Eop.
      pose proof (tok_rng _ _ _ _ _ _ HT Hp) as Hrp. unfold in_range in Hc.
      iApply (IH with "T"); [done|by rewrite Hp| |].
      { unfold spos. rewrite (bool_decide_eq_false_2 (c + 1 < 0)); [|lia].
        eapply Nat.lt_le_trans; [|apply (proj1 (Nat.lt_succ_r _ _) HG)].
        apply left_over_less; [|eapply places_slot; [done|lia]].
        unfold spos. rewrite up2_snoc. destruct (bool_decide (sid < 0)).
        - rewrite lex_app. simpl. rewrite (proj2 (Z.ltb_lt _ _)); [done|lia].
        - rewrite -assoc lex_app. simpl. rewrite (proj2 (Z.ltb_lt _ _)); [done|lia]. }
      iIntros (y Hy) "T". iApply ("W" with "[] T"). iPureIntro. eapply scan_post_from; [|exact Hy].
      intros k Hk. rewrite Hsd //. unfold pos. rewrite (bool_decide_eq_false_2 (c + 1 < 0)); [|lia]. apply from_leave.
      intros d rs -> Hd. apply (Hout d rs); [unfold in_range; lia|]. by rewrite -assoc.
  - assert (in_range r sd) as Hin by (unfold in_range; lia). wpn.
    iDestruct (slot_read _ _ _ _ _ _ Hq Hin with "T") as "[Wd T]". iApply (wp_load64 with "Wd"). iIntros "Wd". wpn. iSpecialize ("T" with "Wd").
    destruct (N !! (q ++ [sd])) as [[r' o']|] eqn:En.
    + assert (sword M N (q ++ [sd]) = o') as -> by (unfold sword; by rewrite En).
      destruct (tk_off _ _ _ HT _ _ _ En) as [Ho1 Ho2].
      rewrite (bool_decide_eq_false_2 (o' = 0)); [|lia].
      rewrite (bool_decide_eq_false_2 (t_type o' ≠ 0)); [|rewrite t_type_mod; lia].
      rewrite t_value_sub Ho1 Z.sub_0_r. rewrite -Eo. assert (o' :: offs N (ups q) = offs N (ups (q ++ [sd]))) as ->.
      { rewrite ups_snoc. symmetry. by apply offs_cons with r'. }
      iApply (IH with "T"); [done|by rewrite En| |].
      { unfold spos at 1. rewrite (bool_decide_eq_true_2 (-1 < 0)); [|lia].
        eapply Nat.lt_le_trans; [|apply (proj1 (Nat.lt_succ_r _ _) HG)].
        apply left_over_less; [by rewrite up2_snoc|by apply places_node]. }
      iIntros (y Hy) "T". iApply ("W" with "[] T"). iPureIntro. eapply scan_post_from; [|exact Hy]. exact Hsd.
    + assert (sword M N (q ++ [sd]) = vword M (q ++ [sd])) as -> by (unfold sword; by rewrite En).
      destruct (bool_decide_reflect (vword M (q ++ [sd]) = 0)) as [Hz|Hz].
      * apply (vword_pos _ _ _ _ HT) in Hz. rewrite -Eo. iApply (IH with "T"); [done|by rewrite Hq| |].
        { unfold spos at 1. rewrite (bool_decide_eq_false_2 (sd + 1 < 0)); [|lia].
          eapply Nat.lt_le_trans; [|apply (proj1 (Nat.lt_succ_r _ _) HG)].
          apply left_over_less; [done|]. eapply places_slot; [done|]. unfold in_range in Hin. lia. }
        iIntros (y Hy) "T". iApply ("W" with "[] T"). iPureIntro. eapply scan_post_from; [|exact Hy].
        intros k Hk. rewrite Hsd //. unfold pos. rewrite (bool_decide_eq_false_2 (sd + 1 < 0)); [|lia]. apply from_slots; [lia|].
        intros d rs -> Hd. assert (d = sd) as -> by lia. rewrite cons_middle assoc in Hk.
        destruct (tok_no_node _ _ _ _ rs HT En) as [_ Hno]. destruct rs as [|z rs].
        -- rewrite app_nil_r Hz in Hk. by destruct Hk.
        -- rewrite Hno // in Hk. by destruct Hk.
      * assert (M !! (q ++ [sd]) ≠ None) as Hm by (intros Hm; apply Hz; by apply (vword_pos _ _ _ _ HT)).
        rewrite (bool_decide_eq_true_2 (t_type (vword M (q ++ [sd])) ≠ 0)); [|by eapply vword_type]. wpn.
        iApply ("W" with "[] T"). iPureIntro. apply (scan_post_from _ _ _ _ _ Hsd). right.
        destruct (M !! (q ++ [sd])) as [[w ow]|] eqn:Em; [|done]. exists q, (q ++ [sd]), w, ow. cbn [fst snd].
        rewrite (bool_decide_eq_true_2 (sd >= 0)); [|lia]. unfold vword. rewrite Em -Eo Hq.
        split_and!; try done; [apply from_self|]. intros k' _ Hk'. unfold from in Hk'. by destruct (lex_lt k' (q ++ [sd])).
Qed.

(** ** The start of the search *)
Lemma wp_t_descend {RR : Rep} `{NodeErr} {A} b M N x k : ∀ p r o (K : Z * list Z → prog A) Φ Ψ,
  tok b M N → N !! p = Some (r, o) → t_hole (PT (vls M) (rng N) x node_err) p k = false →
  tnodes M N -∗
  (∀ q sid, ⌜is_Some (N !! q) ∧ 0 <= sid ∧ ∀ k0, is_Some (M !! k0) → lex_lt (p ++ k) k0 = from (q ++ [sid]) k0⌝ -∗
     tnodes M N -∗ wp (K (sid, offs N (ups q))) Φ Ψ) -∗
  wp (y <- t_descend o (offs N (ups p)) k ;; K y) Φ Ψ.
Proof.
  induction k as [|c k IH]; intros p r o K Φ Ψ HT Hp Hh; iIntros "T W"; pose proof (tok_rng _ _ _ _ _ _ HT Hp) as Hr;
    assert (∀ d rest, ¬ in_range r d → ¬ is_Some (M !! (p ++ d :: rest))) as Hout.
  1,3: intros d rs Hd [z Hz]; destruct (tok_below _ _ _ _ _ _ _ rs HT Hp Hd) as [E _]; congruence.
  - cbn [t_descend]. wpn. iApply ("W" with "[] T"). iPureIntro. split; [by rewrite Hp|]. split; [lia|].
    intros k0 Hk0. apply lex_pos. intros d rs ->. simpl. destruct (decide (in_range r d)) as [Hd|Hd]; [|exfalso; by apply (Hout d rs)].
    unfold in_range in Hd. rewrite (proj2 (Z.ltb_ge d 0)); [done|lia].
  - cbn [t_descend]. wpn. iDestruct (node_acc _ _ _ _ Hp with "T") as "[(P1 & P2 & P3 & P4 & Wv & Ws) T]".
    iApply (wp_load8 with "P1"). iIntros "P1". wpn. iApply (wp_load8 with "P2"). iIntros "P2". wpn.
    iSpecialize ("T" with "[P1 P2 P3 P4 Wv Ws]"); [iFrame|].
    destruct (bool_decide_reflect (c < r.1)) as [Hc|Hc].
    { wpn. iApply ("W" with "[] T"). iPureIntro. split; [by rewrite Hp|]. split; [lia|].
      intros k0 Hk0. apply lex_pos. intros d rs ->. destruct (decide (in_range r d)) as [Hd|Hd]; [|exfalso; by apply (Hout d rs)].
      unfold in_range in Hd. simpl. rewrite (proj2 (Z.ltb_lt c d)); [|lia]. rewrite (proj2 (Z.ltb_ge d r.1)); [done|lia]. }
    destruct (bool_decide_reflect (c > r.2)) as [Hc2|Hc2].
    { wpn. iApply ("W" with "[] T"). iPureIntro. split; [by rewrite Hp|]. split; [lia|].
      intros k0 Hk0. apply lex_pos. intros d rs ->. destruct (decide (in_range r d)) as [Hd|Hd]; [|exfalso; by apply (Hout d rs)].
      unfold in_range in Hd. simpl. rewrite (proj2 (Z.ltb_ge c d)); [|lia]. rewrite (proj2 (Z.eqb_neq c d)); [|lia].
      rewrite (proj2 (Z.ltb_lt d 256)); [done|lia]. }
    assert (in_range r c) as Hcr by (unfold in_range; lia). wpn.
    iDestruct (slot_read _ _ _ _ _ _ Hp Hcr with "T") as "[Wd T]". iApply (wp_load64 with "Wd"). iIntros "Wd". wpn. iSpecialize ("T" with "Wd").
    cbn [t_hole t_nodes t_map] in Hh. assert (rng N !! p = Some r) as Hrp by (apply rng_lookup; eauto). rewrite Hrp in Hh.
    destruct r as [r1 r2]. cbn [fst snd] in *. rewrite (proj2 (Z.leb_le r1 c)) in Hh; [|lia]. rewrite (proj2 (Z.leb_le c r2)) in Hh; [|lia].
    cbn [andb] in Hh. destruct (N !! (p ++ [c])) as [[r' o']|] eqn:En.
    + assert (sword M N (p ++ [c]) = o') as -> by (unfold sword; by rewrite En).
      destruct (tk_off _ _ _ HT _ _ _ En) as [Ho1 Ho2]. rewrite (bool_decide_eq_false_2 (t_type o' ≠ 0)); [|rewrite t_type_mod; lia].
      rewrite (bool_decide_eq_true_2 (is_Some (rng N !! (p ++ [c])))) in Hh; [|by apply rng_Some; rewrite En].
      assert (o' :: offs N (ups p) = offs N (ups (p ++ [c]))) as ->. { rewrite ups_snoc. symmetry. by apply offs_cons with r'. }
      iApply (IH with "T"); [done|exact En|done|]. rewrite -assoc. iExact "W".
    + assert (sword M N (p ++ [c]) = vword M (p ++ [c])) as -> by (unfold sword; by rewrite En).
      rewrite (bool_decide_eq_false_2 (is_Some (rng N !! (p ++ [c])))) in Hh; [|rewrite rng_Some En; by intros [? ?]].
      apply negb_false_iff, bool_decide_eq_true_1, vls_Some in Hh.
      rewrite (bool_decide_eq_true_2 (t_type (vword M (p ++ [c])) ≠ 0)); [|eapply vword_type; [done|by apply not_eq_None_Some]].
      wpn. iApply ("W" with "[] T"). iPureIntro. split; [by rewrite Hp|]. split; [lia|].
      intros k0 Hk0. apply lex_pos. intros d rs ->. simpl. destruct (Z.eqb_spec c d) as [<-|Hcd].
      * rewrite Z.ltb_irrefl. cbn [orb andb]. rewrite (proj2 (Z.ltb_lt c (c + 1))); [|lia]. destruct rs as [|z rs]; [by rewrite lex_nil|].
        destruct (tok_no_node _ _ _ _ (z :: rs) HT En) as [_ Hno]. rewrite -assoc in Hno. cbn [app] in Hno. rewrite Hno // in Hk0. by destruct Hk0.
      * rewrite orb_false_r. apply bool_iff. rewrite negb_true_iff Z.ltb_lt Z.ltb_ge. lia.
Qed.

Section next.
  Context `{ne : NodeErr}.
  Context {RR : Rep} {PR : PoolRep} {al : allocator} (S : alloc_spec al) (cf : cfg) (F : nat).
  Context (HF : 2 ^ 62 <= Z.of_nat F).
  Notation tst := (tst S cf).

  Lemma wp_t_from b M N x R s cur (q : bytes) (sid : Z) Φ Ψ :
    is_Some (N !! q) → 0 <= sid → (∀ k0, is_Some (M !! k0) → is_after cur k0 = from (q ++ [sid]) k0) →
    tst b M N x R s -∗
    (tst b M N x R s -∗ match t_next (vls M) cur with Some y => Φ y | None => Ψ OutOfRange end) -∗
    wp ('(c, slot_id, nodes) <- t_scan F sid (offs N (ups q)) ;;
        if bool_decide (c = 0) then Throw OutOfRange
        else
          k <- t_key_of (tail (rev nodes)) ;;
          x <- t_lookup al c ;;
          Ret (k ++ (if bool_decide (slot_id >= 0) then [slot_id] else []), x)) Φ Ψ.
  Proof using HF.
    iIntros (Hq Hsid Hk) "T W". iDestruct (tst_facts with "T") as %Hb. iDestruct "T" as "[H (%HT & Wi & Wn & T & V)]".
    iApply (wp_t_scan b M N F with "T"); [done|done| |].
    { pose proof (left_over_bound b M N (spos q sid) HT Hb). lia. }
    iIntros ([[c sl] nodes] Hy) "T". unfold pos in Hy. rewrite (bool_decide_eq_false_2 (sid < 0)) in Hy; [|lia].
    destruct Hy as [[H1 H2]|(q' & k & v & o & HM & H1 & H2 & H3 & H4 & H5 & H6)]; cbn [fst snd] in *.
    - rewrite bool_decide_eq_true_2 //. iApply wp_throw. rewrite t_next_none.
      + iApply "W". iFrame "H". iSplit; [done|]. iFrame.
      + intros k0 Hk0. apply vls_Some in Hk0. rewrite Hk //. by apply H2.
    - subst c nodes k. destruct (tk_val _ _ _ HT _ _ _ HM) as [Hv Ho]. destruct (venc_facts v o Hv Ho) as (_ & _ & Hne).
      rewrite (bool_decide_eq_false_2 (venc v o = 0)) //. rewrite offs_rev -{1}(app_nil_l q') ups_downs ups_nil. cbn [rev app].
      unfold offs at 1. cbn [List.map tail]. fold (offs N (downs [] q')).
      iApply (wp_t_key_of b M N q' [] with "T"); [done|by rewrite app_nil_l|]. iIntros "T".
      iApply (wp_t_lookup S cf b M N x R s _ v o with "[H Wi Wn T V]"); [exact HM| |].
      { iFrame "H". iSplit; [done|]. iFrame. }
      iIntros "T". iApply wp_ret. iSpecialize ("W" with "T").
      rewrite (t_next_some _ _ (q' ++ (if bool_decide (sl >= 0) then [sl] else [])) v); [done| | |].
      + by rewrite vls_lookup HM.
      + by rewrite Hk; [|eauto].
      + intros k' Hk' Ha. apply vls_Some in Hk'. apply H6; [done|]. by rewrite -Hk.
  Qed.

  Lemma wp_t_next b M N x R s cur Φ Ψ :
    (∀ k, cur = Some k → t_hole (PT (vls M) (rng N) x node_err) [] k = false) →
    tst b M N x R s -∗
    (tst b M N x R s -∗ match t_next (vls M) cur with Some y => Φ y | None => Ψ OutOfRange end) -∗
    wp (t_next_key_value al F b cur) Φ Ψ.
  Proof using HF.
    iIntros (Hh) "T W". iDestruct (tst_tok with "T") as %HT.
    pose proof (tk_root _ _ _ HT) as Hroot. unfold t_next_key_value.
    assert ([b + 16] = offs N (ups [])) as Eo. { rewrite ups_nil. symmetry. by apply offs_cons with (0, 255). }
    destruct cur as [k|].
    - wpn. iDestruct "T" as "[H (_ & Wi & Wn & T & V)]". rewrite bool_decide_eq_false_2; [|lia]. rewrite Eo.
      iApply (wp_t_descend b M N x k [] _ _ with "T"); [done|exact Hroot|by apply Hh|].
      iIntros (q sid (Hq & Hsid & Hk)) "T". iApply (wp_t_from _ _ _ x R s (Some k) q sid with "[H Wi Wn T V] W"); [done|done| |].
      { intros k0 Hk0. by apply Hk. }
      iFrame "H". iSplit; [done|]. iFrame.
    - replace (b + 16 + 8) with (place N []) by (by rewrite (place_node _ _ _ _ Hroot)).
      iApply (wp_slot_load with "T"); [left; by rewrite Hroot|]. iIntros "T".
      pose proof (yenc_zero _ _ _ [] HT) as Hz. destruct (M !! []) as [[v o]|] eqn:E; cbn [yenc] in *.
      + rewrite bool_decide_eq_true_2; [|intros H; apply Hz in H; done].
        iApply (wp_t_lookup S cf b M N x R s [] v o with "T"); [exact E|]. iIntros "T". iApply wp_ret. iSpecialize ("W" with "T").
        rewrite (t_next_some _ _ [] v); [done|by rewrite vls_lookup E|done|]. intros k' _ _. apply lex_nil.
      + rewrite bool_decide_eq_false_2; [|lia]. wpn. rewrite Eo.
        iApply (wp_t_from _ _ _ x R s None [] 0 with "T W"); [by rewrite Hroot|done|].
        intros k0 Hk0. symmetry. unfold from. cbn [app]. destruct k0 as [|d rs]; [rewrite E in Hk0; by destruct Hk0|]. simpl.
        rewrite lex_nil andb_false_r orb_false_r. apply negb_true_iff, Z.ltb_ge.
        destruct (decide (in_range (0, 255) d)) as [Hd|Hd]; [unfold in_range in Hd; simpl in Hd; lia|]. exfalso.
        destruct (tok_below _ _ _ _ _ _ _ rs HT Hroot Hd) as [E' _]. cbn [app] in E'. rewrite E' in Hk0. by destruct Hk0.
  Qed.
  Local Opaque t_next_key_value.

  Lemma hole_at (m : gmap bytes pval) (N : gmap bytes (Z * Z)) (x xn : Z) k : ∀ p, is_Some (m !! (p ++ k)) →
    (∀ q, N !! q = None → ∀ d rs, m !! (q ++ d :: rs) = None) → t_hole (PT m N x xn) p k = false.
  Proof using.
    induction k as [|c k IH]; intros p Hk Hno; [done|]. cbn [t_hole t_nodes t_map]. destruct (N !! p) as [[s e]|]; [|done].
    destruct ((s <=? c) && (c <=? e)); [|done]. cbn [andb]. destruct (bool_decide_reflect (is_Some (N !! (p ++ [c])))) as [H|H].
    - apply IH; [by rewrite -assoc|done].
    - apply eq_None_not_Some in H. destruct k as [|d k].
      + by rewrite bool_decide_eq_true_2.
      + specialize (Hno _ H d k). rewrite -assoc in Hno. cbn [app] in Hno. rewrite Hno in Hk. by destruct Hk.
  Qed.
  Lemma wp_t_iterate_from G b M N x R s : ∀ cur Φ Ψ, (length (t_rest (vls M) cur) < G)%nat →
    (∀ k, cur = Some k → is_Some (M !! k)) →
    tst b M N x R s -∗ (tst b M N x R s -∗ Φ (t_rest (vls M) cur)) -∗ wp (t_iterate_from al F G b cur) Φ Ψ.
  Proof using HF.
    induction G as [|G IH]; intros cur Φ Ψ HG Hcur; [lia|]. iIntros "T W". iDestruct (tst_tok with "T") as %HT.
    cbn [t_iterate_from]. iApply wp_bind. iApply wpc_catch. iApply wp_bind.
    iApply (wp_t_next with "T").
    { intros k Hk. apply hole_at; [rewrite app_nil_l; by apply vls_Some, Hcur|]. intros q Hq d rs. apply vls_None.
      destruct (tok_no_node _ _ _ _ (d :: rs) HT (proj1 (rng_None _ _) Hq)) as [_ H]. by apply H. }
    iIntros "T". rewrite t_next_head. destruct (t_rest (vls M) cur) as [|[k v] r] eqn:E; cbn [head].
    - rewrite (bool_decide_eq_true_2 (OutOfRange = OutOfRange)) //. iApply wp_ret. iApply wp_ret. by iApply "W".
    - iApply wp_ret. pose proof (t_rest_cons _ _ _ _ _ E) as Er. cbn [length] in HG.
      iApply wp_bind. iApply (IH (Some k) with "T"); [rewrite Er; lia| |].
      + intros k' [= <-]. assert ((k, v) ∈ t_rest (vls M) cur) as Hin by (rewrite E; left).
        apply elem_of_list_In, filter_In in Hin as [Hin _]. apply elem_of_list_In, elem_of_items in Hin. apply vls_Some. eauto.
      + iIntros "T". rewrite Er. iApply wp_ret. by iApply "W".
  Qed.
  Lemma wp_t_iterate b M N x R s Φ Ψ :
    tst b M N x R s -∗ (tst b M N x R s -∗ Φ (t_items (vls M))) -∗ wp (t_iterate al F b) Φ Ψ.
  Proof using HF.
    iIntros "T W". iDestruct (tst_facts with "T") as %Hb. iDestruct (tst_tok with "T") as %HT. unfold t_iterate.
    iApply (wp_t_iterate_from with "T"); [|done|by rewrite t_rest_none].
    rewrite t_rest_none (Permutation_length (t_items_perm _)). pose proof (key_bound b M N HT Hb) as Hk.
    assert (length (map_to_list (vls M)) = size M) as ->; [|lia]. unfold vls. rewrite map_to_list_fmap fmap_length. done.
  Qed.
End next.
