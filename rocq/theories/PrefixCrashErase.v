(** * PrefixTree over a SimpleAllocator: what a crash leaves.  erase and clear. *)
From Verif Require Export PrefixCrashOps.
From iris.proofmode Require Import tactics.
From iris.prelude Require Import options.
Open Scope Z_scope.
Open Scope prog_scope.

Local Arguments Z.pow : simpl never.
Local Arguments Z.mul : simpl never.
Local Arguments Z.add : simpl never.
Local Arguments u64 : simpl never.
Local Opaque simple_allocator sa_allocate sa_free t_init_node t_extend t_chain_nodes t_walk t_find t_lookup t_allowed t_make t_items_add t_nodes_add.

Lemma cleared_sub (P : bytes → Prop) (M M' : vlmap) : cleared P M M' → vls M' ⊆ vls M.
Proof.
  intros H. apply map_subseteq_spec. intros k x. rewrite !vls_lookup. destruct (H k) as (_ & _ & [E|E]); rewrite E; done.
Qed.

Section erase.
  Context (F : nat) (HF : 2 ^ 62 <= Z.of_nat F) (cf : cfg) (b : Z) (R : blocks) (bo : Z).
  Context (good : gmap bytes pval → Prop).
  Notation al := (simple_allocator F).
  Notation S := (simple_spec F HF).
  Notation ainv := (ainv S cf).
  Notation tl := (PrefixCrash.tl b).
  Notation ex := (ex F HF cf b R bo).
  Notation st := (ex None None).
  Notation TC := (TC cf b R bo good).

  (** A node without children is taken out: its value goes to the slot of its parent. *)
  Lemma crash_unlink {A : Type} (M : vlmap) (N : ndmap) (p : bytes) (c : Z) (rp : Z * Z) (po : Z) (r : Z * Z) (no w : Z) (K : unit → prog A) :
    good (vls M) → N !! p = Some (rp, po) → in_range rp c → N !! (p ++ [c]) = Some (r, no) →
    (∀ d, M !! ((p ++ [c]) ++ [d]) = None ∧ N !! ((p ++ [c]) ++ [d]) = None) → w = vword M (p ++ [c]) →
    st M N -∗ (st M (delete (p ++ [c]) N) -∗ crash TC (K tt)) -∗
    crash TC (store64 (po + 16 + 8 * (c - rp.1)) w ;; y <- al_free al no ;; K y).
  Proof using.
    iIntros (HG Hp Hc Hq Hno ->) "T W". iDestruct (ex_tok with "T") as %HT. set (q := p ++ [c]) in *.
    iDestruct "T" as "(%s & (%Hs & _) & H & _ & _ & (_ & W1 & W2 & T & V))". cbn [yblk app].
    pose proof (tok_rng _ _ _ _ _ _ HT Hq) as Hr.
    iDestruct (parent_acc M N p c rp po Hp Hc with "T") as "(Nq & Wd & T)". fold q.
    assert (is_u64 (vword M q)) as Hvu by apply (yenc_u64 _ _ _ q HT).
    iApply crash_store64; [done|]. iExists _. iFrame "Wd". iSplit.
    - iIntros "Wd". iApply (ex_TC F HF cf b R bo good None None M N HG). iExists s. iSplit; [done|]. iFrame "H V W1 W2". iSplit; [done|].
      assert (∃ X0 : option nd, X0 = N !! q) as [X0 HX0] by (by eexists). rewrite -HX0. iSpecialize ("T" $! X0).
      assert (partial_alter (λ _ : option nd, X0) q N = N) as HE by (apply partial_alter_self_alt; done).
      rewrite HE. iApply ("T" with "Wd Nq").
    - iIntros "Wd". rewrite Hq.
      iSpecialize ("T" $! None with "[Wd] [//]"). { by rewrite sword_set. }
      change (partial_alter (λ _, None) q N) with (delete q N).
      assert (q ≠ []) as Hqne by (unfold q; by destruct p).
      iDestruct (node_raw with "Nq") as "Nq"; [lia|].
      iDestruct (ainv_perm _ _ _ ((no, node_bytes r) :: tblocks b M (delete q N) ++ R) with "H") as "H".
      { rewrite (tblocks_del b M N q (r, no)) //. }
      assert (tok b M (delete q N)) as HT' by by apply tok_unset.
      iApply (crash_free F HF cf TC (tl M (delete q N)) with "H Nq [T V W1 W2]").
      + rewrite Hs. by apply TC_intro.
      + iSplit; [done|]. iFrame.
      + iIntros (s' Hs') "H T". iApply "W". iExists s'. iSplit; [by rewrite Hs' Hs|]. iSplitL "H"; [done|]. iSplit; [done|]. iSplit; done.
  Qed.

  Lemma crash_t_trim (M : vlmap) (l : list bytes) : good (vls M) → ∀ (N : ndmap), upward [] l → (∀ q, q ∈ l → is_Some (N !! q)) →
    st M N ⊢ crash TC (t_trim al b (offs N l ++ [b + 16]) ;; Ret true).
  Proof using.
    intros HG. induction l as [|q l IH]; intros N Hup Hin; iIntros "T".
    { cbn [offs List.map app t_trim]. wpn. by iApply (crash_end with "T"). }
    iDestruct (ex_tok with "T") as %HT.
    destruct (upward_short _ _ _ Hup) as [Hsh1 Hsh2]. destruct Hup as [[c Hq] Hup].
    destruct (Hin q) as [[r no] Hqn]; [by left|]. set (p := default [] (head l)) in *.
    assert (∃ rp po rest, N !! p = Some (rp, po) ∧ offs N l ++ [b + 16] = po :: rest) as (rp & po & rest & Hp & Hrest).
    { destruct l as [|q' l].
      - exists (0, 255), (b + 16), []. split; [exact (tk_root _ _ _ HT)|done].
      - destruct (Hin q') as [[r' o'] Hq']; [by right; left|]. exists r', o', (offs N l ++ [b + 16]). split; [done|].
        unfold offs. cbn [List.map app]. by rewrite Hq'. }
    assert (in_range rp c) as Hc.
    { apply (child_range _ _ _ _ _ _ _ HT Hp). right. rewrite -Hq. eauto. }
    assert (offs N (q :: l) ++ [b + 16] = no :: po :: rest) as ->.
    { rewrite -Hrest. unfold offs. cbn [List.map app]. by rewrite Hqn. }
    rewrite trim_step. wpn.
    pose proof (tok_rng _ _ _ _ _ _ HT Hqn) as Hr.
    iApply (crash_node0 with "T"); [done|done|]. iIntros "T". wpn.
    iApply (crash_node8 _ _ _ _ _ _ _ _ _ _ _ _ _ _ 1 r.2 with "T"); [done|done|tauto|]. iIntros "T". wpn.
    iApply (crash_quiet TC (st M N) _ (λ x, x = has_child (vls M) (rng N) q) with "T").
    { apply q_any_child. }
    { by apply ex_TC. }
    { rewrite ex_nodes. iIntros "[T _]". iDestruct (node_acc _ _ _ _ Hqn with "T") as "[(P1 & P2 & P3 & P4 & Wv & Ws) T]".
      iApply bind_ret_r. iApply (wp_any_child with "Ws"). { rewrite map_length. unfold chars. by rewrite seqZ_length. }
      iIntros "Ws". iApply wp_ret. by rewrite (any_child_eq _ _ _ _ _ _ HT Hqn). }
    iIntros (x ->) "T". destruct (has_child (vls M) (rng N) q) eqn:Ech; wpn.
    { by iApply (crash_end with "T"). }
    iApply (crash_node_value with "T"); [done|done|]. iIntros "T". wpn.
    iApply (crash_node8 _ _ _ _ _ _ _ _ _ _ _ _ _ _ 2 (lastc q) with "T"); [done|done|tauto|]. iIntros "T". wpn.
    iApply (crash_node0 with "T"); [done|exact Hp|]. iIntros "T". wpn.
    assert (lastc q = c) as -> by (rewrite Hq; apply lastc_snoc).
    iApply (wpc_peq (store64 (po + 16 + 8 * (c - rp.1)) (vword M q) ;; al_free al no ;; t_nodes_add b (-1) ;;
       (if bool_decide (vword M q ≠ 0) then Ret () else t_trim al b (po :: rest)) ;; Ret true)); [peqt|].
    assert (∀ d, M !! ((p ++ [c]) ++ [d]) = None ∧ N !! ((p ++ [c]) ++ [d]) = None) as Hno.
    { intros d. rewrite -Hq. destruct (decide (0 <= d < 256)) as [Hd|Hd].
      - destruct (has_child_false _ _ _ Ech d Hd) as [H1 H2]. by apply vls_None in H1; apply rng_None in H2.
      - assert (¬ in_range r d) as Hnr by (unfold in_range; lia). destruct (M !! (q ++ [d])) eqn:E1.
        + exfalso. apply Hnr. eapply child_range; [done|done|]. left. eauto.
        + split; [done|]. destruct (N !! (q ++ [d])) eqn:E2; [|done].
          exfalso. apply Hnr. eapply child_range; [done|done|]. right. eauto. }
    iApply (crash_unlink M N p c rp po r no with "T"); [done|done|done|by rewrite -Hq|done|by rewrite -Hq|]. rewrite -Hq. iIntros "T".
    iApply (crash_nodes_add with "T"); [done|]. iIntros "T".
    destruct (bool_decide_reflect (vword M q ≠ 0)) as [Hv|Hv].
    { by iApply (crash_end with "T"). }
    assert (q ∉ l) as Hnl by (intros Hx; specialize (Hsh2 _ Hx); lia).
    rewrite -Hrest -(offs_delete N q l Hnl). iApply (IH with "T"); [done|].
    intros y Hy. rewrite lookup_delete_ne; [|intros ->; done]. apply Hin. by right.
  Qed.
  Local Opaque t_trim.

  Lemma crash_t_erase (M : vlmap) (N : ndmap) (k : bytes) c :
    good (vls M) → (t_holds (vls M) c = true → good (delete k (vls M))) →
    st M N ⊢ crash TC (t_erase_key al F b k c).
  Proof using.
    iIntros (HG1 HG2) "T". unfold t_erase_key. iApply (crash_t_allowed with "T"); [done|]. iIntros "T".
    destruct (t_holds (vls M) c) eqn:Eh; cbn [negb].
    2:{ by iApply (crash_end with "T"). }
    specialize (HG2 eq_refl). iDestruct (ex_tok with "T") as %HT. unfold t_traverse.
    iApply (crash_quiet TC (st M N) _ (walk_post M N [] k _ _) with "T").
    - apply q_t_walk.
    - by apply ex_TC.
    - rewrite ex_nodes. iIntros "[T _]". iApply bind_ret_r. iApply (wp_t_walk with "T"); [done|exact (tk_root _ _ _ HT)|]. iIntros (w Hw) "_".
      iApply wp_ret. done.
    - iIntros (w Hw) "T". destruct w as [slot ns|par no rest]; unfold walk_post in Hw; cbn [app] in Hw; wpn.
      2:{ by iApply (crash_end with "T"). }
      destruct Hw as (-> & Hpl & Hin & -> & _).
      iApply (crash_clear_value with "T"); [done|done|done|]. iIntros "T".
      assert (rev (b + 16 :: offs N (rev (t_path (rng N) [] k))) = offs N (t_path (rng N) [] k) ++ [b + 16]) as ->.
      { cbn [rev]. unfold offs. by rewrite map_rev rev_involutive. }
      iApply (crash_t_trim with "T").
      + by rewrite vls_delete.
      + apply path_upward.
      + intros q Hq. apply path_in in Hq. by apply rng_Some.
  Qed.

  (** ** clear *)
  Definition all_good (M : vlmap) : Prop := ∀ m, m ⊆ vls M → good m.
  Lemma all_good_sub (P : bytes → Prop) (M M' : vlmap) : all_good M → cleared P M M' → all_good M'.
  Proof using. intros H Hc m Hm. apply H. etrans; [done|]. by eapply cleared_sub. Qed.
  Lemma all_good_self (M : vlmap) : all_good M → good (vls M).
  Proof using. intros H. by apply H. Qed.
  Lemma all_good_del (M : vlmap) k : all_good M → good (delete k (vls M)).
  Proof using. intros H. apply H. apply delete_subseteq. Qed.
  Definition crash_child_spec (G : nat) : Prop :=
    ∀ (A : Type) (M : vlmap) (N : ndmap) (p : bytes) (c : Z) (rp : Z * Z) (po : Z) (K : unit → prog A),
      N !! p = Some (rp, po) → in_range rp c → deep N (Datatypes.S (length p) + G) → all_good M →
      st M N -∗
      (∀ (M' : vlmap) (N' : ndmap), ⌜cleared (under (p ++ [c])) M M' ∧ cleared (under (p ++ [c])) N N'⌝ -∗
         st M' N' -∗ crash TC (K tt)) -∗
      crash TC (y <- t_clear_slot al G b (po + 16 + 8 * (c - rp.1)) ;; K y).

  Lemma crash_clear_loop {A : Type} (G : nat) (Lp : nat → Z → prog unit) (Hch : crash_child_spec G) :
    (∀ a, Lp O a = Ret tt) → (∀ n a, Lp (Datatypes.S n) a = (t_clear_slot al G b a ;; Lp n (a + 8))) →
    ∀ (n : nat) (M : vlmap) (N : ndmap) (q : bytes) (r : Z * Z) (o c0 a : Z) (K : unit → prog A),
      N !! q = Some (r, o) → r.1 <= c0 → Z.of_nat n = r.2 - c0 + 1 → a = o + 16 + 8 * (c0 - r.1) →
      deep N (Datatypes.S (length q) + G) → all_good M →
      st M N -∗
      (∀ (M' : vlmap) (N' : ndmap), ⌜cleared (below q c0) M M' ∧ cleared (below q c0) N N'⌝ -∗
         st M' N' -∗ crash TC (K tt)) -∗
      crash TC (y <- Lp n a ;; K y).
  Proof using.
    intros L0 L1. induction n as [|n IH]; intros M N q r o c0 a K Hq Hc0 Hn -> Hdeep Hall; iIntros "T W".
    - rewrite L0. wpn. iDestruct (ex_tok with "T") as %HT. iApply ("W" $! M N with "[] T"). iPureIntro.
      assert (∀ k, below q c0 k → M !! k = None ∧ N !! k = None) as Hno.
      { intros k (c & rest & -> & Hc). apply (tok_below _ _ _ _ _ _ _ _ HT Hq). unfold in_range. lia. }
      split; apply cleared_id; naive_solver.
    - rewrite L1. wpn. iApply (Hch with "T"); [exact Hq|unfold in_range; lia|done|done|].
      iIntros (M1 N1 (HM1 & HN1)) "T".
      assert (N1 !! q = Some (r, o)) as Hq1.
      { destruct (HN1 q) as (_ & H & _). rewrite H; [done|]. intros [rest E]. apply (f_equal length) in E.
        rewrite !app_length /= in E. lia. }
      iApply (IH M1 N1 q r o (c0 + 1) with "T"); [done|lia|lia|lia|by eapply deep_sub|by eapply all_good_sub|].
      iIntros (M2 N2 (HM2 & HN2)) "T". iApply ("W" $! M2 N2 with "[] T"). iPureIntro.
      assert (∀ k, under (q ++ [c0]) k ∨ below q (c0 + 1) k ↔ below q c0 k) as Hk.
      { intros k. split.
        - intros [[rest ->]|(c & rest & -> & Hc)]; [|exists c, rest; split; [done|lia]].
          exists c0, rest. rewrite -assoc. split; [done|lia].
        - intros (c & rest & -> & Hc). destruct (decide (c = c0)) as [->|].
          + left. exists rest. by rewrite -assoc.
          + right. exists c, rest. split; [done|lia]. }
      split.
      + eapply cleared_weaken; [exact (cleared_trans _ _ _ _ _ HM1 HM2)|..]; naive_solver.
      + eapply cleared_weaken; [exact (cleared_trans _ _ _ _ _ HN1 HN2)|..]; naive_solver.
  Qed.

  Lemma crash_clear_child (G : nat) : crash_child_spec G.
  Proof using.
    induction G as [|G IH]; intros A M N p c rp po K Hp Hc Hdeep Hall; iIntros "T W";
      iDestruct (ex_tok with "T") as %HT; set (q := p ++ [c]) in *; pose proof (all_good_self M Hall) as HG;
      pose proof (all_good_del M q Hall) as HGq.
    all: destruct (N !! q) as [[r o]|] eqn:Hq;
      [|iAssert (crash TC (y <- t_clear_slot al _ b (place N q) ;; K y)) with "[T W]" as "X";
        [|by rewrite (place_child _ _ _ _ _ Hq Hp)]; 
        iApply (crash_clear_value with "T"); [done|done|right; by exists p, c, rp, po|]; iIntros "T";
        iApply ("W" $! (delete q M) N with "[] T"); iPureIntro; split;
        [eapply cleared_weaken; [apply cleared_delete|intros k ->; exists []; by rewrite app_nil_r| |intros k _; destruct (decide (k = q)); auto];
         intros k [rest ->] Hne; apply (tok_no_node _ _ _ _ rest HT Hq); intros ->; apply Hne; by rewrite app_nil_r
        |apply cleared_id; intros k [rest ->]; apply (tok_no_node _ _ _ _ rest HT Hq)]].
    { exfalso. specialize (Hdeep q). rewrite Hq in Hdeep. specialize (Hdeep ltac:(eauto)). unfold q in Hdeep.
      rewrite app_length /= in Hdeep. lia. }
    cbn [t_clear_slot]. wpn.
    destruct (tk_off _ _ _ HT _ _ _ Hq) as [Ho1 Ho2].
    iApply (crash_child with "T"); [done|done|done|]. iIntros "T". fold q.
    assert (sword M N q = o) as Hsw by (unfold sword; by rewrite Hq). rewrite Hsw. wpn.
    rewrite (bool_decide_eq_false_2 (o = 0)); [|lia].
    rewrite (bool_decide_eq_true_2 (t_type o = 0)); [|by rewrite t_type_mod].
    assert (t_value o = o) as -> by (rewrite t_value_sub; lia).
    wpn. rewrite -(place_node _ _ _ _ Hq).
    iApply (crash_clear_value F HF cf b R bo good _ None M N q with "T"); [done|done|left; by rewrite Hq|].
    iIntros "T". wpn. set (M1 := delete q M).
    pose proof (cleared_delete q M) as HM1. fold M1 in HM1. iDestruct (ex_tok with "T") as %HT1.
    assert (all_good M1) as Hall1 by by eapply all_good_sub.
    assert (good (vls M1)) as HG1 by by apply all_good_self.
    iApply (crash_node0 with "T"); [done|done|]. iIntros "T". wpn.
    iApply (crash_node8 _ _ _ _ _ _ _ _ _ _ _ _ _ _ 1 r.2 with "T"); [done|done|tauto|]. iIntros "T". wpn.
    pose proof (tok_rng _ _ _ _ _ _ HT Hq) as Hr.
    iApply (crash_clear_loop G _ IH with "T").
    { intros a. reflexivity. }
    { intros n a. reflexivity. }
    { exact Hq. }
    { reflexivity. }
    { lia. }
    { lia. }
    { intros k Hk. specialize (Hdeep k Hk). unfold q. rewrite app_length. simpl. lia. }
    { done. }
    iIntros (M2 N2 (HM2 & HN2)) "T". wpn. iDestruct (ex_tok with "T") as %HT2.
    assert (all_good M2) as Hall2 by by eapply all_good_sub.
    assert (good (vls M2)) as HG2 by by apply all_good_self.
    assert (∀ k, below q r.1 k → length q < length k) as Hlen.
    { intros k (d & rest & -> & _). rewrite app_length /=. lia. }
    assert (length q = Datatypes.S (length p)) as Hlq by (unfold q; rewrite app_length /=; lia).
    assert (N2 !! p = Some (rp, po)) as Hp2.
    { destruct (HN2 p) as (_ & H & _). rewrite H //. intros Hx%Hlen. lia. }
    assert (N2 !! q = Some (r, o)) as Hq2.
    { destruct (HN2 q) as (_ & H & _). rewrite H //. intros Hx%Hlen. lia. }
    assert (∀ rest, rest ≠ [] → M2 !! (q ++ rest) = None ∧ N2 !! (q ++ rest) = None) as Hno.
    { intros rest Hrest. destruct rest as [|d rest]; [done|]. destruct (decide (r.1 <= d)) as [Hd|Hd].
      - assert (below q r.1 (q ++ d :: rest)) as Hb by (exists d, rest; done).
        split; [by apply (HM2 _)|by apply (HN2 _)].
      - apply (tok_below _ _ _ _ _ _ _ _ HT2 Hq2). unfold in_range. lia. }
    assert (M2 !! q = None) as HMq.
    { destruct (HM2 q) as (_ & _ & [E|E]); [|done]. rewrite E. apply lookup_delete. }
    iApply (wpc_peq (store64 (po + 16 + 8 * (c - rp.1)) 0 ;; al_free al o ;; y <- t_nodes_add b (-1) ;; K y)); [peqt|].
    iApply (crash_unlink M2 N2 p c rp po r o with "T"); [done|done|done|done|intros d; by apply Hno| |].
    { unfold vword. fold q. by rewrite HMq. }
    fold q. iIntros "T". iApply (crash_nodes_add with "T"); [done|]. iIntros "T".
    iApply ("W" $! M2 (delete q N2) with "[] T"). iPureIntro. split.
    - eapply cleared_weaken; [exact (cleared_trans _ _ _ _ _ HM1 HM2)|..].
      + intros k [->|(d & rest & -> & _)]; [exists []; by rewrite app_nil_r|by eexists].
      + intros k [rest ->] Hn. destruct rest as [|d rest]; [exfalso; apply Hn; left; by rewrite app_nil_r|].
        apply (tok_below _ _ _ _ _ _ _ _ HT Hq). intros Hin. apply Hn. right. exists d, rest. split; [done|].
        unfold in_range in Hin. lia.
      + intros k _. destruct (decide (k = q)), (below_dec q r.1 k); tauto.
    - eapply cleared_weaken; [exact (cleared_trans _ _ _ _ _ HN2 (cleared_delete q N2))|..].
      + intros k [(d & rest & -> & _)| ->]; [by eexists|exists []; by rewrite app_nil_r].
      + intros k [rest ->] Hn. destruct rest as [|d rest]; [exfalso; apply Hn; right; by rewrite app_nil_r|].
        apply (tok_below _ _ _ _ _ _ _ _ HT Hq). intros Hin. apply Hn. left. exists d, rest. split; [done|].
        unfold in_range in Hin. lia.
      + intros k _. destruct (decide (k = q)), (below_dec q r.1 k); tauto.
  Qed.

  Lemma crash_t_clear (M : vlmap) (N : ndmap) :
    all_good M → deep N (Datatypes.S F) → st M N ⊢ crash TC (t_clear al F b).
  Proof using.
    iIntros (Hall Hdeep) "T". unfold t_clear. iDestruct (ex_tok with "T") as %HT. pose proof (tk_root _ _ _ HT) as Hroot.
    replace (b + 16 + 8) with (place N []) by (by rewrite (place_node _ _ _ _ Hroot)).
    iApply (crash_clear_value with "T"); [by apply all_good_self|by apply all_good_del|left; by rewrite Hroot|]. iIntros "T". wpn. set (M1 := delete [] M).
    pose proof (cleared_delete [] M) as HM1. fold M1 in HM1. iDestruct (ex_tok with "T") as %HT1.
    assert (all_good M1) as Hall1 by by eapply all_good_sub.
    assert (good (vls M1)) as HG1 by by apply all_good_self.
    iApply (crash_node0 with "T"); [done|done|]. iIntros "T". wpn. replace (b + 17) with (b + 16 + 1) by lia.
    iApply (crash_node8 _ _ _ _ _ _ _ _ _ _ _ _ _ _ 1 255 with "T"); [done|done|cbn [snd]; tauto|]. iIntros "T". wpn. cbn [fst snd].
    iApply bind_ret_r.
    iApply (crash_clear_loop F (t_clear_slots al F b) (crash_clear_child F) with "T").
    { intros a. reflexivity. }
    { intros n a. reflexivity. }
    { exact Hroot. }
    { reflexivity. }
    { cbn [fst snd]. lia. }
    { cbn [fst snd]. lia. }
    { done. }
    { done. }
    iIntros (M2 N2 (HM2 & HN2)) "T". iApply (crash_end with "T"). by eapply all_good_self, all_good_sub.
  Qed.
End erase.
