(** * PrefixTree: clear. *)
From Verif Require Export PrefixErase.
From iris.proofmode Require Import tactics.
From iris.prelude Require Import options.
Open Scope Z_scope.
Open Scope prog_scope.

Local Arguments Z.pow : simpl never.
Local Arguments Z.mul : simpl never.
Local Arguments Z.add : simpl never.
Local Arguments u64 : simpl never.
Local Opaque t_init_node t_extend t_chain_nodes t_walk t_find t_lookup t_allowed t_make t_items_add t_nodes_add.

(** [M'] is [M] without the keys in [P]. *)
Definition cleared {A} (P : bytes → Prop) (M M' : gmap bytes A) : Prop :=
  ∀ k, (P k → M' !! k = None) ∧ (¬ P k → M' !! k = M !! k) ∧ (M' !! k = M !! k ∨ M' !! k = None).
Lemma cleared_trans {A} (P Q : bytes → Prop) (M1 M2 M3 : gmap bytes A) : cleared P M1 M2 → cleared Q M2 M3 → cleared (λ k, P k ∨ Q k) M1 M3.
Proof.
  intros H1 H2 k. destruct (H1 k) as (A1 & A2 & A3), (H2 k) as (B1 & B2 & B3). split_and!.
  - intros [H|H]; [|auto]. destruct B3 as [->|]; auto.
  - intros H. rewrite B2; [apply A2|]; tauto.
  - destruct B3 as [->|]; auto.
Qed.
Lemma cleared_weaken {A} (P Q : bytes → Prop) (M M' : gmap bytes A) : cleared P M M' →
  (∀ k, P k → Q k) → (∀ k, Q k → ¬ P k → M !! k = None) → (∀ k, Q k → P k ∨ ¬ P k) → cleared Q M M'.
Proof.
  intros H H1 H2 H3 k. destruct (H k) as (A1 & A2 & A3). split_and!.
  - intros Hq. destruct (H3 _ Hq) as [Hp|Hp]; [auto|]. rewrite A2 //. by apply H2.
  - intros Hq. apply A2. intros Hp. apply Hq. auto.
  - done.
Qed.
Lemma cleared_delete {A} (q : bytes) (M : gmap bytes A) : cleared (λ k, k = q) M (delete q M).
Proof.
  intros k. split_and!.
  - intros ->. apply lookup_delete.
  - intros H. by rewrite lookup_delete_ne.
  - destruct (decide (k = q)) as [->|H]; [right; apply lookup_delete|left; by rewrite lookup_delete_ne].
Qed.
Lemma cleared_id {A} (P : bytes → Prop) (M : gmap bytes A) : (∀ k, P k → M !! k = None) → cleared P M M.
Proof. intros H k. auto. Qed.
Lemma cleared_some {A} (P : bytes → Prop) (M M' : gmap bytes A) k x : cleared P M M' → M' !! k = Some x → M !! k = Some x.
Proof. intros H Hk. destruct (H k) as (_ & _ & [E|E]); congruence. Qed.

Definition below (q : bytes) (c0 : Z) (k : bytes) : Prop := ∃ c rest, k = q ++ c :: rest ∧ c0 <= c.
Definition under (q k : bytes) : Prop := ∃ rest, k = q ++ rest.
Lemma under_dec q k : under q k ∨ ¬ under q k.
Proof.
  destruct (decide (q `prefix_of` k)) as [[r ->]|H]; [left; by exists r|]. right. intros [r ->]. apply H. by exists r.
Qed.
Lemma below_dec q c0 k : below q c0 k ∨ ¬ below q c0 k.
Proof.
  destruct (under_dec q k) as [[rest ->]|H].
  - destruct rest as [|c rest].
    + right. intros (c & rest & E & _). by apply app_inv_head in E.
    + destruct (decide (c0 <= c)) as [Hc|Hc]; [left; exists c, rest; done|]. right.
      intros (c' & rest' & E & Hc'). apply app_inv_head in E. by simplify_eq.
  - right. intros (c & rest & -> & _). apply H. eexists. done.
Qed.
Lemma tok_below b M N q r o c rest : tok b M N → N !! q = Some (r, o) → ¬ in_range r c →
  M !! (q ++ c :: rest) = None ∧ N !! (q ++ c :: rest) = None.
Proof.
  intros HT Hq Hc. destruct (tok_out _ _ _ _ _ _ _ HT Hq Hc) as [H1 H2].
  destruct (tok_no_node _ _ _ _ rest HT H2) as [H3 H4]. rewrite cons_middle assoc. split; [|done].
  destruct rest; [by rewrite app_nil_r|auto].
Qed.

Lemma slot_read M N p (r : Z * Z) o c : N !! p = Some (r, o) → in_range r c →
  tnodes M N ⊢ word (o + 16 + 8 * (c - r.1)) (sword M N (p ++ [c])) ∗
    (word (o + 16 + 8 * (c - r.1)) (sword M N (p ++ [c])) -∗ tnodes M N).
Proof.
  iIntros (Hp Hc) "T". iDestruct (node_acc _ _ _ _ Hp with "T") as "[(P1 & P2 & P3 & P4 & Wv & Ws) T]".
  iDestruct (slot_word_acc _ _ _ _ _ _ Hc with "Ws") as "[$ Ws]". iIntros "W". iApply "T". iFrame.
  iSpecialize ("Ws" with "W").
  assert (map (λ d, if decide (d = c) then sword M N (p ++ [c]) else sword M N (p ++ [d])) (chars r) =
          map (λ d, sword M N (p ++ [d])) (chars r)) as ->; [|done].
  apply map_ext. intros d. by destruct (decide (d = c)) as [->|].
Qed.

Section clear.
  Context `{ne : NodeErr}.
  Context {RR : Rep} {PR : PoolRep} {al : allocator} (S : alloc_spec al) (cf : cfg) (F : nat).
  Notation ainv := (ainv S cf).
  Notation tst := (tst S cf).
  Notation lk := (lk S).
  (** What may be leaked. *)
  Context (Q : Prop).
  Definition may (M : vlmap) (N : ndmap) : Prop :=
    (∀ k r o, N !! k = Some (r, o) → k ≠ [] → as_leaky S (node_bytes r) → Q) ∧
    (∀ k v o, M !! k = Some (v, o) → lk (val_sizes v) → Q).
  Lemma may_sub (P1 P2 : bytes → Prop) (M M' : vlmap) (N N' : ndmap) : may M N → cleared P1 M M' → cleared P2 N N' → may M' N'.
  Proof using.
    intros [H1 H2] HM HN. split.
    - intros k r o Hk. apply (H1 k r o). by eapply cleared_some.
    - intros k v o Hk. apply (H2 k v o). by eapply cleared_some.
  Qed.
  Lemma may_value M N k : may M N → lk (val_sizes_at (vls M) k) → Q.
  Proof using.
    intros [_ H] Hl. unfold val_sizes_at in Hl. rewrite vls_lookup in Hl. destruct (M !! k) as [[v o]|] eqn:E.
    - by eapply H.
    - by apply lk_nil in Hl.
  Qed.

  Definition deep (N : ndmap) (L : nat) : Prop := ∀ k, is_Some (N !! k) → (length k < L)%nat.
  Lemma deep_sub (P : bytes → Prop) (N N' : ndmap) L : deep N L → cleared P N N' → deep N' L.
  Proof using. intros H HN k [x Hk]. apply H. exists x. by eapply cleared_some. Qed.

  Definition child_spec (G : nat) : Prop :=
    ∀ A b M N x R s p c (rp : Z * Z) po (K : unit → prog A) Φ Ψ,
      N !! p = Some (rp, po) → in_range rp c → deep N (Datatypes.S (length p) + G) → may M N →
      tst b M N x R s -∗
      (∀ M' N' s', ⌜cleared (under (p ++ [c])) M M' ∧ cleared (under (p ++ [c])) N N' ∧ ext cf 0 Q s s'⌝ -∗
         tst b M' N' x R s' -∗ wp (K tt) Φ Ψ) -∗
      wp (y <- t_clear_slot al G b (po + 16 + 8 * (c - rp.1)) ;; K y) Φ Ψ.

  (** The loop over the slots. *)
  Lemma wp_clear_loop {A} G (Lp : nat → Z → prog unit) b (Hch : child_spec G) :
    (∀ a, Lp O a = Ret tt) → (∀ n a, Lp (Datatypes.S n) a = (t_clear_slot al G b a ;; Lp n (a + 8))) →
    ∀ n M N x R s q (r : Z * Z) o c0 a (K : unit → prog A) Φ Ψ,
      N !! q = Some (r, o) → r.1 <= c0 → Z.of_nat n = r.2 - c0 + 1 → a = o + 16 + 8 * (c0 - r.1) →
      deep N (Datatypes.S (length q) + G) → may M N →
      tst b M N x R s -∗
      (∀ M' N' s', ⌜cleared (below q c0) M M' ∧ cleared (below q c0) N N' ∧ ext cf 0 Q s s'⌝ -∗
         tst b M' N' x R s' -∗ wp (K tt) Φ Ψ) -∗
      wp (y <- Lp n a ;; K y) Φ Ψ.
  Proof using.
    intros L0 L1. induction n as [|n IH]; intros M N x R s q r o c0 a K Φ Ψ Hq Hc0 Hn -> Hdeep Hmay; iIntros "T W".
    - rewrite L0. wpn. iDestruct (tst_tok with "T") as %HT. iApply ("W" $! M N s with "[] T"). iPureIntro.
      assert (∀ k, below q c0 k → M !! k = None ∧ N !! k = None) as Hno.
      { intros k (c & rest & -> & Hc). apply (tok_below _ _ _ _ _ _ _ _ HT Hq). unfold in_range. lia. }
      split_and!; [apply cleared_id; naive_solver..|]. eapply ext_weaken; [apply ext_refl|done|done].
    - rewrite L1. wpn. iApply (Hch with "T"); [exact Hq|unfold in_range; lia|done|done|].
      iIntros (M1 N1 s1 (HM1 & HN1 & He1)) "T".
      assert (N1 !! q = Some (r, o)) as Hq1.
      { destruct (HN1 q) as (_ & H & _). rewrite H; [done|]. intros [rest E]. apply (f_equal length) in E.
        rewrite !app_length /= in E. lia. }
      iApply (IH M1 N1 x R s1 q r o (c0 + 1) with "T"); [done|lia|lia|lia|by eapply deep_sub|by eapply may_sub|].
      iIntros (M2 N2 s2 (HM2 & HN2 & He2)) "T". iApply ("W" $! M2 N2 s2 with "[] T"). iPureIntro.
      assert (∀ k, under (q ++ [c0]) k ∨ below q (c0 + 1) k ↔ below q c0 k) as Hk.
      { intros k. split.
        - intros [[rest ->]|(c & rest & -> & Hc)]; [|exists c, rest; split; [done|lia]].
          exists c0, rest. rewrite -assoc. split; [done|lia].
        - intros (c & rest & -> & Hc). destruct (decide (c = c0)) as [->|].
          + left. exists rest. by rewrite -assoc.
          + right. exists c, rest. split; [done|lia]. }
      split_and!.
      + eapply cleared_weaken; [exact (cleared_trans _ _ _ _ _ HM1 HM2)|..]; naive_solver.
      + eapply cleared_weaken; [exact (cleared_trans _ _ _ _ _ HN1 HN2)|..]; naive_solver.
      + eapply ext_weaken; [eapply ext_trans; [exact He1|exact He2]|lia|tauto].
  Qed.

  Lemma wp_clear_child G : child_spec G.
  Proof using.
    induction G as [|G IH]; intros A b M N x R s p c rp po K Φ Ψ Hp Hc Hdeep Hmay; iIntros "T W";
      iDestruct (tst_tok with "T") as %HT; set (q := p ++ [c]) in *.
    all: destruct (N !! q) as [[r o]|] eqn:Hq;
      [|iAssert (wp (y <- t_clear_slot al _ b (place N q) ;; K y) Φ Ψ) with "[T W]" as "X";
        [|by rewrite (place_child _ _ _ _ _ Hq Hp)]; 
        iApply (wp_clear_value with "T"); [right; by exists p, c, rp, po|]; iIntros (s1 He1) "T";
        iApply ("W" $! (delete q M) N s1 with "[] T"); iPureIntro; split_and!;
        [eapply cleared_weaken; [apply cleared_delete|intros k ->; exists []; by rewrite app_nil_r| |intros k _; destruct (decide (k = q)); auto];
         intros k [rest ->] Hne; apply (tok_no_node _ _ _ _ rest HT Hq); intros ->; apply Hne; by rewrite app_nil_r
        |apply cleared_id; intros k [rest ->]; apply (tok_no_node _ _ _ _ rest HT Hq)
        |eapply ext_weaken; [exact He1|done|by eapply may_value]]].
    { exfalso. specialize (Hdeep q). rewrite Hq in Hdeep. specialize (Hdeep ltac:(eauto)). unfold q in Hdeep.
      rewrite app_length /= in Hdeep. lia. }
    cbn [t_clear_slot]. wpn. iDestruct "T" as "[H (_ & Wi & Wn & T & V)]".
    destruct (tk_off _ _ _ HT _ _ _ Hq) as [Ho1 Ho2].
    iDestruct (slot_read M N p rp po c Hp Hc with "T") as "(Wd & T)". fold q.
    assert (sword M N q = o) as Hsw by (unfold sword; by rewrite Hq). rewrite Hsw.
    iApply (wp_load64 with "Wd"). iIntros "Wd". wpn. iSpecialize ("T" with "Wd").
    rewrite (bool_decide_eq_false_2 (o = 0)); [|lia].
    rewrite (bool_decide_eq_true_2 (t_type o = 0)); [|by rewrite t_type_mod].
    assert (t_value o = o) as -> by (rewrite t_value_sub; lia).
    wpn. rewrite -(place_node _ _ _ _ Hq).
    iApply (wp_clear_value S cf _ b M N x R s q with "[H Wi Wn T V]"); [left; by rewrite Hq| |].
    { iFrame "H". iSplit; [done|]. iFrame. }
    iIntros (s1 He1) "T". wpn. set (M1 := delete q M).
    pose proof (cleared_delete q M) as HM1. fold M1 in HM1. iDestruct (tst_tok with "T") as %HT1.
    iDestruct "T" as "[H (_ & Wi & Wn & T & V)]".
    iDestruct (node_acc _ _ _ _ Hq with "T") as "[(P1 & P2 & P3 & P4 & Wv & Ws) T]".
    iApply (wp_load8 with "P1"). iIntros "P1". wpn. iApply (wp_load8 with "P2"). iIntros "P2". wpn.
    iSpecialize ("T" with "[P1 P2 P3 P4 Wv Ws]"); [iFrame|].
    pose proof (tok_rng _ _ _ _ _ _ HT Hq) as Hr.
    iApply (wp_clear_loop G _ b IH with "[H Wi Wn T V]").
    { intros a. reflexivity. }
    { intros n a. reflexivity. }
    { exact Hq. }
    { reflexivity. }
    { lia. }
    { lia. }
    { intros k Hk. specialize (Hdeep k Hk). unfold q. rewrite app_length. simpl. lia. }
    { eapply may_sub; [exact Hmay|exact HM1|by apply (cleared_id (λ _, False))]. }
    { iFrame "H". iSplit; [done|]. iFrame. }
    iIntros (M2 N2 s2 (HM2 & HN2 & He2)) "T". wpn. iDestruct (tst_tok with "T") as %HT2.
    assert (∀ k, below q r.1 k → length q < length k) as Hlen.
    { intros k (d & rest & -> & _). rewrite app_length /=. lia. }
    assert (length q = Datatypes.S (length p)) as Hlq by (unfold q; rewrite app_length /=; lia).
    assert (N2 !! p = Some (rp, po)) as Hp2.
    { destruct (HN2 p) as (_ & H & _). rewrite H //. intros Hx%Hlen. lia. }
    assert (N2 !! q = Some (r, o)) as Hq2.
    { destruct (HN2 q) as (_ & H & _). rewrite H //. intros Hx%Hlen. lia. }
    assert (∀ rest, rest ≠ [] → M2 !! (q ++ rest) = None ∧ N2 !! (q ++ rest) = None) as Hno.
    { intros rest Hrest. destruct rest as [|d rest]; [done|]. destruct (decide (r.1 <= d)) as [Hd|Hd].
      - assert (below q r.1 (q ++ d :: rest)) as Hb by (exists d, rest; done).
        split; [by apply (HM2 _)|by apply (HN2 _)].
      - apply (tok_below _ _ _ _ _ _ _ _ HT2 Hq2). unfold in_range. lia. }
    assert (M2 !! q = None) as HMq.
    { destruct (HM2 q) as (_ & _ & [E|E]); [|done]. rewrite E. apply lookup_delete. }
    iDestruct "T" as "[H (_ & Wi & Wn & T & V)]".
    iDestruct (parent_acc M2 N2 p c rp po Hp2 Hc with "T") as "(Nq & Wd & T)". fold q. rewrite Hq2.
    iApply (wp_store64 with "Wd"); [done|]. iIntros "Wd". wpn.
    iSpecialize ("T" $! None with "[Wd] [//]"). { rewrite sword_set. unfold vword. by rewrite HMq. }
    change (partial_alter (λ _, None) q N2) with (delete q N2).
    assert (q ≠ []) as Hqne by (unfold q; by destruct p).
    iDestruct (node_raw with "Nq") as "Nq"; [lia|].
    iDestruct (ainv_perm _ _ _ ((o, node_bytes r) :: tblocks b M2 (delete q N2) ++ R) with "H") as "H".
    { rewrite (tblocks_del b M2 N2 q (r, o)) //. }
    iApply (wp_free with "H Nq"). iIntros (s3 He3) "H". wpn.
    iApply (wp_t_nodes_add with "Wn"). iIntros "Wn". wpn.
    assert (Z.of_nat (size N2) = Z.of_nat (size (delete q N2)) + 1) as Esz.
    { rewrite -{1}(insert_delete N2 q (r, o)) // map_size_insert lookup_delete. lia. }
    replace (Z.of_nat (size N2) + node_err + -1) with (Z.of_nat (size (delete q N2)) + node_err) by lia.
    iApply ("W" $! M2 (delete q N2) s3).
    - iPureIntro. split_and!.
      + eapply cleared_weaken; [exact (cleared_trans _ _ _ _ _ HM1 HM2)|..].
        * intros k [->|(d & rest & -> & _)]; [exists []; by rewrite app_nil_r|by eexists].
        * intros k [rest ->] Hn. destruct rest as [|d rest]; [exfalso; apply Hn; left; by rewrite app_nil_r|].
          apply (tok_below _ _ _ _ _ _ _ _ HT Hq). intros Hin. apply Hn. right. exists d, rest. split; [done|].
          unfold in_range in Hin. lia.
        * intros k _. destruct (decide (k = q)), (below_dec q r.1 k); tauto.
      + eapply cleared_weaken; [exact (cleared_trans _ _ _ _ _ HN2 (cleared_delete q N2))|..].
        * intros k [(d & rest & -> & _)| ->]; [by eexists|exists []; by rewrite app_nil_r].
        * intros k [rest ->] Hn. destruct rest as [|d rest]; [exfalso; apply Hn; right; by rewrite app_nil_r|].
          apply (tok_below _ _ _ _ _ _ _ _ HT Hq). intros Hin. apply Hn. left. exists d, rest. split; [done|].
          unfold in_range in Hin. lia.
        * intros k _. destruct (decide (k = q)), (below_dec q r.1 k); tauto.
      + eapply ext_weaken; [eapply ext_trans; [exact He1|eapply ext_trans; [exact He2|exact He3]]|lia|].
        intros [Hl|[Hl|Hl]]; [by eapply may_value|done|]. destruct Hmay as [Hm _]. by apply (Hm q r o).
    - iFrame "H". iSplit; [|iFrame]. iPureIntro. apply tok_unset; [done|done|]. intros d. by apply Hno.
  Qed.

  (** clear() *)
  Lemma wp_t_clear b M N x R s Φ Ψ :
    may M N → deep N (Datatypes.S F) →
    tst b M N x R s -∗
    (∀ s', ⌜ext cf 0 Q s s'⌝ -∗ tst b ∅ {[ [] := (0, 255, b + 16) ]} x R s' -∗ Φ tt) -∗
    wp (t_clear al F b) Φ Ψ.
  Proof using.
    iIntros (Hmay Hdeep) "T W". unfold t_clear. iDestruct (tst_tok with "T") as %HT. pose proof (tk_root _ _ _ HT) as Hroot.
    replace (b + 16 + 8) with (place N []) by (by rewrite (place_node _ _ _ _ Hroot)).
    iApply (wp_clear_value with "T"); [left; by rewrite Hroot|]. iIntros (s1 He1) "T". wpn. set (M1 := delete [] M).
    pose proof (cleared_delete [] M) as HM1. fold M1 in HM1. iDestruct (tst_tok with "T") as %HT1.
    iDestruct "T" as "[H (_ & Wi & Wn & T & V)]".
    iDestruct (node_acc _ _ _ _ Hroot with "T") as "[(P1 & P2 & P3 & P4 & Wv & Ws) T]".
    iApply (wp_load8 with "P1"). iIntros "P1". wpn. replace (b + 17) with (b + 16 + 1) by lia.
    iApply (wp_load8 with "P2"). iIntros "P2". wpn.
    iSpecialize ("T" with "[P1 P2 P3 P4 Wv Ws]"); [iFrame|]. cbn [fst snd]. iApply bind_ret_r.
    iApply (wp_clear_loop F (t_clear_slots al F b) b (wp_clear_child F) with "[H Wi Wn T V]").
    { intros a. reflexivity. }
    { intros n a. reflexivity. }
    { exact Hroot. }
    { reflexivity. }
    { cbn [fst snd]. lia. }
    { cbn [fst snd]. lia. }
    { done. }
    { eapply may_sub; [exact Hmay|exact HM1|by apply (cleared_id (λ _, False))]. }
    { iFrame "H". iSplit; [done|]. iFrame. }
    iIntros (M2 N2 s2 (HM2 & HN2 & He2)) "T". iDestruct (tst_tok with "T") as %HT2. iApply wp_ret.
    assert (∀ c rest, M2 !! (c :: rest) = None ∧ N2 !! (c :: rest) = None) as Hno.
    { intros c rest. destruct (decide (0 <= c)) as [Hc|Hc].
      - assert (below [] 0 (c :: rest)) as Hb by (exists c, rest; done). split; [by apply (HM2 _)|by apply (HN2 _)].
      - apply (tok_below _ _ _ [] (0, 255) (b + 16) _ _ HT2 (tk_root _ _ _ HT2)). unfold in_range. simpl. lia. }
    assert (M2 = ∅) as ->.
    { apply map_empty. intros [|c rest]; [|apply Hno]. destruct (HM2 []) as (_ & _ & [E|E]); [|done].
      rewrite E. apply lookup_delete. }
    assert (N2 = {[ [] := (0, 255, b + 16) ]}) as ->.
    { apply map_eq. intros [|c rest].
      - rewrite lookup_singleton. apply (tk_root _ _ _ HT2).
      - rewrite lookup_singleton_ne //. apply Hno. }
    iApply ("W" with "[] T"). iPureIntro. eapply ext_weaken; [eapply ext_trans; [exact He1|exact He2]|lia|].
    intros [?|?]; [by eapply may_value|done].
  Qed.
End clear.
