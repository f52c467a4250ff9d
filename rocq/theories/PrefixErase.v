(** * PrefixTree: erase. *)
From Verif Require Export PrefixIncr.
From iris.proofmode Require Import tactics.
From iris.prelude Require Import options.
Open Scope Z_scope.
Open Scope prog_scope.

Local Arguments Z.pow : simpl never.
Local Arguments Z.mul : simpl never.
Local Arguments Z.add : simpl never.
Local Arguments u64 : simpl never.
Local Opaque t_init_node t_extend t_chain_nodes t_walk t_find t_lookup t_allowed t_make t_clear_slot t_items_add.

(** ** The path of a key *)
Fixpoint upward (p : bytes) (l : list bytes) : Prop :=
  match l with
  | [] => True
  | q :: l' => (∃ c, q = default p (head l') ++ [c]) ∧ upward p l'
  end.
Lemma upward_app p c l : upward (p ++ [c]) l → upward p (l ++ [p ++ [c]]).
Proof.
  induction l as [|q l IH]; simpl; [intros _; eauto|]. intros [[d ->] H]. split; [|by apply IH].
  exists d. by destruct l.
Qed.
Lemma path_upward N k : ∀ p, upward p (t_path N p k).
Proof.
  induction k as [|c k IH]; intros p; [done|]. destruct (decide (is_Some (N !! (p ++ [c])))) as [H|H].
  - rewrite path_step //. by apply upward_app.
  - rewrite path_stop; [done|]. by apply eq_None_not_Some.
Qed.
Lemma path_in N k : ∀ p q, q ∈ t_path N p k → is_Some (N !! q).
Proof.
  induction k as [|c k IH]; intros p q; [by intros ?%elem_of_nil|]. destruct (decide (is_Some (N !! (p ++ [c])))) as [H|H].
  - rewrite path_step // elem_of_app elem_of_list_singleton. intros [Hq| ->]; [by eapply IH|done].
  - rewrite path_stop; [by intros ?%elem_of_nil|]. by apply eq_None_not_Some.
Qed.
Lemma upward_short p q l : upward p (q :: l) → length p < length q ∧ ∀ y, y ∈ l → length y < length q.
Proof.
  revert q. induction l as [|q' l IH]; intros q [[c ->] H].
  - simpl in *. rewrite app_length /=. split; [lia|]. by intros y ?%elem_of_nil.
  - destruct (IH q' H) as [H1 H2]. simpl. rewrite app_length /=. split; [lia|].
    intros y [->|Hy]%elem_of_cons; [lia|]. specialize (H2 _ Hy). lia.
Qed.
Lemma offs_delete N q l : q ∉ l → offs (delete q N) l = offs N l.
Proof.
  intros H. unfold offs. apply map_ext_in. intros y Hy%elem_of_list_In. rewrite lookup_delete_ne; [done|].
  intros ->. done.
Qed.

(** ** Children *)
Lemma sword_zero b M N k : tok b M N → sword M N k = 0 ↔ M !! k = None ∧ N !! k = None.
Proof.
  intros HT. unfold sword. destruct (N !! k) as [[r o]|] eqn:E.
  - destruct (tk_off _ _ _ HT _ _ _ E). split; [lia|]. intros [_ ?]. done.
  - rewrite (vword_pos b M N) //. tauto.
Qed.
Lemma child_range b M N p r o c : tok b M N → N !! p = Some (r, o) → is_Some (M !! (p ++ [c])) ∨ is_Some (N !! (p ++ [c])) → in_range r c.
Proof.
  intros HT Hp [H|H].
  - destruct (tok_key' _ _ _ _ _ HT H) as (r' & o' & H1 & H2). by simplify_eq.
  - destruct (tok_node _ _ _ _ _ HT H) as (r' & o' & H1 & H2). by simplify_eq.
Qed.
Lemma has_child_true m N p : has_child m N p = true ↔ ∃ c, 0 <= c < 256 ∧ (is_Some (m !! (p ++ [c])) ∨ is_Some (N !! (p ++ [c]))).
Proof.
  unfold has_child. rewrite existsb_exists. split.
  - intros (c & Hc & H). apply elem_of_list_In, elem_of_seqZ in Hc. exists c. split; [lia|].
    apply orb_true_iff in H as [H|H]; apply bool_decide_eq_true in H; auto.
  - intros (c & Hc & H). exists c. split; [apply elem_of_list_In, elem_of_seqZ; lia|].
    apply orb_true_iff. destruct H; [left|right]; by apply bool_decide_eq_true.
Qed.
Lemma has_child_false m N p : has_child m N p = false → ∀ c, 0 <= c < 256 → m !! (p ++ [c]) = None ∧ N !! (p ++ [c]) = None.
Proof.
  intros H c Hc. assert (¬ (is_Some (m !! (p ++ [c])) ∨ is_Some (N !! (p ++ [c])))) as Hn.
  { intros Hx. rewrite (proj2 (has_child_true m N p)) in H; [done|]. eauto. }
  split; apply eq_None_not_Some; tauto.
Qed.
Definition nonzero (w : Z) : bool := bool_decide (w ≠ 0).
Lemma any_child_eq b M N p r o : tok b M N → N !! p = Some (r, o) →
  existsb nonzero (map (λ c, sword M N (p ++ [c])) (chars r)) = has_child (vls M) (rng N) p.
Proof.
  intros HT Hp. pose proof (tok_rng _ _ _ _ _ _ HT Hp) as Hr. apply bool_eq_iff. rewrite has_child_true existsb_exists. split.
  - intros (w & Hw & Hz). apply in_map_iff in Hw as (c & <- & Hc). apply elem_of_list_In in Hc. unfold chars in Hc. apply elem_of_seqZ in Hc.
    exists c. split; [lia|]. apply bool_decide_eq_true in Hz. rewrite vls_Some rng_Some.
    destruct (M !! (p ++ [c])) eqn:E1; [left; eauto|]. destruct (N !! (p ++ [c])) eqn:E2; [right; eauto|].
    exfalso. apply Hz. by apply (sword_zero b).
  - intros (c & Hc & H). rewrite vls_Some rng_Some in H. pose proof (child_range _ _ _ _ _ _ _ HT Hp H) as Hin.
    exists (sword M N (p ++ [c])). split.
    + apply in_map_iff. exists c. split; [done|]. apply elem_of_list_In. unfold chars. apply elem_of_seqZ. unfold in_range in Hin. lia.
    + apply bool_decide_eq_true. intros Hz. apply (sword_zero b) in Hz as [H1 H2]; [|done]. rewrite H1 H2 in H. by destruct H as [[? ?]|[? ?]].
Qed.
Lemma wp_any_child {RR : Rep} {A} ws : ∀ n a (K : bool → prog A) Φ Ψ, n = length ws →
  wds a ws -∗ (wds a ws -∗ wp (K (existsb nonzero ws)) Φ Ψ) -∗ wp (y <- t_any_child n a ;; K y) Φ Ψ.
Proof.
  induction ws as [|w ws IH]; intros n a K Φ Ψ ->; iIntros "H W"; cbn [length t_any_child existsb].
  - wpn. by iApply "W".
  - wpn. rewrite words_cons. iDestruct "H" as "[H1 H]". iApply (wp_load64 with "H1"). iIntros "H1". wpn.
    unfold nonzero at 1. destruct (bool_decide_reflect (w ≠ 0)) as [Hw|Hw].
    + wpn. iApply "W". iFrame.
    + cbn [orb]. iApply (IH with "H"); [done|]. iIntros "H". iApply "W". iFrame.
Qed.
Local Opaque t_any_child.

Definition psizes (N : gmap bytes (Z * Z)) (l : list bytes) : list Z :=
  concat (map (fun p => match N !! p with Some r => [node_bytes r] | None => [] end) l).
Lemma psizes_delete N q l : q ∉ l → psizes (delete q N) l = psizes N l.
Proof.
  intros H. unfold psizes. f_equal. apply map_ext_in. intros y Hy%elem_of_list_In. rewrite lookup_delete_ne; [done|].
  intros ->. done.
Qed.

Section erase.
  Context `{ne : NodeErr}.
  Context {RR : Rep} {PR : PoolRep} {al : allocator} (S : alloc_spec al) (cf : cfg) (F : nat).
  Notation ainv := (ainv S cf).
  Notation tst := (tst S cf).
  Notation lk := (lk S).

  Lemma trim_step b q p l : t_trim al b (q :: p :: l) =
      (s <- load8 q ;;
      e <- load8 (q + 1) ;;
      b0 <- t_any_child (Z.to_nat (e - s + 1)) (q + 16) ;;
      if (b0 : bool) then Ret tt
      else
        v <- load64 (q + 8) ;;
        ps <- load8 (q + 2) ;;
        qs <- load8 p ;;
        store64 (p + 16 + 8 * (ps - qs)) v ;;
        al_free al q ;;
        t_nodes_add b (- 1) ;;
        if bool_decide (v <> 0) then Ret tt else t_trim al b (p :: l)).
  Proof using. reflexivity. Qed.

  Lemma wp_t_trim {A} b x R l : ∀ M N s (K : unit → prog A) Φ Ψ,
    upward [] l → (∀ q, q ∈ l → is_Some (N !! q)) →
    tst b M N x R s -∗
    (∀ N' s', ⌜rng N' = t_prune (vls M) (rng N) l ∧ ext cf 0 (lk (psizes (rng N) l)) s s'⌝ -∗
       tst b M N' x R s' -∗ wp (K tt) Φ Ψ) -∗
    wp (y <- t_trim al b (offs N l ++ [b + 16]) ;; K y) Φ Ψ.
  Proof using.
    induction l as [|q l IH]; intros M N s K Φ Ψ Hup Hin; iIntros "T W".
    { cbn [offs List.map app t_trim]. wpn. iApply ("W" $! N s with "[] T"). iPureIntro. split; [done|].
      eapply ext_weaken; [apply ext_refl|done|done]. }
    iDestruct (tst_tok with "T") as %HT.
    destruct (upward_short _ _ _ Hup) as [Hsh1 Hsh2]. destruct Hup as [[c Hq] Hup].
    destruct (Hin q) as [[r no] Hqn]; [by left|]. set (p := default [] (head l)) in *.
    assert (∃ rp po rest, N !! p = Some (rp, po) ∧ offs N l ++ [b + 16] = po :: rest) as (rp & po & rest & Hp & Hrest).
    { destruct l as [|q' l].
      - exists (0, 255), (b + 16), []. split; [exact (tk_root _ _ _ HT)|done].
      - destruct (Hin q') as [[r' o'] Hq']; [by right; left|]. exists r', o', (offs N l ++ [b + 16]). split; [done|].
        unfold offs. cbn [List.map app]. by rewrite Hq'. }
    assert (in_range rp c) as Hc.
    { apply (child_range _ _ _ _ _ _ _ HT Hp). right. rewrite -Hq. eauto. }
    assert (offs N (q :: l) ++ [b + 16] = no :: po :: rest) as ->.
    { rewrite -Hrest. unfold offs. cbn [List.map app]. by rewrite Hqn. }
    rewrite trim_step. wpn. iDestruct "T" as "[H (_ & Wi & Wn & T & V)]".
    pose proof (tok_rng _ _ _ _ _ _ HT Hqn) as Hr.
    iDestruct (node_acc _ _ _ _ Hqn with "T") as "[(P1 & P2 & P3 & P4 & Wv & Ws) T]".
    iApply (wp_load8 with "P1"). iIntros "P1". wpn. iApply (wp_load8 with "P2"). iIntros "P2". wpn.
    iApply (wp_any_child with "Ws"). { rewrite map_length. unfold chars. by rewrite seqZ_length. }
    iIntros "Ws". rewrite (any_child_eq _ _ _ _ _ _ HT Hqn). wpn.
    cbn [t_prune]. destruct (has_child (vls M) (rng N) q) eqn:Ech.
    { wpn. iApply ("W" $! N s).
      - iPureIntro. split; [done|]. eapply ext_weaken; [apply ext_refl|done|done].
      - iFrame "H". iSplit; [done|]. iFrame "Wi Wn V". iApply "T". iFrame. }
    wpn. iApply (wp_load64 with "Wv"). iIntros "Wv". wpn. iApply (wp_load8 with "P3"). iIntros "P3". wpn.
    iSpecialize ("T" with "[P1 P2 P3 P4 Wv Ws]"); [iFrame|].
    iDestruct (node_acc _ _ _ _ Hp with "T") as "[(P1 & P2 & P3 & P4 & Wv & Ws) T]".
    iApply (wp_load8 with "P1"). iIntros "P1". wpn. iSpecialize ("T" with "[P1 P2 P3 P4 Wv Ws]"); [iFrame|].
    iDestruct (parent_acc M N p c rp po Hp Hc with "T") as "(Nq & Wd & T)". rewrite -Hq Hqn.
    assert (lastc q = c) as -> by (rewrite Hq; apply lastc_snoc).
    assert (is_u64 (vword M q)) as Hvu by apply (yenc_u64 _ _ _ q HT).
    iApply (wp_store64 with "Wd"); [done|]. iIntros "Wd". wpn.
    iSpecialize ("T" $! None with "[Wd] [//]"). { by rewrite sword_set. }
    change (partial_alter (λ _, None) q N) with (delete q N).
    assert (q ≠ []) as Hqne by (rewrite Hq; by destruct p).
    iDestruct (node_raw with "Nq") as "Nq"; [lia|].
    iDestruct (ainv_perm _ _ _ ((no, node_bytes r) :: tblocks b M (delete q N) ++ R) with "H") as "H".
    { rewrite (tblocks_del b M N q (r, no)) //. }
    iApply (wp_free with "H Nq"). iIntros (s' Hs') "H". wpn.
    iApply (wp_t_nodes_add with "Wn"). iIntros "Wn". wpn.
    assert (Z.of_nat (size N) = Z.of_nat (size (delete q N)) + 1) as Esz.
    { rewrite -{1}(insert_delete N q (r, no)) // map_size_insert lookup_delete. lia. }
    replace (Z.of_nat (size N) + node_err + -1) with (Z.of_nat (size (delete q N)) + node_err) by lia.
    iAssert (tst b M (delete q N) x R s') with "[H T Wi Wn V]" as "T".
    { iFrame "H". iSplit; [|iFrame]. iPureIntro. apply tok_unset; [done|done|]. intros d.
      destruct (decide (0 <= d < 256)) as [Hd|Hd].
      - destruct (has_child_false _ _ _ Ech d Hd) as [H1 H2]. by apply vls_None in H1; apply rng_None in H2.
      - assert (¬ in_range r d) as Hnr by (unfold in_range; lia). destruct (M !! (q ++ [d])) eqn:E1.
        + exfalso. apply Hnr. eapply child_range; [done|done|]. left. eauto.
        + split; [done|]. destruct (N !! (q ++ [d])) eqn:E2; [|done].
          exfalso. apply Hnr. eapply child_range; [done|done|]. right. eauto. }
    assert (rng N !! q = Some r) as Hrn by (apply rng_lookup; eauto).
    assert (as_leaky S (node_bytes r) → lk (psizes (rng N) (q :: l))) as Hlk.
    { intros Hl. exists (node_bytes r). split; [|done]. unfold psizes. cbn [List.map concat]. rewrite Hrn. by left. }
    pose proof (vword_pos b M N q HT) as Hvz.
    destruct (bool_decide_reflect (vword M q ≠ 0)) as [Hv|Hv].
    { wpn. rewrite bool_decide_eq_true_2.
      2:{ apply vls_Some. destruct (M !! q) eqn:E; [eauto|]. exfalso. apply Hv. by apply Hvz. }
      iApply ("W" $! (delete q N) s' with "[] T"). iPureIntro. split; [apply rng_delete|].
      eapply ext_weaken; [exact Hs'|done|done]. }
    assert (M !! q = None) as HMq. { apply Hvz. destruct (decide (vword M q = 0)); [done|]. by exfalso. }
    rewrite bool_decide_eq_false_2; [|rewrite vls_Some HMq; by intros [? ?]].
    assert (q ∉ l) as Hnl by (intros Hx; specialize (Hsh2 _ Hx); lia).
    rewrite -Hrest -(offs_delete N q l Hnl). iApply (IH with "T"); [done| |].
    { intros y Hy. rewrite lookup_delete_ne; [|intros ->; done]. apply Hin. by right. }
    iIntros (N' s'' (HN' & He')) "T". iApply ("W" $! N' s'' with "[] T"). iPureIntro. split.
    - by rewrite HN' rng_delete.
    - rewrite rng_delete psizes_delete // in He'.
      eapply ext_weaken; [eapply ext_trans; [exact Hs'|exact He']|lia|]. intros [?|(n & Hn & Hl)]; [by apply Hlk|].
      exists n. split; [|done]. unfold psizes. cbn [List.map concat]. apply elem_of_app. by right.
  Qed.
  Local Opaque t_trim.

  Definition era_post (b : Z) (M : vlmap) (N : ndmap) x R s k (Φ : hPropI) : hPropI :=
    (∀ N' s', ⌜rng N' = t_prune (delete k (vls M)) (rng N) (t_path (rng N) [] k) ∧
        ext cf 0 (lk (val_sizes_at (vls M) k ++ path_sizes (rng N) k)) s s'⌝ -∗ tst b (delete k M) N' x R s' -∗ Φ)%I.
  Lemma wp_t_erase b M N x R s k c Φ Ψ :
    tst b M N x R s -∗
    ((⌜t_holds (vls M) c = false ∨ M !! k = None ∧ N !! k = None⌝ -∗ tst b M N x R s -∗ Φ false) ∧
     (⌜t_holds (vls M) c = true ∧ (is_Some (M !! k) ∨ is_Some (N !! k))⌝ -∗ era_post b M N x R s k (Φ true))) -∗
    wp (t_erase_key al F b k c) Φ Ψ.
  Proof using.
    iIntros "T P". unfold t_erase_key. iApply (wp_t_allowed with "T"). iIntros "T".
    destruct (t_holds (vls M) c) eqn:Eh; cbn [negb].
    2:{ iDestruct "P" as "[P _]". iApply wp_ret. iApply "P"; [by iLeft|done]. }
    iDestruct "T" as "[H (%HT & Wi & Wn & T & V)]". unfold t_traverse. wpn.
    iApply (wp_t_walk with "T"); [done|exact (tk_root _ _ _ HT)|]. iIntros (w Hw) "T". wpn.
    iAssert (tst b M N x R s) with "[H Wi Wn T V]" as "T".
    { iFrame "H". iSplit; [done|]. iFrame. }
    destruct w as [slot ns|par no rest]; unfold walk_post in Hw; cbn [app] in Hw; wpn.
    2:{ destruct Hw as (q & d & k' & r & -> & -> & Hq & Hqc & Hcase & Hpar & Hreach & Hsizes & Hfrees & HM & HN).
        iDestruct "P" as "[P _]". iApply wp_ret. iApply ("P" with "[] T"). iPureIntro. by right. }
    destruct Hw as (-> & Hpl & Hin & -> & _). iDestruct "P" as "[_ P]". iSpecialize ("P" with "[//]").
    iApply (wp_clear_value with "T"); [done|]. iIntros (s1 He1) "T". wpn.
    assert (rev (b + 16 :: offs N (rev (t_path (rng N) [] k))) = offs N (t_path (rng N) [] k) ++ [b + 16]) as ->.
    { cbn [rev]. unfold offs. by rewrite map_rev rev_involutive. }
    iApply (wp_t_trim with "T").
    { apply path_upward. }
    { intros q Hq. apply path_in in Hq. by apply rng_Some. }
    iIntros (N' s2 (HN' & He2)) "T". iApply wp_ret. iApply ("P" $! N' s2 with "[] T"). iPureIntro. rewrite vls_delete in HN'.
    split; [done|]. eapply ext_weaken; [eapply ext_trans; [exact He1|exact He2]|lia|].
    intros [H|H]; (eapply lk_sub; [|exact H]); intros n Hn; apply elem_of_app; by [left|right].
  Qed.
End erase.
