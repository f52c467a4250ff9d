(** * PrefixTree: find, the bounds, and the counts below a prefix. *)
From Verif Require Export PrefixNext.
From iris.proofmode Require Import tactics.
From iris.prelude Require Import options.
Open Scope Z_scope.
Open Scope prog_scope.

Local Arguments Z.pow : simpl never.
Local Arguments Z.mul : simpl never.
Local Arguments Z.add : simpl never.
Local Arguments u64 : simpl never.
Local Arguments bool_decide : simpl never.

(** ** Sums over the keys that begin with a prefix *)
Definition wsum (L : list (bytes * Z)) (p : bytes) : Z :=
  sum_list_Z (List.map (λ x, if bool_decide (p `prefix_of` x.1) then x.2 else 0) L).
Definition wat (L : list (bytes * Z)) (p : bytes) : Z :=
  sum_list_Z (List.map (λ x, if bool_decide (x.1 = p) then x.2 else 0) L).
Lemma sum_cons x l : sum_list_Z (x :: l) = x + sum_list_Z l.
Proof. done. Qed.
Lemma sum_app l l' : sum_list_Z (l ++ l') = sum_list_Z l + sum_list_Z l'.
Proof. induction l as [|x l IH]; [done|]. cbn [app]. rewrite !sum_cons IH. lia. Qed.
Lemma sum_map_add {A} (f g : A → Z) l :
  sum_list_Z (List.map (λ x, f x + g x) l) = sum_list_Z (List.map f l) + sum_list_Z (List.map g l).
Proof. induction l as [|x l IH]; [done|]. cbn [List.map]. rewrite !sum_cons IH. lia. Qed.
Lemma sum_map_const {A} (c : Z) (l : list A) : sum_list_Z (List.map (λ _, c) l) = c * Z.of_nat (length l).
Proof. induction l as [|x l IH]; [cbn; lia|]. cbn [List.map length]. rewrite sum_cons IH. lia. Qed.
Lemma sum_map_zero {A} (f : A → Z) l : (∀ x, x ∈ l → f x = 0) → sum_list_Z (List.map f l) = 0.
Proof.
  induction l as [|x l IH]; intros H; [done|]. cbn [List.map]. rewrite sum_cons IH; [rewrite (H x); [lia|left]|].
  intros y Hy. apply H. by right.
Qed.
Lemma sum_one (cs : list Z) (P : Z → bool) (w : Z) : NoDup cs →
  (∀ c d, P c = true → P d = true → c = d) →
  sum_list_Z (List.map (λ c, if P c then w else 0) cs) = if existsb P cs then w else 0.
Proof.
  intros Hnd HP. induction Hnd as [|c cs Hc Hnd IH]; [done|]. cbn [List.map existsb]. rewrite sum_cons IH.
  destruct (P c) eqn:E; cbn [orb]; [|lia]. assert (existsb P cs = false) as ->; [|lia].
  apply not_true_iff_false. rewrite existsb_exists. intros (d & Hd & Ed). rewrite (HP _ _ E Ed) in Hc.
  by apply Hc, elem_of_list_In.
Qed.
Lemma prefix_snoc_inj (q : bytes) c d k : (q ++ [c]) `prefix_of` k → (q ++ [d]) `prefix_of` k → c = d.
Proof.
  intros [r1 ->] [r2 E]. rewrite -!assoc in E. apply app_inv_head in E. cbn [app] in E. congruence.
Qed.
(** A node's part consists of the node and the parts of its slots. *)
Lemma wsum_split L q cs : NoDup cs →
  (∀ k w, (k, w) ∈ L → q `prefix_of` k → k = q ∨ ∃ c, c ∈ cs ∧ (q ++ [c]) `prefix_of` k) →
  wsum L q = wat L q + sum_list_Z (List.map (λ c, wsum L (q ++ [c])) cs).
Proof.
  intros Hnd. unfold wsum, wat. induction L as [|[k w] L IH]; intros H.
  - cbn [List.map]. rewrite (sum_map_zero _ cs); [done|]. intros. done.
  - cbn [List.map fst snd]. rewrite !sum_cons IH; [|intros k' w' Hin; apply (H k' w'); by right].
    rewrite (map_ext (λ c, sum_list_Z (_ :: _)) (λ c, (if bool_decide ((q ++ [c]) `prefix_of` k) then w else 0) +
      sum_list_Z (List.map (λ x, if bool_decide ((q ++ [c]) `prefix_of` x.1) then x.2 else 0) L))); [|intros; apply sum_cons].
    rewrite sum_map_add (sum_one cs (λ c, bool_decide ((q ++ [c]) `prefix_of` k)) w) //.
    2:{ intros c d. rewrite !bool_decide_eq_true. apply prefix_snoc_inj. }
    destruct (bool_decide_reflect (k = q)) as [->|Hk].
    + rewrite (bool_decide_eq_true_2 (q `prefix_of` q)) //.
      assert (existsb (λ c, bool_decide ((q ++ [c]) `prefix_of` q)) cs = false) as ->; [|lia].
      apply not_true_iff_false. rewrite existsb_exists. intros (c & _ & Hc). apply bool_decide_eq_true in Hc as [r E].
      apply (f_equal length) in E. rewrite !app_length in E. cbn [length] in E. lia.
    + destruct (bool_decide_reflect (q `prefix_of` k)) as [Hp|Hp].
      * destruct (H k w ltac:(left) Hp) as [?|(c & Hc & Hck)]; [done|].
        assert (existsb (λ c, bool_decide ((q ++ [c]) `prefix_of` k)) cs = true) as ->; [|lia].
        apply existsb_exists. exists c. split; [by apply elem_of_list_In|by apply bool_decide_eq_true].
      * assert (existsb (λ c, bool_decide ((q ++ [c]) `prefix_of` k)) cs = false) as ->; [|lia].
        apply not_true_iff_false. rewrite existsb_exists. intros (c & _ & Hc). apply bool_decide_eq_true in Hc.
        apply Hp. etrans; [|exact Hc]. by exists [c].
Qed.
Lemma u64_add_l a b : u64 (u64 a + b) = u64 (a + b).
Proof. unfold u64. by rewrite Zplus_mod_idemp_l. Qed.
Lemma u64_add_r a b : u64 (a + u64 b) = u64 (a + b).
Proof. unfold u64. by rewrite Zplus_mod_idemp_r. Qed.

(** The weights of the nodes and of the values. *)
Definition nwts (f : Z * Z → Z) (N : ndmap) : list (bytes * Z) := List.map (λ x, (x.1, f x.2.1)) (map_to_list N).
Definition vwts (f : pval → Z) (M : vlmap) : list (bytes * Z) := List.map (λ x, (x.1, f x.2.1)) (map_to_list M).
Lemma elem_of_nwts f N k w : (k, w) ∈ nwts f N ↔ ∃ r o, N !! k = Some (r, o) ∧ w = f r.
Proof.
  unfold nwts. rewrite elem_of_list_In in_map_iff. split.
  - intros ([k' [r o]] & [= <- <-] & Hin). exists r, o. split; [|done]. by apply elem_of_map_to_list, elem_of_list_In.
  - intros (r & o & H & ->). exists (k, (r, o)). split; [done|]. by apply elem_of_list_In, elem_of_map_to_list.
Qed.
Lemma elem_of_vwts f M k w : (k, w) ∈ vwts f M ↔ ∃ v o, M !! k = Some (v, o) ∧ w = f v.
Proof.
  unfold vwts. rewrite elem_of_list_In in_map_iff. split.
  - intros ([k' [v o]] & [= <- <-] & Hin). exists v, o. split; [|done]. by apply elem_of_map_to_list, elem_of_list_In.
  - intros (v & o & H & ->). exists (k, (v, o)). split; [done|]. by apply elem_of_list_In, elem_of_map_to_list.
Qed.
Lemma wat_perm L L' q : L ≡ₚ L' → wat L q = wat L' q.
Proof. intros H. unfold wat. induction H; cbn [List.map]; rewrite ?sum_cons; lia. Qed.
Lemma wat_app L L' q : wat (L ++ L') q = wat L q + wat L' q.
Proof. unfold wat. by rewrite map_app sum_app. Qed.
Lemma wsum_app L L' q : wsum (L ++ L') q = wsum L q + wsum L' q.
Proof. unfold wsum. by rewrite map_app sum_app. Qed.
Lemma wat_none L q : (∀ w, (q, w) ∈ L → w = 0) → wat L q = 0.
Proof.
  intros H. unfold wat. apply sum_map_zero. intros [k w] Hin. cbn [fst snd].
  destruct (bool_decide_reflect (k = q)) as [->|]; [by apply H|done].
Qed.
Lemma wat_map {A} (g : A → Z) (m : gmap bytes A) q :
  wat (List.map (λ x, (x.1, g x.2)) (map_to_list m)) q = match m !! q with Some x => g x | None => 0 end.
Proof.
  destruct (m !! q) as [x|] eqn:E.
  - rewrite (wat_perm _ ((q, g x) :: List.map (λ x, (x.1, g x.2)) (map_to_list (delete q m)))).
    + unfold wat. cbn [List.map fst snd]. rewrite sum_cons. rewrite bool_decide_eq_true_2 //.
      fold (wat (List.map (λ x, (x.1, g x.2)) (map_to_list (delete q m))) q). rewrite wat_none; [lia|].
      intros w. rewrite elem_of_list_In in_map_iff. intros ([k y] & [= <- _] & Hin). exfalso.
      apply elem_of_list_In, elem_of_map_to_list in Hin. by rewrite lookup_delete in Hin.
    + rewrite -{1}(insert_delete m q x); [|done]. rewrite (Permutation_map _ (map_to_list_insert _ _ _ (lookup_delete _ _))). done.
  - apply wat_none. intros w. rewrite elem_of_list_In in_map_iff. intros ([k y] & [= <- _] & Hin). exfalso.
    apply elem_of_list_In, elem_of_map_to_list in Hin. by rewrite E in Hin.
Qed.
Lemma wat_nwts f N q : wat (nwts f N) q = match N !! q with Some (r, _) => f r | None => 0 end.
Proof. unfold nwts. rewrite (wat_map (λ x, f x.1)). by destruct (N !! q) as [[? ?]|]. Qed.
Lemma wat_vwts f M q : wat (vwts f M) q = match M !! q with Some (v, _) => f v | None => 0 end.
Proof. unfold vwts. rewrite (wat_map (λ x, f x.1)). by destruct (M !! q) as [[? ?]|]. Qed.
(** Only the slots of a node lead further. *)
Lemma node_parts b M N (fn : Z * Z → Z) (fv : pval → Z) q r o : tok b M N → N !! q = Some (r, o) →
  ∀ k w, (k, w) ∈ nwts fn N ++ vwts fv M → q `prefix_of` k → k = q ∨ ∃ c, c ∈ chars r ∧ (q ++ [c]) `prefix_of` k.
Proof.
  intros HT Hq k w Hin [rest ->]. destruct rest as [|c rest]; [left; by rewrite app_nil_r|]. right. exists c.
  split; [|exists rest; by rewrite -assoc]. destruct (decide (in_range r c)) as [Hc|Hc].
  - unfold chars. apply elem_of_seqZ. unfold in_range in Hc. lia.
  - destruct (tok_below _ _ _ _ _ _ _ rest HT Hq Hc) as [H1 H2]. apply elem_of_app in Hin as [Hin|Hin].
    + apply elem_of_nwts in Hin as (r' & o' & H & _). by rewrite H2 in H.
    + apply elem_of_vwts in Hin as (v' & o' & H & _). by rewrite H1 in H.
Qed.
Lemma leaf_parts b M N (fn : Z * Z → Z) (fv : pval → Z) q : tok b M N → N !! q = None →
  wsum (nwts fn N ++ vwts fv M) q = match M !! q with Some (v, _) => fv v | None => 0 end.
Proof.
  intros HT Hq. rewrite (wsum_split _ q []); [|constructor|].
  - cbn [List.map]. rewrite wat_app wat_nwts wat_vwts Hq. cbn. destruct (M !! q) as [[v o]|]; lia.
  - intros k w Hin [rest ->]. destruct rest as [|c rest]; [left; by rewrite app_nil_r|]. exfalso.
    destruct (tok_no_node _ _ _ _ (c :: rest) HT Hq) as [H1 H2]. specialize (H2 ltac:(done)).
    apply elem_of_app in Hin as [Hin|Hin].
    + apply elem_of_nwts in Hin as (r' & o' & H & _). by rewrite H1 in H.
    + apply elem_of_vwts in Hin as (v' & o' & H & _). by rewrite H2 in H.
Qed.

Section count.
  Context `{ne : NodeErr}.
  Context {RR : Rep} {PR : PoolRep} {al : allocator} (S : alloc_spec al) (cf : cfg).
  Notation tst := (tst S cf).

  Section sum.
    Context (f : nat → Z → prog Z) (beta iota : Z) (fn : Z * Z → Z) (fv : pval → Z).
    Context (b : Z) (M : vlmap) (N : ndmap) (x : Z) (R : blocks) (s : ast).
    Context (P : bytes → Prop) (HP : ∀ q c, P q → P (q ++ [c])).
    Notation L := (nwts fn N ++ vwts fv M).
    Notation val q := (match M !! q with Some (v, _) => fv v | None => 0 end).
    Context (Hio : u64 iota = iota).
    Context (Hnode : ∀ G o, o mod 8 = 0 → 0 < o → f (Datatypes.S G) o =
      (st <- load8 o ;; e <- load8 (o + 1) ;; t_sum_slots (f G) (Z.to_nat (e - st + 1)) (o + 16) iota)).
    Context (Hleaf : ∀ A G q (K : Z → prog A) Φ Ψ, P q → N !! q = None →
      tst b M N x R s -∗ (tst b M N x R s -∗ wp (K (u64 (beta + val q))) Φ Ψ) -∗
      wp (y <- f G (vword M q) ;; K y) Φ Ψ).
    Context (Hw : ∀ q r o, P q → N !! q = Some (r, o) → iota + beta * (r.2 - r.1 + 1) = beta + fn r + val q).

    Lemma wp_sum_loop {A} G q (r : Z * Z) o : tok b M N → N !! q = Some (r, o) → P q →
      (∀ c r' o' (K : Z → prog A) Φ Ψ, N !! (q ++ [c]) = Some (r', o') →
        tst b M N x R s -∗ (tst b M N x R s -∗ wp (K (u64 (beta + wsum L (q ++ [c])))) Φ Ψ) -∗
        wp (y <- f G o' ;; K y) Φ Ψ) →
      ∀ n c0 ret a (K : Z → prog A) Φ Ψ, r.1 <= c0 → Z.of_nat n = r.2 - c0 + 1 → a = o + 16 + 8 * (c0 - r.1) →
      tst b M N x R s -∗
      (tst b M N x R s -∗ wp (K (u64 (ret + sum_list_Z (List.map (λ c, beta + wsum L (q ++ [c])) (seqZ c0 (Z.of_nat n)))))) Φ Ψ) -∗
      wp (y <- t_sum_slots (f G) n a (u64 ret) ;; K y) Φ Ψ.
    Proof using HP Hleaf.
      intros HT Hq HPq Hch. induction n as [|n IH]; intros c0 ret a K Φ Ψ Hc0 Hn ->; iIntros "T W"; cbn [t_sum_slots].
      - wpn. change (seqZ c0 (Z.of_nat 0)) with (@nil Z). cbn [List.map]. change (sum_list_Z []) with 0. rewrite Z.add_0_r. by iApply "W".
      - wpn. assert (in_range r c0) as Hc by (unfold in_range; lia).
        iDestruct "T" as "[H (_ & Wi & Wn & T & V)]". iDestruct (slot_read _ _ _ _ _ _ Hq Hc with "T") as "[Wd T]".
        iApply (wp_load64 with "Wd"). iIntros "Wd". iSpecialize ("T" with "Wd"). wpn.
        iAssert (tst b M N x R s) with "[H Wi Wn T V]" as "T". { iFrame "H". iSplit; [done|]. iFrame. }
        rewrite (seqZ_cons c0); [|lia]. replace (Z.pred (Z.of_nat (Datatypes.S n))) with (Z.of_nat n) by lia.
        cbn [List.map]. rewrite sum_cons.
        iAssert (tst b M N x R s -∗ wp (y <- t_sum_slots (f G) n (o + 16 + 8 * (c0 - r.1) + 8)
          (u64 (u64 ret + u64 (beta + wsum L (q ++ [c0])))) ;; K y) Φ Ψ)%I with "[W]" as "W".
        { iIntros "T". rewrite u64_add_l u64_add_r. iApply (IH (c0 + 1) with "T"); [lia|lia|lia|].
          iIntros "T". iSpecialize ("W" with "T"). replace (Z.succ c0) with (c0 + 1) by lia. by rewrite Z.add_assoc. }
        destruct (N !! (q ++ [c0])) as [[r' o']|] eqn:En.
        + assert (sword M N (q ++ [c0]) = o') as -> by (unfold sword; by rewrite En).
          iApply (Hch with "T"); [exact En|]. iIntros "T". by iApply "W".
        + assert (sword M N (q ++ [c0]) = vword M (q ++ [c0])) as -> by (unfold sword; by rewrite En).
          iApply (Hleaf with "T"); [by apply HP|exact En|]. iIntros "T". rewrite -(leaf_parts b M N fn fv _ HT En). by iApply "W".
    Qed.
    Lemma wp_sum_node {A} G : ∀ q (r : Z * Z) o (K : Z → prog A) Φ Ψ, N !! q = Some (r, o) → P q → deep N (length q + G) →
      tst b M N x R s -∗ (tst b M N x R s -∗ wp (K (u64 (beta + wsum L q))) Φ Ψ) -∗ wp (y <- f G o ;; K y) Φ Ψ.
    Proof using All.
      induction G as [|G IH]; intros q r o K Φ Ψ Hq HPq Hd; iIntros "T W"; iDestruct (tst_tok with "T") as %HT.
      - specialize (Hd q ltac:(by rewrite Hq)). lia.
      - destruct (tk_off _ _ _ HT _ _ _ Hq) as [Ho1 Ho2]. rewrite Hnode; [|done|lia]. wpn.
        iDestruct "T" as "[H (_ & Wi & Wn & T & V)]".
        iDestruct (node_acc _ _ _ _ Hq with "T") as "[(P1 & P2 & P3 & Rw & Wv & Ws) T]".
        iApply (wp_load8 with "P1"). iIntros "P1". wpn.
        iApply (wp_load8 with "P2"). iIntros "P2". wpn.
        iSpecialize ("T" with "[P1 P2 P3 Rw Wv Ws]"); [iFrame|].
        iAssert (tst b M N x R s) with "[H Wi Wn T V]" as "T". { iFrame "H". iSplit; [done|]. iFrame. }
        assert (rng N !! q = Some r) as Hrq by (apply rng_lookup; eauto).
        destruct (wf_range _ _ (tk_wf _ _ _ HT) _ _ Hrq) as (Hr1 & Hr2 & Hr3).
        assert (∀ c r' o' (K : Z → prog A) Φ Ψ, N !! (q ++ [c]) = Some (r', o') →
          tst b M N x R s -∗ (tst b M N x R s -∗ wp (K (u64 (beta + wsum L (q ++ [c])))) Φ Ψ) -∗
          wp (y <- f G o' ;; K y) Φ Ψ) as Hch.
        { intros c r' o' K' Φ' Ψ' Hc. iIntros "T W". iApply (IH with "T W"); [exact Hc|by apply HP|].
          rewrite app_length. cbn [length]. by replace (length q + 1 + G)%nat with (length q + Datatypes.S G)%nat by lia. }
        rewrite -{1}Hio. iApply (wp_sum_loop G q r o HT Hq HPq Hch _ r.1 iota with "T"); [lia|lia|lia|].
        iIntros "T". iSpecialize ("W" with "T"). rewrite Z2Nat.id; [|lia].
          rewrite (wsum_split L q (chars r)); [|apply NoDup_seqZ|by eapply node_parts].
          rewrite wat_app wat_nwts wat_vwts Hq sum_map_add sum_map_const seqZ_length Z2Nat.id; [|lia].
          specialize (Hw _ _ _ HPq Hq).
          match goal with |- context [u64 (iota + (?y + ?z))] => replace (iota + (y + z)) with (beta + (fn r + val q + z)) by lia end.
          done.
    Qed.
  End sum.

  (** ** The slot of a prefix *)
  Lemma wp_t_walk_slot {A} b M N k : ∀ p r o par last (K : Z → prog A) Φ Ψ, tok b M N → N !! p = Some (r, o) →
    (p ≠ [] ∨ k ≠ []) → (p = [] ∨ ∃ q rq, p = q ++ [last] ∧ N !! q = Some (rq, par)) →
    tnodes M N -∗
    (∀ slot, ⌜(∃ q c rq oq, p ++ k = q ++ [c] ∧ N !! q = Some (rq, oq) ∧ in_range rq c ∧ slot = (oq + 16 + 8 * (c - rq.1))%Z ∧
                 (is_Some (M !! (p ++ k)) ∨ is_Some (N !! (p ++ k)))) ∨
              (slot = 0 ∧ M !! (p ++ k) = None ∧ N !! (p ++ k) = None)⌝ -∗ tnodes M N -∗ wp (K slot) Φ Ψ) -∗
    wp (y <- t_walk_slot par o last k ;; K y) Φ Ψ.
  Proof using.
    induction k as [|c k IH]; intros p r o par last K Φ Ψ HT Hp Hne Hpar; iIntros "T W"; cbn [t_walk_slot].
    - destruct Hpar as [->|(q & rq & -> & Hq)]; [by destruct Hne|]. wpn.
      iDestruct (node_acc _ _ _ _ Hq with "T") as "[(P1 & P2 & P3 & Rw & Wv & Ws) T]".
      iApply (wp_load8 with "P1"). iIntros "P1". wpn. iApply ("W" with "[]"); [|iApply "T"; iFrame].
      iPureIntro. left. exists q, last, rq, par. rewrite app_nil_r.
      destruct (tok_node _ _ _ _ _ HT (mk_is_Some _ _ Hp)) as (r' & o' & H & Hc). rewrite Hq in H. injection H as <- <-.
      assert (rng N !! q = Some rq) as Hrq by (apply rng_lookup; eauto).
      destruct (wf_range _ _ (tk_wf _ _ _ HT) _ _ Hrq) as (Hr1 & Hr2 & Hr3). unfold in_range in Hc.
      split_and!; [done|done|done| |right; by rewrite Hp].
      change 255 with (Z.ones 8). rewrite Z.land_ones; [|lia]. rewrite Z.mod_small; [done|]. change (2 ^ 8) with 256. lia.
    - wpn. iDestruct (node_acc _ _ _ _ Hp with "T") as "[(P1 & P2 & P3 & Rw & Wv & Ws) T]".
      iApply (wp_load8 with "P1"). iIntros "P1". wpn.
      iApply (wp_load8 with "P2"). iIntros "P2". wpn.
      iSpecialize ("T" with "[P1 P2 P3 Rw Wv Ws]"); [iFrame|].
      destruct (bool_decide_reflect (c < r.1 ∨ c > r.2)) as [Hc|Hc].
      { wpn. iApply ("W" with "[] T"). iPureIntro. right. split; [done|].
        apply (tok_below _ _ _ _ _ _ _ _ HT Hp). unfold in_range. lia. }
      assert (in_range r c) as Hcr by (unfold in_range; lia). wpn.
      iDestruct (slot_read _ _ _ _ _ _ Hp Hcr with "T") as "[Wd T]".
      iApply (wp_load64 with "Wd"). iIntros "Wd". iSpecialize ("T" with "Wd"). wpn.
      destruct (N !! (p ++ [c])) as [[r' o']|] eqn:En.
      + assert (sword M N (p ++ [c]) = o') as -> by (unfold sword; by rewrite En).
        destruct (tk_off _ _ _ HT _ _ _ En) as [Ho1 Ho2].
        rewrite (bool_decide_eq_false_2 (o' = 0)); [|lia].
        rewrite (bool_decide_eq_false_2 (t_type o' ≠ 0)); [|rewrite t_type_mod; lia].
        iApply (IH (p ++ [c]) with "T"); [done|exact En|left; by destruct p|right; by exists p, r|].
        iIntros (slot Hs) "T". rewrite -assoc in Hs. by iApply ("W" with "[] T").
      + assert (sword M N (p ++ [c]) = vword M (p ++ [c])) as -> by (unfold sword; by rewrite En).
        assert (k ≠ [] → M !! (p ++ c :: k) = None) as Hq1.
        { intros Hk. destruct (tok_no_node _ _ _ _ k HT En) as [_ H]. rewrite -assoc in H. by apply H. }
        assert (N !! (p ++ c :: k) = None) as Hq2.
        { destruct (tok_no_node _ _ _ _ k HT En) as [H _]. by rewrite -assoc in H. }
        destruct (bool_decide_reflect (vword M (p ++ [c]) = 0)) as [Hv|Hv].
        { apply (vword_pos _ _ _ _ HT) in Hv. wpn. iApply ("W" with "[] T"). iPureIntro. right. split_and!; [done| |done].
          destruct (decide (k = [])) as [->|]; auto. }
        assert (M !! (p ++ [c]) ≠ None) as Hm by (intros Hm; apply Hv; by apply (vword_pos _ _ _ _ HT)).
        rewrite (bool_decide_eq_true_2 (t_type (vword M (p ++ [c])) ≠ 0)); [|by eapply vword_type].
        destruct (bool_decide_reflect (k = [])) as [->|Hk]; wpn; iApply ("W" with "[] T"); iPureIntro.
        * left. exists p, c, r, o. split_and!; try done. left. by apply not_eq_None_Some.
        * right. split_and!; [done|auto|done].
  Qed.

  Context (F : nat) (HF : 2 ^ 62 <= Z.of_nat F).
  (** ** The two counts *)
  Definition nodes_sum (N : ndmap) (M : vlmap) (p : bytes) : Z := wsum (nwts (λ _, 1) N ++ vwts (λ _, 0) M) p.
  Definition vsize (v : pval) : Z := sum_list_Z (val_sizes v).
  Definition bytes_sum (N : ndmap) (M : vlmap) (p : bytes) : Z := wsum (nwts node_bytes N ++ vwts vsize M) p.

  Lemma deep_F b M N x R s (q : bytes) : tst b M N x R s ⊢ ⌜deep N (length q + F)⌝.
  Proof using HF.
    iIntros "T". iDestruct (tst_facts with "T") as %Hb. iDestruct (tst_tok with "T") as %HT. iPureIntro.
    intros k Hk. pose proof (deep_nodes b M N HT k Hk) as H0.
    cut (8 * Z.of_nat (length (gather (λ p r, [p]) N)) <= 2 ^ 62); [lia|]. eapply gather_length; [done| |done].
    intros p r Hr. cbn [length]. unfold node_bytes. lia.
  Qed.
  Lemma nodes_leaf {A} b M N x R s G q (K : Z → prog A) Φ Ψ : N !! q = None →
    tst b M N x R s -∗
    (tst b M N x R s -∗ wp (K (u64 (0 + match M !! q with Some (v, _) => (λ _ : pval, 0) v | None => 0 end))) Φ Ψ) -∗
    wp (y <- t_nodes_below G (vword M q) ;; K y) Φ Ψ.
  Proof using.
    iIntros (Hq) "T W". iDestruct (tst_tok with "T") as %HT.
    assert (t_nodes_below G (vword M q) = Ret 0) as ->.
    { assert (vword M q = 0 ∨ t_type (vword M q) ≠ 0) as H.
      { destruct (M !! q) as [[v o]|] eqn:E; [right; eapply vword_type; [done|by rewrite E]|left; by apply (vword_pos _ _ _ _ HT)]. }
      destruct G; cbn [t_nodes_below]; by rewrite (bool_decide_eq_true_2 _ H). }
    wpn. iSpecialize ("W" with "T"). destruct (M !! q) as [[v o]|]; done.
  Qed.
  Lemma wp_t_nodes_below {A} b M N x R s q r o (K : Z → prog A) Φ Ψ : N !! q = Some (r, o) →
    tst b M N x R s -∗ (tst b M N x R s -∗ wp (K (u64 (nodes_sum N M q))) Φ Ψ) -∗
    wp (y <- t_nodes_below F o ;; K y) Φ Ψ.
  Proof using HF.
    iIntros (Hq) "T W". iDestruct (deep_F _ _ _ _ _ _ q with "T") as %Hd.
    iApply (wp_sum_node (λ G c, t_nodes_below G c) 0 1 (λ _, 1) (λ _, 0) b M N x R s (λ _, True)
      with "T [W]"); [done|done| | | |exact Hq|done|exact Hd|].
    - intros G o' H1 H2. cbn [t_nodes_below]. rewrite bool_decide_eq_false_2; [done|]. rewrite t_type_mod. lia.
    - intros A' G q' K' Φ' Ψ' _ Hn. by apply nodes_leaf.
    - intros q' r' o' _ _. destruct (M !! q') as [[? ?]|]; lia.
    - iIntros "T". by iApply "W".
  Qed.
  Lemma bytes_leaf {A} b M N x R s G q (K : Z → prog A) Φ Ψ : N !! q = None →
    (∀ v o, M !! q = Some (v, o) → match v with PStr [] => False | PDouble d => d_zero d = false | _ => True end) →
    tst b M N x R s -∗
    (tst b M N x R s -∗ wp (K (u64 (8 + match M !! q with Some (v, _) => vsize v | None => 0 end))) Φ Ψ) -∗
    wp (y <- t_bytes_below al G (vword M q) ;; K y) Φ Ψ.
  Proof using.
    iIntros (Hq Hv0) "T W". iDestruct (tst_tok with "T") as %HT. unfold vword.
    assert (∀ c, t_bytes_below al G c = match t_type c with
      | 0 => if bool_decide (c = 0) then Ret 8 else t_bytes_below al G c
      | 1 => n <- al_block_size al (t_value c) ;; Ret (u64 (8 + n))
      | 2 | 5 | 6 => Ret 8 | 3 | 4 => Ret 16 | _ => Throw OutOfRange end) as Hf.
    { intros c. destruct G; cbn [t_bytes_below]; destruct (t_type c) as [|t|t]; try done; by destruct (bool_decide (c = 0)). }
    destruct (M !! q) as [[v o]|] eqn:E; clear F HF.
    2:{ rewrite Hf. change (t_type 0) with 0. cbv iota. rewrite (bool_decide_eq_true_2 (0 = 0)) //. wpn. by iApply "W". }
    destruct (tk_val _ _ _ HT _ _ _ E) as [Hv Ho]. destruct (venc_facts v o Hv Ho) as (Hty & Hu & Hne).
    specialize (Hv0 _ _ eq_refl). rewrite Hf Hty. unfold vsize.
    destruct v as [st|z|bb|bb|]; cbn [venc_type venc val_sizes] in *.
    - destruct (Z.ltb_spec (dlen st) 8) as [Hl|Hl].
      + destruct (Z.eqb_spec (dlen st) 0) as [H0|H0].
        * destruct st; [done|]. unfold dlen in H0. cbn [length] in H0. lia.
        * wpn. by iApply "W".
      + pose proof (venc_block (PStr st) o) as Hb. cbn [val_sizes venc] in Hb. rewrite (proj2 (Z.ltb_ge _ _) Hl) in Hb.
        specialize (Hb ltac:(done) Ho). rewrite Hb. wpn. iDestruct "T" as "[H (_ & Wi & Wn & T & V)]".
        iApply (wp_block_size with "H").
        { apply in_app_l. unfold tblocks. right. apply elem_of_app. right. apply (elem_of_Permutation_proper _ _ _ (vblocks_delete _ _ _ _ E)).
          apply in_app_l. unfold vblk. cbn [val_sizes]. rewrite (proj2 (Z.ltb_ge _ _) Hl). by left. }
        iIntros "H". wpn. rewrite sum_cons. change (sum_list_Z []) with 0. rewrite Z.add_0_r. iApply "W". iFrame "H". iSplit; [done|]. iFrame.
    - destruct (small_int z); wpn; by iApply "W".
    - rewrite Hv0. wpn. by iApply "W".
    - wpn. by iApply "W".
    - wpn. by iApply "W".
  Qed.
  (** The values below [p] are counted correctly. *)
  Definition all_counted (M : vlmap) (N : ndmap) (p : bytes) : Prop :=
    ∀ k v o, M !! k = Some (v, o) → p `prefix_of` k →
      match v with PStr [] => False | PDouble d => d_zero d = false | _ => True end ∧
      (is_Some (N !! k) → val_sizes v = []).
  Lemma wp_t_bytes_below {A} b M N x R s q r o (K : Z → prog A) Φ Ψ : N !! q = Some (r, o) → all_counted M N q →
    tst b M N x R s -∗ (tst b M N x R s -∗ wp (K (u64 (8 + bytes_sum N M q))) Φ Ψ) -∗
    wp (y <- t_bytes_below al F o ;; K y) Φ Ψ.
  Proof using HF.
    iIntros (Hq Hc) "T W". iDestruct (deep_F _ _ _ _ _ _ q with "T") as %Hd.
    iApply (wp_sum_node (λ G c, t_bytes_below al G c) 8 24 node_bytes vsize b M N x R s (λ k, q `prefix_of` k)
      with "T [W]"); [|done| | | |exact Hq|done|exact Hd|].
    - intros k c Hk. etrans; [exact Hk|]. by exists [c].
    - intros G o' H1 H2. cbn [t_bytes_below]. rewrite t_type_mod H1. cbv iota. rewrite bool_decide_eq_false_2; [done|lia].
    - intros A' G q' K' Φ' Ψ' Hp Hn. apply bytes_leaf; [done|]. intros v o' Hk. by apply (Hc _ _ _ Hk).
    - intros q' r' o' Hp Hn. unfold node_bytes. destruct (M !! q') as [[v ov]|] eqn:E; [|lia].
      destruct (Hc _ _ _ E Hp) as [_ Hz]. unfold vsize. rewrite Hz; [cbn; lia|]. by rewrite Hn.
    - iIntros "T". by iApply "W".
  Qed.

  (** ** The prefix functions *)
  Lemma tst_split b M N x R s : tst b M N x R s ⊢ tnodes M N ∗ (tnodes M N -∗ tst b M N x R s).
  Proof using.
    iIntros "[H (%HT & Wi & Wn & T & V)]". iFrame "T". iIntros "T". iFrame "H". iSplit; [done|]. iFrame.
  Qed.
  Lemma slot_of_ne b M N q rq oq c : tok b M N → N !! q = Some (rq, oq) → in_range rq c → oq + 16 + 8 * (c - rq.1) ≠ 0.
  Proof using.
    intros HT Hq Hc. clear F HF. destruct (tk_off _ _ _ HT _ _ _ Hq) as [_ H]. unfold in_range in Hc. lia.
  Qed.
  Lemma wp_t_nodes_for b M N x R s p Φ Ψ :
    tst b M N x R s -∗ (tst b M N x R s -∗ Φ (u64 (nodes_sum N M p))) -∗ wp (t_nodes_for_prefix F b p) Φ Ψ.
  Proof using HF.
    iIntros "T W". iDestruct (tst_tok with "T") as %HT. pose proof (tk_root _ _ _ HT) as Hroot. unfold t_nodes_for_prefix.
    destruct (bool_decide_reflect (p = [])) as [->|Hp].
    - iApply bind_ret_r. iApply (wp_t_nodes_below with "T"); [exact Hroot|]. iIntros "T". iApply wp_ret. by iApply "W".
    - iDestruct (tst_split with "T") as "[T TT]". iApply (wp_t_walk_slot b M N p [] _ _ with "T"); [done|exact Hroot|by right|by left|].
      iIntros (slot Hs) "T". cbn [app] in Hs. destruct Hs as [(q & c & rq & oq & -> & Hq & Hc & -> & Hin)|(-> & HM & HN)].
      + rewrite (bool_decide_eq_false_2 (_ = 0)); [|by eapply slot_of_ne]. iDestruct (slot_read _ _ _ _ _ _ Hq Hc with "T") as "[Wd T]".
        iApply (wp_load64 with "Wd"). iIntros "Wd". iSpecialize ("T" with "Wd"). iSpecialize ("TT" with "T").
        iApply bind_ret_r. destruct (N !! (q ++ [c])) as [[r' o']|] eqn:En.
        * assert (sword M N (q ++ [c]) = o') as -> by (unfold sword; by rewrite En).
          iApply (wp_t_nodes_below with "TT"); [exact En|]. iIntros "T". iApply wp_ret. by iApply "W".
        * assert (sword M N (q ++ [c]) = vword M (q ++ [c])) as -> by (unfold sword; by rewrite En).
          iApply (nodes_leaf with "TT"); [exact En|]. iIntros "T". iApply wp_ret. iSpecialize ("W" with "T").
          unfold nodes_sum. rewrite (leaf_parts b) //.
      + rewrite (bool_decide_eq_true_2 (0 = 0)) //. iApply wp_ret. iSpecialize ("W" with "[T TT]"); [by iApply "TT"|].
        unfold nodes_sum. rewrite (leaf_parts b) // HM. done.
  Qed.
  Lemma wp_t_bytes_for b M N x R s p Φ Ψ : all_counted M N p →
    tst b M N x R s -∗
    (tst b M N x R s -∗ Φ (u64 ((if bool_decide (p ≠ []) && t_exists (PT (vls M) (rng N) x node_err) p then 8 else 0) + bytes_sum N M p))) -∗
    wp (t_bytes_for_prefix al F b p) Φ Ψ.
  Proof using HF.
    iIntros (Hcnt) "T W". iDestruct (tst_tok with "T") as %HT. pose proof (tk_root _ _ _ HT) as Hroot. unfold t_bytes_for_prefix.
    destruct (bool_decide_reflect (p = [])) as [->|Hp].
    - iApply (wp_t_bytes_below with "T"); [exact Hroot|done|]. iIntros "T". iApply wp_ret. rewrite (bool_decide_eq_false_2 ([] ≠ [])); [|by intros H]. cbn [andb].
      replace (u64 (u64 (8 + bytes_sum N M []) - 8)) with (u64 (0 + bytes_sum N M [])); [by iApply "W"|].
      rewrite -Z.add_opp_r u64_add_l. f_equal. lia.
    - rewrite (bool_decide_eq_true_2 (p ≠ [])) //. cbn [andb]. unfold t_exists. cbn [t_map t_nodes].
      iDestruct (tst_split with "T") as "[T TT]". iApply (wp_t_walk_slot b M N p [] _ _ with "T"); [done|exact Hroot|by right|by left|].
      iIntros (slot Hs) "T". cbn [app] in Hs. destruct Hs as [(q & c & rq & oq & -> & Hq & Hc & -> & Hin)|(-> & HM & HN)].
      + assert (bool_decide (is_Some (vls M !! (q ++ [c]))) || bool_decide (is_Some (rng N !! (q ++ [c]))) = true) as ->.
        { rewrite orb_true_iff !bool_decide_eq_true. by rewrite vls_Some rng_Some. }
        rewrite (bool_decide_eq_false_2 (_ = 0)); [|by eapply slot_of_ne]. iDestruct (slot_read _ _ _ _ _ _ Hq Hc with "T") as "[Wd T]".
        iApply (wp_load64 with "Wd"). iIntros "Wd". iSpecialize ("T" with "Wd"). iSpecialize ("TT" with "T").
        iApply bind_ret_r. destruct (N !! (q ++ [c])) as [[r' o']|] eqn:En.
        * assert (sword M N (q ++ [c]) = o') as -> by (unfold sword; by rewrite En).
          iApply (wp_t_bytes_below with "TT"); [exact En|done|]. iIntros "T". iApply wp_ret. by iApply "W".
        * assert (sword M N (q ++ [c]) = vword M (q ++ [c])) as -> by (unfold sword; by rewrite En).
          iApply (bytes_leaf with "TT"); [exact En| |].
          { intros v o' Hk. by apply (Hcnt _ _ _ Hk). }
          iIntros "T". iApply wp_ret. iSpecialize ("W" with "T"). unfold bytes_sum. rewrite (leaf_parts b) //.
      + rewrite (bool_decide_eq_true_2 (0 = 0)) //. iApply wp_ret. iSpecialize ("W" with "[T TT]"); [by iApply "TT"|].
        unfold bytes_sum. rewrite (leaf_parts b) // HM.
        rewrite !bool_decide_eq_false_2; [done| |].
        * rewrite rng_Some HN. by intros [? ?].
        * rewrite vls_Some HM. by intros [? ?].
  Qed.

  (** ** find and the bounds *)
  Lemma wp_t_or_end {A} (p : prog A) Φ Ψ :
    wp p (λ a, Φ (Some a)) (λ e, if bool_decide (e = OutOfRange) then Φ None else Ψ e) -∗ wp (t_or_end p) Φ Ψ.
  Proof using.
    iIntros "W". unfold t_or_end. iApply wpc_catch. iApply wp_bind. iApply (wpc_strong_mono with "W").
    iSplit; [|iSplit; [|by iIntros]]; [iIntros (a) "H"; by iApply wp_ret|].
    iIntros (e) "H". destruct (bool_decide (e = OutOfRange)); [by iApply wp_ret|by iApply wp_throw].
  Qed.
  Lemma wp_t_find_item b M N x R s k Φ Ψ :
    tst b M N x R s -∗ (tst b M N x R s -∗ Φ ((λ v, (k, v)) <$> vls M !! k)) -∗ wp (t_find_item al b k) Φ Ψ.
  Proof using.
    iIntros "T W". unfold t_find_item. iApply wp_t_or_end. iApply wp_bind. iApply (wp_t_at with "T"). iIntros "T".
    destruct (vls M !! k) as [v|].
    - iApply wp_ret. by iApply "W".
    - rewrite bool_decide_eq_true_2 //. by iApply "W".
  Qed.
  Lemma wp_t_upper_bound b M N x R s k Φ Ψ : t_hole (PT (vls M) (rng N) x node_err) [] k = false →
    tst b M N x R s -∗ (tst b M N x R s -∗ Φ (t_next (vls M) (Some k))) -∗ wp (t_upper_bound al F b k) Φ Ψ.
  Proof using HF.
    iIntros (Hh) "T W". unfold t_upper_bound. iApply wp_t_or_end. iApply (wp_t_next _ _ F HF with "T"); [by intros ? [= <-]|].
    iIntros "T". destruct (t_next (vls M) (Some k)) as [y|].
    - by iApply "W".
    - rewrite bool_decide_eq_true_2 //. by iApply "W".
  Qed.
  Lemma wp_t_lower_bound b M N x R s k Φ Ψ : (vls M !! k = None → t_hole (PT (vls M) (rng N) x node_err) [] k = false) →
    tst b M N x R s -∗
    (tst b M N x R s -∗ Φ (match vls M !! k with Some v => Some (k, v) | None => t_next (vls M) (Some k) end)) -∗
    wp (t_lower_bound al F b k) Φ Ψ.
  Proof using HF.
    iIntros (Hh) "T W". unfold t_lower_bound. iApply wp_bind. iApply (wp_t_find_item with "T"). iIntros "T".
    destruct (vls M !! k) as [v|]; cbn [fmap option_fmap option_map].
    - iApply wp_ret. by iApply "W".
    - iApply (wp_t_upper_bound with "T"); [auto|]. iIntros "T". by iApply "W".
  Qed.
End count.
