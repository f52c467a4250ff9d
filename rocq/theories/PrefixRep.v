(** * PrefixTree: representation in the pool. *)
From Verif Require Export PrefixEnc StructLib PriorityQueueProof.
From iris.proofmode Require Import tactics.
From iris.prelude Require Import options.
Open Scope Z_scope.
Open Scope prog_scope.

Local Arguments Z.pow : simpl never.
Local Arguments Z.mul : simpl never.
Local Arguments Z.add : simpl never.

(** The range and the offset of a node; a value and the offset of its block. *)
Notation nd := (Z * Z * Z)%type.
Notation vl := (pval * Z)%type.
Notation ndmap := (gmap bytes nd).
Notation vlmap := (gmap bytes vl).

Definition in_range (r : Z * Z) (c : Z) : Prop := r.1 <= c <= r.2.
Record t_wf {A} (m : gmap bytes A) (N : gmap bytes (Z * Z)) : Prop := TWf {
  wf_root : N !! [] = Some (0, 255);
  wf_range : ∀ p r, N !! p = Some r → 0 <= r.1 ∧ r.1 <= r.2 ∧ r.2 <= 255;
  wf_node : ∀ p c, is_Some (N !! (p ++ [c])) → ∃ r, N !! p = Some r ∧ in_range r c;
  wf_key : ∀ p c, is_Some (m !! (p ++ [c])) → ∃ r, N !! p = Some r ∧ in_range r c
}.

Definition rng (N : ndmap) : gmap bytes (Z * Z) := fst <$> N.
Definition vls (M : vlmap) : gmap bytes pval := fst <$> M.
Lemma rng_lookup N p r : rng N !! p = Some r ↔ ∃ o, N !! p = Some (r, o).
Proof.
  unfold rng. rewrite lookup_fmap_Some. split.
  - intros ([r' o] & <- & H). eauto.
  - intros [o H]. exists (r, o). done.
Qed.
Lemma rng_None N p : rng N !! p = None ↔ N !! p = None.
Proof. unfold rng. apply fmap_None || (rewrite lookup_fmap; apply fmap_None). Qed.
Lemma rng_Some N p : is_Some (rng N !! p) ↔ is_Some (N !! p).
Proof. unfold rng. rewrite lookup_fmap. apply fmap_is_Some. Qed.
Lemma vls_None M p : vls M !! p = None ↔ M !! p = None.
Proof. unfold vls. rewrite lookup_fmap. apply fmap_None. Qed.
Lemma vls_Some M p : is_Some (vls M !! p) ↔ is_Some (M !! p).
Proof. unfold vls. rewrite lookup_fmap. apply fmap_is_Some. Qed.

(** ** Words of a node *)
Lemma word_eq a b w : a = b → word a w ⊣⊢ word b w.
Proof. by intros ->. Qed.
Definition wds (a : Z) (ws : list Z) : hPropI := ([∗ list] i ↦ w ∈ ws, word (a + 8 * Z.of_nat i) w)%I.
Lemma words_acc a ws (i : nat) w : ws !! i = Some w →
  wds a ws ⊢ word (a + 8 * Z.of_nat i) w ∗ (∀ w', word (a + 8 * Z.of_nat i) w' -∗ wds a (<[i := w']> ws)).
Proof. intros H. unfold wds. by apply (big_sepL_insert_acc (λ i w, word (a + 8 * Z.of_nat i) w)). Qed.
Lemma words_cons a w ws : wds a (w :: ws) ⊣⊢ word a w ∗ wds (a + 8) ws.
Proof.
  unfold wds. rewrite big_sepL_cons. replace (a + 8 * Z.of_nat 0) with a by lia. f_equiv.
  apply big_sepL_proper. intros i x _. apply word_eq. lia.
Qed.
Lemma words_app a ws1 ws2 : wds a (ws1 ++ ws2) ⊣⊢ wds a ws1 ∗ wds (a + 8 * Z.of_nat (length ws1)) ws2.
Proof.
  unfold wds. rewrite big_sepL_app. f_equiv. apply big_sepL_proper. intros i x _. apply word_eq. lia.
Qed.
Lemma words_raw a ws b : b = a + 8 * Z.of_nat (length ws) → wds a ws ⊢ raw a b.
Proof.
  revert a b. induction ws as [|w ws IH]; intros a b ->; simpl.
  - iIntros "_". replace (a + 8 * Z.of_nat 0) with a by lia. iApply raw_empty.
  - rewrite words_cons. iIntros "[W R]". iApply (words_raw1 with "W"); [lia|]. iApply (IH with "R"). lia.
Qed.
Lemma raw_words n : ∀ a b, b = a + 8 * Z.of_nat n → raw a b ⊢ ∃ ws, ⌜length ws = n⌝ ∗ wds a ws.
Proof.
  induction n as [|n IH]; intros a b ->.
  - iIntros "_". iExists []. iSplit; [done|]. unfold wds. by rewrite big_sepL_nil.
  - iIntros "R". iDestruct (raw_words1 with "R") as "[[%w W] R]"; [lia|].
    iDestruct (IH with "R") as (ws Hl) "R"; [lia|]. iExists (w :: ws). rewrite words_cons. iFrame.
    iPureIntro. simpl. by rewrite Hl.
Qed.

(** The contents of the slot of a key, as a value and as a child slot. *)
Definition vword (M : vlmap) (k : bytes) : Z :=
  match M !! k with Some (v, o) => venc v o | None => 0 end.
Definition sword (M : vlmap) (N : ndmap) (k : bytes) : Z :=
  match N !! k with Some (_, o) => o | None => vword M k end.
Definition lastc (p : bytes) : Z := default 0 (last p).
Definition chars (r : Z * Z) : list Z := seqZ r.1 (r.2 - r.1 + 1).
Definition node_at (M : vlmap) (N : ndmap) (p : bytes) (x : nd) : hPropI :=
  let '(r, o) := x in
  (pts o [r.1] ∗ pts (o + 1) [r.2] ∗ pts (o + 2) [lastc p] ∗ raw (o + 3) (o + 8) ∗
   word (o + 8) (vword M p) ∗ wds (o + 16) (map (λ c, sword M N (p ++ [c])) (chars r)))%I.
Definition tnodes (M : vlmap) (N : ndmap) : hPropI := ([∗ map] p ↦ x ∈ N, node_at M N p x)%I.
Definition vblock (v : pval) (o : Z) : hPropI :=
  match val_sizes v with
  | [] => emp
  | _ => match v with
         | PStr s => pts o s
         | PInt z => word o (u64 z)
         | PDouble b => word o b
         | _ => emp
         end
  end%I.
Definition tvals (M : vlmap) : hPropI := ([∗ map] x ∈ M, vblock x.1 x.2)%I.
Definition nblocks (N : ndmap) : blocks :=
  map (λ x : bytes * nd, (x.2.2, node_bytes x.2.1)) (map_to_list (delete [] N)).
Definition vblk (v : pval) (o : Z) : blocks := map (λ n, (o, n)) (val_sizes v).
Definition vblocks (M : vlmap) : blocks := concat (map (λ x : bytes * vl, vblk x.2.1 x.2.2) (map_to_list M)).
Definition tblocks (b : Z) (M : vlmap) (N : ndmap) : blocks := (b, 2080) :: nblocks N ++ vblocks M.

Record tok (b : Z) (M : vlmap) (N : ndmap) : Prop := TOk {
  tk_wf : t_wf M (rng N);
  tk_root : N !! [] = Some (0, 255, b + 16);
  tk_off : ∀ p r o, N !! p = Some (r, o) → o mod 8 = 0 ∧ 0 < o <= 2 ^ 62;
  tk_val : ∀ k v o, M !! k = Some (v, o) → sval_ok v ∧ blk_off_ok v o
}.
(** The error of the node count. *)
Class NodeErr := node_err : Z.
Definition tinv `{NodeErr} (b : Z) (M : vlmap) (N : ndmap) (x : Z) : hPropI :=
  (⌜tok b M N⌝ ∗ word b (u64 (Z.of_nat (size M) + x)) ∗ word (b + 8) (u64 (Z.of_nat (size N) + node_err)) ∗
   tnodes M N ∗ tvals M)%I.
Definition t_rep (b : Z) (t : ptree) (B : blocks) : hPropI :=
  (∃ M N, ⌜t_map t = vls M ∧ t_nodes t = rng N ∧ B ≡ₚ tblocks b M N⌝ ∗ tinv (H:=t_nerr t) b M N (t_extra t))%I.

(** ** Blocks *)
Lemma nblocks_insert N p x : p ≠ [] → N !! p = None →
  nblocks (<[p := x]> N) ≡ₚ (x.2, node_bytes x.1) :: nblocks N.
Proof.
  intros Hp HN. unfold nblocks. rewrite delete_insert_ne; [|done].
  rewrite (Permutation_map _ (map_to_list_insert _ _ _ _)); [done|].
  rewrite lookup_delete_ne; done.
Qed.
Lemma nblocks_delete N p x : p ≠ [] → N !! p = Some x →
  nblocks N ≡ₚ (x.2, node_bytes x.1) :: nblocks (delete p N).
Proof.
  intros Hp HN. rewrite -{1}(insert_delete N p x); [|done]. apply nblocks_insert; [done|]. apply lookup_delete.
Qed.
Lemma vblocks_insert M k v o : M !! k = None → vblocks (<[k := (v, o)]> M) ≡ₚ vblk v o ++ vblocks M.
Proof.
  intros HM. unfold vblocks. rewrite (Permutation_map _ (map_to_list_insert _ _ _ HM)). done.
Qed.
Lemma vblocks_delete M k v o : M !! k = Some (v, o) → vblocks M ≡ₚ vblk v o ++ vblocks (delete k M).
Proof.
  intros HM. rewrite -{1}(insert_delete M k (v, o)); [|done]. apply vblocks_insert. apply lookup_delete.
Qed.

(** ** Access *)
Lemma wp_load8 {RR : Rep} {A} a b (k : Z → prog A) Φ Ψ :
  pts a [b] -∗ (pts a [b] -∗ wp (k b) Φ Ψ) -∗ wp (x <- load8 a ;; k x) Φ Ψ.
Proof.
  iIntros "P W". iDestruct (pts_bytes_ok with "P") as %Hb. change (x <- load8 a ;; k x) with (Op (ELoad 1 a) k).
  iApply (wpc_load _ _ _ [b]); [done|done|]. iSplit; [done|]. iFrame "P".
  replace (le_val [b]) with b; [done|]. simpl. lia.
Qed.
Lemma wp_store8 {RR : Rep} {A} a b (k : unit → prog A) Φ Ψ : is_byte b →
  raw a (a + 1) -∗ (pts a [b] -∗ wp (k tt) Φ Ψ) -∗ wp (x <- store8 a b ;; k x) Φ Ψ.
Proof.
  iIntros (Hb) "(%cs & %Hl & P) W". change (x <- store8 a b ;; k x) with (Op (EStore 1 a b) (λ _, k tt)).
  iApply (wpc_store _ _ _ cs); [lia|done|]. iSplit; [done|]. iFrame "P".
  assert (le_bytes 1 b = [b]) as ->; [|done]. unfold is_byte in Hb. simpl. f_equal. apply Z.mod_small. lia.
Qed.

Lemma node_at_ext M N M' N' p x : vword M p = vword M' p →
  (∀ c, in_range x.1 c → sword M N (p ++ [c]) = sword M' N' (p ++ [c])) →
  node_at M N p x ⊣⊢ node_at M' N' p x.
Proof.
  intros H1 H2. destruct x as [r o]. unfold node_at. rewrite H1. do 6 f_equiv.
  unfold wds. apply big_sepL_proper'; [|done] || idtac.
  assert (map (λ c, sword M N (p ++ [c])) (chars r) = map (λ c, sword M' N' (p ++ [c])) (chars r)) as ->; [|done].
  apply map_ext_in. intros c Hc%elem_of_list_In. apply H2. unfold chars in Hc. apply elem_of_seqZ in Hc.
  unfold in_range. simpl. lia.
Qed.

Lemma node_acc M N p x : N !! p = Some x →
  tnodes M N ⊢ node_at M N p x ∗ (node_at M N p x -∗ tnodes M N).
Proof. intros H. unfold tnodes. by apply big_sepM_lookup_acc. Qed.

Lemma chars_lookup (r : Z * Z) c : in_range r c → chars r !! Z.to_nat (c - r.1) = Some c.
Proof.
  intros H. unfold in_range in H. unfold chars. apply lookup_seqZ. lia.
Qed.
Lemma slot_map_insert (f : Z → Z) (r : Z * Z) c w : in_range r c →
  <[Z.to_nat (c - r.1) := w]> (map f (chars r)) = map (λ d, if decide (d = c) then w else f d) (chars r).
Proof.
  intros H. pose proof H as H'. unfold in_range in H'. apply list_eq. intros i. destruct (decide (i = Z.to_nat (c - r.1))) as [->|Hi].
  - rewrite list_lookup_insert; [|rewrite map_length; unfold chars; rewrite seqZ_length; lia].
    rewrite list_lookup_fmap chars_lookup //. simpl. by rewrite decide_True.
  - rewrite list_lookup_insert_ne; [|done]. rewrite (list_lookup_fmap f (chars r)) (list_lookup_fmap (λ d, if decide (d = c) then w else f d) (chars r)).
    destruct (chars r !! i) as [d|] eqn:E; [|done]. unfold chars in E. apply lookup_seqZ in E.
    simpl. rewrite decide_False; [done|]. lia.
Qed.
Lemma slot_word_acc M N p (r : Z * Z) o c : in_range r c →
  wds (o + 16) (map (λ c, sword M N (p ++ [c])) (chars r)) ⊢
  word (o + 16 + 8 * (c - r.1)) (sword M N (p ++ [c])) ∗
  (∀ w, word (o + 16 + 8 * (c - r.1)) w -∗
     wds (o + 16) (map (λ d, if decide (d = c) then w else sword M N (p ++ [d])) (chars r))).
Proof.
  intros H. iIntros "W".
  iDestruct (words_acc _ _ (Z.to_nat (c - r.1)) with "W") as "[W R]".
  { rewrite list_lookup_fmap chars_lookup //. }
  replace (8 * Z.of_nat (Z.to_nat (c - r.1))) with (8 * (c - r.1)) by (unfold in_range in H; lia). iFrame "W".
  iIntros (w) "W". iSpecialize ("R" with "W"). rewrite -(slot_map_insert (λ c, sword M N (p ++ [c]))); done.
Qed.

Definition has_place (N : ndmap) (k : bytes) : Prop :=
  is_Some (N !! k) ∨ ∃ p c r o, k = p ++ [c] ∧ N !! p = Some (r, o) ∧ in_range r c.
Definition place (N : ndmap) (k : bytes) : Z :=
  match N !! k with
  | Some (_, o) => o + 8
  | None => match N !! removelast k with Some (r, o) => o + 16 + 8 * (lastc k - r.1) | None => 0 end
  end.
Lemma removelast_snoc {A} (p : list A) c : removelast (p ++ [c]) = p.
Proof. rewrite removelast_app //= app_nil_r //. Qed.
Lemma lastc_snoc p c : lastc (p ++ [c]) = c.
Proof. unfold lastc. by rewrite last_snoc. Qed.
Lemma place_child N p c r o : N !! (p ++ [c]) = None → N !! p = Some (r, o) →
  place N (p ++ [c]) = o + 16 + 8 * (c - r.1).
Proof. intros H1 H2. unfold place. by rewrite H1 removelast_snoc H2 lastc_snoc. Qed.
Lemma place_node N k r o : N !! k = Some (r, o) → place N k = o + 8.
Proof. intros H. unfold place. by rewrite H. Qed.

Lemma snoc_ne (p q : bytes) c : p = q → p ++ [c] ≠ q.
Proof. intros -> H. apply (f_equal length) in H. rewrite app_length /= in H. lia. Qed.
Lemma ne_snoc (p : bytes) c : p ≠ p ++ [c].
Proof. intros H. symmetry in H. revert H. by apply snoc_ne. Qed.
Lemma snoc_inj (p q : bytes) c d : p ++ [c] = q ++ [d] → p = q ∧ c = d.
Proof. intros H. by apply app_inj_2 in H as [? [= ?]]. Qed.

Lemma place_acc M N k : has_place N k →
  tnodes M N ⊢ word (place N k) (vword M k) ∗
    (∀ M', ⌜∀ k', k' ≠ k → vword M' k' = vword M k'⌝ -∗ word (place N k) (vword M' k) -∗ tnodes M' N).
Proof.
  intros Hp. destruct (N !! k) as [[r o]|] eqn:E.
  - rewrite (place_node _ _ _ _ E). unfold tnodes at 1. rewrite (big_sepM_delete _ _ k); [|exact E].
    iIntros "[(P1 & P2 & P3 & R & W & Ws) T]". iFrame "W". iIntros (M' HM) "W".
    unfold tnodes. rewrite (big_sepM_delete _ N k); [|exact E]. iSplitR "T".
    + iApply (node_at_ext M' N M' N); [done|done|]. iFrame.
      iAssert (node_at M N k (r, o) -∗ True)%I as "_"; [by iIntros|].
      assert (map (λ c, sword M N (k ++ [c])) (chars r) = map (λ c, sword M' N (k ++ [c])) (chars r)) as ->; [|done].
      apply map_ext. intros c. unfold sword. rewrite HM; [done|]. by apply snoc_ne.
    + iApply (big_sepM_mono with "T"). intros q [r' o'] Hq. simpl.
      apply lookup_delete_Some in Hq as [Hne Hq]. change (node_at M N q (r', o') ⊢ node_at M' N q (r', o')).
      rewrite (node_at_ext M N M' N); [done|by rewrite HM|]. intros c _. unfold sword.
      destruct (N !! (q ++ [c])) as [[? ?]|] eqn:E'; [done|]. rewrite HM; [done|]. congruence.
  - destruct Hp as [[? ?]|(p & c & r & o & -> & Hpn & Hc)]; [congruence|].
    rewrite (place_child _ _ _ _ _ E Hpn). unfold tnodes at 1. rewrite (big_sepM_delete _ _ p); [|exact Hpn].
    iIntros "[(P1 & P2 & P3 & R & W & Ws) T]".
    iDestruct (slot_word_acc _ _ _ _ _ _ Hc with "Ws") as "[Wc Ws]".
    assert (sword M N (p ++ [c]) = vword M (p ++ [c])) as -> by (unfold sword; by rewrite E).
    iFrame "Wc". iIntros (M' HM) "Wc". iSpecialize ("Ws" with "Wc").
    unfold tnodes. rewrite (big_sepM_delete _ N p); [|exact Hpn]. iSplitR "T".
    + unfold node_at. iFrame. rewrite (HM p); [|apply ne_snoc]. iFrame.
      assert (map (λ d, if decide (d = c) then vword M' (p ++ [c]) else sword M N (p ++ [d])) (chars r) =
              map (λ c, sword M' N (p ++ [c])) (chars r)) as ->; [|done].
      apply map_ext. intros d. destruct (decide (d = c)) as [->|Hd].
      * unfold sword. by rewrite E.
      * unfold sword. rewrite HM; [done|]. intros Hx. by apply snoc_inj in Hx as [_ ?].
    + iApply (big_sepM_mono with "T"). intros q [r' o'] Hq. simpl.
      apply lookup_delete_Some in Hq as [Hne Hq]. change (node_at M N q (r', o') ⊢ node_at M' N q (r', o')).
      rewrite (node_at_ext M N M' N); [done| |].
      * symmetry. apply HM. intros ->. congruence.
      * intros d _. unfold sword. rewrite HM; [done|]. intros Hx. apply snoc_inj in Hx as [-> _]. done.
Qed.

Lemma vword_pos b M N k : tok b M N → vword M k = 0 ↔ M !! k = None.
Proof.
  intros HT. unfold vword. destruct (M !! k) as [[v o]|] eqn:E; [|done].
  destruct (tk_val _ _ _ HT _ _ _ E) as [Hv Ho]. destruct (venc_facts v o Hv Ho) as (_ & _ & Hne). split; [|done]. intros; done.
Qed.
Lemma vword_type b M N k : tok b M N → M !! k ≠ None → t_type (vword M k) ≠ 0.
Proof.
  intros HT Hk. unfold vword. destruct (M !! k) as [[v o]|] eqn:E; [|done].
  destruct (tk_val _ _ _ HT _ _ _ E) as [Hv Ho]. destruct (venc_facts v o Hv Ho) as (-> & _ & _).
  pose proof (venc_type_pos v). lia.
Qed.
Lemma tok_key b M N k : tok b M N → is_Some (M !! k) → has_place N k.
Proof.
  intros HT Hk. destruct k as [|c p _] using rev_ind.
  - left. rewrite (tk_root _ _ _ HT). eauto.
  - right. destruct (wf_key _ _ (tk_wf _ _ _ HT) _ _ Hk) as (r & Hr & Hc). apply rng_lookup in Hr as [o Ho].
    exists p, c, r, o. done.
Qed.
