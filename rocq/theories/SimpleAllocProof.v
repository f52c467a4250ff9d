(** * SimpleAllocator: separation-logic specification and proof. *)
From Verif Require Export PoolProof Adequacy SimpleAllocModel SimpleAllocPure.
From iris.proofmode Require Import tactics.
From iris.prelude Require Import options.
Open Scope Z_scope.
Open Scope prog_scope.

(** A list segment of blocks.  [st = true]: the [prev] pointers are right
    (normal operation); [st = false]: they may be anything (after a crash). *)
Fixpoint sa_seg (st : bool) (prev : Z) (L : blocks) (nxt e : Z) : hPropI :=
  match L with
  | [] => emp
  | (b, sz) :: L' =>
      (∃ p, word b p ∗ ⌜st = true → p = prev⌝) ∗
      word (b + 8) (hdo L' nxt) ∗ word (b + 16) sz ∗
      raw (b + 24 + sz) (hdo L' e) ∗ sa_seg st b L' nxt e
  end%I.

Definition sa_core (st : bool) (L : blocks) (m : Z) : hPropI :=
  (word sa_head (hdo L 0) ∗ (∃ t, word sa_tail t ∗ ⌜st = true → t = lasto L 0⌝) ∗
   raw 320 (hdo L m) ∗ sa_seg st 0 L 0 m)%I.

Definition sa_rest (bo ba bc : Z) : hPropI :=
  ((∃ i, word sa_initialized i ∗ ⌜i ≠ 0⌝) ∗ word sa_base bo ∗
   word sa_bytes_alloc ba ∗ word sa_bytes_comm bc)%I.

(** The allocator in normal operation, with block list [L], pool size [m]. *)
Definition sa_inv (c : cfg) (L : blocks) (m e bo : Z) : hPropI :=
  (pool_inv c m e ∗ sa_rest bo (sum_alloc L) (320 + sum_comm L) ∗
   sa_core true L m ∗ ⌜layout 320 L m⌝)%I.

(** The allocator as a dying process may leave it. *)
Definition sa_crash (c : cfg) (L : blocks) (bo : Z) : hPropI :=
  (∃ m w e ba bc, pool_gen c m w e ∗ sa_rest bo ba bc ∗
   sa_core false L m ∗ ⌜layout 320 L m⌝)%I.

(** ** Opening the list at a position *)
Lemma sa_seg_app st prev L1 L2 nxt e :
  sa_seg st prev (L1 ++ L2) nxt e ⊣⊢
  sa_seg st prev L1 (hdo L2 nxt) (hdo L2 e) ∗ sa_seg st (lasto L1 prev) L2 nxt e.
Proof.
  revert prev; induction L1 as [|[b sz] L1 IH]; intros prev; simpl.
  - by rewrite left_id.
  - rewrite IH !hdo_app (lasto_cons (b, sz)) /=. iSplit.
    + iIntros "($&$&$&$&$&$)".
    + iIntros "(($&$&$&$&$)&$)".
Qed.
Lemma sa_seg_weaken prev prev' L nxt e : sa_seg true prev L nxt e ⊢ sa_seg false prev' L nxt e.
Proof.
  revert prev prev'; induction L as [|[b sz] L IH]; intros prev prev'; simpl; [done|].
  rewrite (IH b b). iIntros "((%p & ? & _) & $ & $ & $ & $)". iExists p. by iFrame.
Qed.
Lemma sa_core_weaken L m : sa_core true L m ⊢ sa_core false L m.
Proof.
  rewrite /sa_core (sa_seg_weaken 0 0). iIntros "($ & (%t & ? & _) & $ & $)". iExists t. by iFrame.
Qed.

Definition link_next (L1 : blocks) : Z :=
  match last L1 with None => sa_head | Some (p, _) => p + 8 end.
Definition link_prev (L2 : blocks) : Z :=
  match L2 with [] => sa_tail | (b, _) :: _ => b end.
Definition graw (L1 : blocks) : Z :=
  match last L1 with None => 320 | Some (p, sz) => p + 24 + sz end.
Definition sa_left (st : bool) (L1 : blocks) : hPropI :=
  match last L1 with
  | None => emp
  | Some (p, psz) =>
      word sa_head (hdo L1 0) ∗ raw 320 (hdo L1 0) ∗ sa_seg st 0 (removelast L1) p p ∗
      (∃ q, word p q ∗ ⌜st = true → q = lasto (removelast L1) 0⌝) ∗ word (p + 16) psz
  end%I.
Definition sa_right (st : bool) (L2 : blocks) (m : Z) : hPropI :=
  match L2 with
  | [] => emp
  | (b, sz) :: L2' =>
      (∃ t, word sa_tail t ∗ ⌜st = true → t = lasto L2 0⌝) ∗
      word (b + 8) (hdo L2' 0) ∗ word (b + 16) sz ∗
      raw (b + 24 + sz) (hdo L2' m) ∗ sa_seg st b L2' 0 m
  end%I.

Lemma lasto_ne L d d' : L ≠ [] → lasto L d = lasto L d'.
Proof.
  intros H. unfold lasto. destruct (last L) eqn:E; [done|].
  by apply last_None in E.
Qed.
Lemma hdo_ne L d d' : L ≠ [] → hdo L d = hdo L d'.
Proof. by destruct L as [|[]]. Qed.

Lemma sa_open st L1 L2 m :
  sa_core st (L1 ++ L2) m ⊣⊢
  word (link_next L1) (hdo L2 0) ∗
  (∃ p, word (link_prev L2) p ∗ ⌜st = true → p = lasto L1 0⌝) ∗
  raw (graw L1) (hdo L2 m) ∗ sa_left st L1 ∗ sa_right st L2 m.
Proof.
  unfold sa_core. rewrite sa_seg_app !hdo_app lasto_app.
  destruct L1 as [|[p psz] L1' _] using rev_ind.
  - unfold link_next, graw, sa_left. change (lasto [] 0) with 0. simpl.
    destruct L2 as [|[b sz] L2']; simpl.
    + rewrite /lasto /=. iSplit.
      * iIntros "($ & $ & $ & _ & _)". done.
      * iIntros "($ & $ & $ & _)". done.
    + iSplit.
      * iIntros "($ & $ & $ & _ & $ & $ & $ & $ & $)".
      * iIntros "($ & $ & $ & _ & $ & $ & $ & $ & $)".
  - unfold link_next, graw, sa_left. rewrite last_snoc removelast_last.
    rewrite sa_seg_app !hdo_app !lasto_app. simpl sa_seg. simpl hdo.
    change (lasto [(p, psz)] (lasto L1' 0)) with p.
    destruct L2 as [|[b sz] L2'].
    + simpl. rewrite /lasto /=. iSplit.
      * iIntros "(Hh & Ht & Hr & (Hs & Hp & Hn & Hz & Hg & _) & _)". iFrame.
      * iIntros "(Hn & Ht & Hg & (Hh & Hr & Hs & Hp & Hz) & _)". iFrame.
    + rewrite (lasto_ne _ p 0); [|done]. simpl. iSplit.
      * iIntros "(Hh & Ht & Hr & (Hs & Hp & Hn & Hz & Hg & _) & Hbp & Hbn & Hbz & Hbg & Hb)". iFrame.
      * iIntros "(Hn & Hbp & Hg & (Hh & Hr & Hs & Hp & Hz) & Ht & Hbn & Hbz & Hbg & Hb)". iFrame.
Qed.

Lemma sa_open3 st L1 b n L2 m :
  sa_core st (L1 ++ (b, n) :: L2) m ⊣⊢
  word (link_next L1) b ∗
  (∃ p, word b p ∗ ⌜st = true → p = lasto L1 0⌝) ∗
  word (b + 8) (hdo L2 0) ∗ word (b + 16) n ∗ raw (b + 24 + n) (hdo L2 m) ∗
  (∃ p, word (link_prev L2) p ∗ ⌜st = true → p = b⌝) ∗
  raw (graw L1) b ∗ sa_left st L1 ∗ sa_right st L2 m.
Proof.
  rewrite sa_open. simpl.
  rewrite (lasto_cons (b, n)) /=.
  destruct L2 as [|[b' n'] L2]; simpl.
  - rewrite /lasto /=. iSplit.
    + iIntros "($ & $ & $ & $ & Ht & $ & $ & $ & _)". iFrame.
    + iIntros "($ & $ & $ & $ & $ & Ht & $ & $ & _)". iFrame.
  - rewrite !(lasto_cons (b', n')) /=. iSplit.
    + iIntros "($ & $ & $ & $ & $ & $ & $ & $ & $ & $ & $ & $ & $)".
    + iIntros "($ & $ & $ & $ & $ & $ & $ & $ & $ & $ & $ & $ & $)".
Qed.

Lemma sa_left_weaken L1 : sa_left true L1 ⊢ sa_left false L1.
Proof.
  unfold sa_left. destruct (last L1) as [[p psz]|]; [|done].
  rewrite (sa_seg_weaken 0 0). iIntros "($ & $ & $ & (%q & ? & _) & $)". iExists q. by iFrame.
Qed.
Lemma sa_right_weaken L2 m : sa_right true L2 m ⊢ sa_right false L2 m.
Proof.
  unfold sa_right. destruct L2 as [|[b n] L2]; [done|].
  rewrite (sa_seg_weaken b b). iIntros "((%q & ? & _) & $ & $ & $ & $)". iExists q. by iFrame.
Qed.

Lemma sa_inv_crash c L m e bo : sa_inv c L m e bo ⊢ sa_crash c L bo.
Proof.
  iIntros "(Hp & Hr & Hc & %Hl)". iExists m, m, e, _, _. iFrame.
  iSplit; [by iApply sa_core_weaken|done].
Qed.

(** ** Loops and small functions *)
Lemma readonly_scan F : ∀ needed cur coff csize clink,
  readonly (sa_scan F needed cur coff csize clink).
Proof.
  induction F as [|F IH]; intros; simpl; case_bool_decide; simpl; try done.
  intros next sz. apply readonly_bind.
  - case_bool_decide; simpl; done.
  - intros fr. case_bool_decide; apply IH.
Qed.

Lemma wp_sa_scan needed L m : ∀ F prev start cand Φ Ψ,
  (length L <= F)%nat → layout start L m → 320 <= start → m <= 2 ^ 62 →
  word 0 m -∗ sa_seg true prev L 0 m -∗
  (word 0 m -∗ sa_seg true prev L 0 m -∗ Φ (scan_list needed L m cand)) -∗
  wp (sa_scan F needed (hdo L 0) cand.1.1 cand.1.2 cand.2) Φ Ψ.
Proof.
  induction L as [|[b sz] L IH]; intros F prev start cand Φ Ψ HF Hl Hs Hm.
  - iIntros "H0 Hs W". destruct F; cbn [sa_scan hdo scan_list]; (rewrite bool_decide_eq_true_2; [|by left]);
      iApply wp_ret; destruct cand as [[? ?] ?]; by iApply ("W" with "H0 Hs").
  - destruct F as [|F]; [simpl in HF; lia|]. cbn [hdo].
    simpl in Hl. destruct Hl as (Hb & Hb8 & Hsz & Hl). pose proof (r8_spec sz) as [Hr _].
    pose proof (layout_start_le _ _ _ Hl) as Hst. pose proof (layout_hdo_le _ _ _ Hl) as Hst2.
    iIntros "H0 Hs W". cbn [sa_scan scan_list].
    destruct (decide (needed = cand.1.2)) as [Heq|Hne].
    { rewrite (bool_decide_eq_true_2 (b = 0 ∨ _)); [|by right]. rewrite (bool_decide_eq_true_2 (needed = _)); [|done].
      iApply wp_ret. destruct cand as [[? ?] ?]. iApply ("W" with "H0 Hs"). }
    rewrite (bool_decide_eq_false_2 (b = 0 ∨ _)); [|intros [?|?]; [lia|done]].
    rewrite (bool_decide_eq_false_2 (needed = _)); [|done].
    simpl sa_seg. iDestruct "Hs" as "(Hp & Hn & Hz & Hg & Hs)".
    iApply (wp_load64 with "Hn"). iIntros "Hn".
    unfold sa_effective_size. wpn.
    iApply (wp_load64 with "Hz"). iIntros "Hz". wpn.
    rewrite round8_r8; [|lia].
    set (free := hdo L m - (b + 24 + r8 sz)).
    iAssert (word 0 m -∗ (word 0 m -∗
       wp (if bool_decide (needed ≤ free ∧ (cand.1.2 < needed ∨ free < cand.1.2))
           then sa_scan F needed (hdo L 0) (u64 (b + sa_hdr + r8 sz)) free b
           else sa_scan F needed (hdo L 0) cand.1.1 cand.1.2 cand.2) Φ Ψ) -∗
       wp (free0 <- (if bool_decide (hdo L 0 ≠ 0)
                     then Ret (u64 (hdo L 0 - b - r8 sz - sa_hdr))
                     else ps <- pool_size ;; Ret (u64 (ps - b - r8 sz - sa_hdr))) ;;
           (if bool_decide (needed ≤ free0 ∧ (cand.1.2 < needed ∨ free0 < cand.1.2))
            then sa_scan F needed (hdo L 0) (u64 (b + sa_hdr + r8 sz)) free0 b
            else sa_scan F needed (hdo L 0) cand.1.1 cand.1.2 cand.2)) Φ Ψ)%I as "Hfree".
    { iIntros "H0 W". destruct L as [|[b' sz'] L]; simpl hdo.
      - rewrite (bool_decide_eq_false_2 (0 ≠ 0)); [|lia]. wpn.
        iApply (wp_load64 with "H0"). iIntros "H0". wpn.
        rewrite (u64_small (m - b - r8 sz - sa_hdr)); [|unfold sa_hdr; simpl in *; lia].
        replace (m - b - r8 sz - sa_hdr) with free by (unfold free, sa_hdr; simpl; lia).
        by iApply "W".
      - simpl in Hst, Hst2. rewrite (bool_decide_eq_true_2 (b' ≠ 0)); [|lia]. wpn.
        rewrite (u64_small (b' - b - r8 sz - sa_hdr)); [|unfold sa_hdr; lia].
        replace (b' - b - r8 sz - sa_hdr) with free by (unfold free, sa_hdr; simpl; lia).
        by iApply "W". }
    iApply ("Hfree" with "H0"). iIntros "H0".
    rewrite u64_small; [|unfold sa_hdr; lia].
    replace (b + sa_hdr + r8 sz) with (b + 24 + r8 sz) by done.
    case_bool_decide as Hc.
    + iApply (IH F b (b + 24 + r8 sz) (b + 24 + r8 sz, free, b) with "H0 Hs");
        [simpl in HF; lia|done|lia|lia|].
      iIntros "H0 Hs". iApply ("W" with "H0"). iFrame.
    + iApply (IH F b (b + 24 + r8 sz) cand with "H0 Hs"); [simpl in HF; lia|done|lia|lia|].
      iIntros "H0 Hs". iApply ("W" with "H0"). iFrame.
Qed.

Lemma wpc_add64 {A} C a v d (k : unit → prog A) Φ Ψ :
  word a v -∗
  ((∀ v', word a v' -∗ C) ∧ (word a (u64 (v + d)) -∗ wpc C (k tt) Φ Ψ)) -∗
  wpc C (x <- add64 a d ;; k x) Φ Ψ.
Proof.
  iIntros "H W". unfold add64. wpn. iApply wpc_load64. iSplit.
  { iDestruct "W" as "[W _]". by iApply "W". }
  iFrame. iIntros "H". iApply wpc_store64; [apply u64_range|]. iSplit.
  { iDestruct "W" as "[W _]". by iApply "W". }
  iFrame. iIntros "H". iDestruct "W" as "[_ W]". by iApply "W".
Qed.

(** ** Linking a block *)
Lemma lasto_zero s L e : layout s L e → 0 < s → (lasto L 0 = 0 ↔ L = []).
Proof.
  intros Hl Hs. split; [|by intros ->]. destruct L as [|[p psz] L' _] using rev_ind; [done|].
  rewrite /lasto last_snoc. intros ->.
  assert ((0, psz) ∈ L' ++ [(0, psz)]) as Hin by (apply elem_of_app; right; by left).
  eapply layout_in in Hin; [|exact Hl]. lia.
Qed.
Lemma hdo_zero s L e : layout s L e → 0 < s → (hdo L 0 = 0 ↔ L = []).
Proof.
  intros Hl Hs. split; [|by intros ->]. destruct L as [|[p psz] L']; [done|].
  simpl in *. lia.
Qed.
Lemma lasto_tail s L1 L2 e :
  layout s (L1 ++ L2) e → L1 ≠ [] → (lasto L1 0 = lasto (L1 ++ L2) 0 ↔ L2 = []).
Proof.
  intros Hl Hne. split; [|intros ->; by rewrite app_nil_r].
  destruct L1 as [|[p psz] L1 _] using rev_ind; [done|]. clear Hne.
  destruct L2 as [|[q qsz] L2 _] using rev_ind; [done|].
  rewrite !lasto_app /lasto /=. intros ->.
  rewrite app_assoc in Hl.
  assert (length ((L1 ++ [(q, psz)]) ++ L2) = length L1)%nat as Hlen.
  { eapply (layout_inj _ _ _ _ _ (q, qsz) (q, psz) Hl); [| |done].
    - rewrite lookup_app_r; [|done]. by rewrite Nat.sub_diag.
    - rewrite lookup_app_l; [|rewrite !app_length; simpl; lia].
      rewrite lookup_app_l; [|rewrite !app_length; simpl; lia].
      rewrite lookup_app_r; [|done]. by rewrite Nat.sub_diag. }
  rewrite !app_length /= in Hlen. lia.
Qed.

Lemma wpc_sa_link_ptrs {A} C L1 L2 m b p0 q0 (k : unit → prog A) Φ Ψ :
  L1 ++ L2 ≠ [] → layout 320 (L1 ++ L2) m → is_u64 b → m <= 2 ^ 62 →
  word (link_next L1) (hdo L2 0) -∗ word (link_prev L2) (lasto L1 0) -∗
  word b p0 -∗ word (b + 8) q0 -∗ sa_left true L1 -∗ sa_right true L2 m -∗
  ((∀ p q, word (link_next L1) (hdo L2 0) -∗ word (link_prev L2) (lasto L1 0) -∗
      word b p -∗ word (b + 8) q -∗ sa_left true L1 -∗ sa_right true L2 m -∗ C) ∧
   (∀ p, word (link_next L1) b -∗ word (link_prev L2) p -∗
      word b (lasto L1 0) -∗ word (b + 8) (hdo L2 0) -∗ sa_left true L1 -∗ sa_right true L2 m -∗ C) ∧
   (word (link_next L1) b -∗ word (link_prev L2) b -∗
      word b (lasto L1 0) -∗ word (b + 8) (hdo L2 0) -∗ sa_left true L1 -∗ sa_right true L2 m -∗
      wpc C (k tt) Φ Ψ)) -∗
  wpc C (x <- sa_link_ptrs b (lasto L1 0) (lasto (L1 ++ L2) 0) ;; k x) Φ Ψ.
Proof.
  intros Hne Hl Hb Hm. iIntros "Hn Hp Hbp Hbn HL HR W".
  assert (is_u64 (lasto L1 0)) as Hu1.
  { destruct L1 as [|[p psz] L' _] using rev_ind; [done|].
    rewrite /lasto last_snoc.
    assert ((p, psz) ∈ (L' ++ [(p, psz)]) ++ L2) as Hin.
    { apply elem_of_app; left; apply elem_of_app; right; by left. }
    eapply layout_in in Hin; [|exact Hl]. pose proof (r8_spec psz). unfold is_u64. lia. }
  assert (is_u64 (hdo L2 0)) as Hu2.
  { destruct L2 as [|[p psz] L2]; [done|]. simpl.
    assert ((p, psz) ∈ L1 ++ (p, psz) :: L2) as Hin.
    { apply elem_of_app; right. by left. }
    eapply layout_in in Hin; [|exact Hl]. pose proof (r8_spec psz). unfold is_u64. lia. }
  pose proof Hl as Hl'. apply layout_app in Hl' as [Hl1 Hl2].
  unfold sa_link_ptrs. case_bool_decide as Hc1; [|case_bool_decide as Hc2].
  - apply (lasto_zero 320 L1 _ Hl1) in Hc1; [|lia]. subst L1. simpl app in *.
    destruct L2 as [|[b2 sz2] L2]; [done|]. simpl hdo in *. simpl link_prev.
    unfold link_next; simpl. wpn.
    iApply wpc_load64. iSplit.
    { iDestruct "W" as "[W _]". iApply ("W" with "Hn Hp Hbp Hbn HL HR"). }
    iFrame "Hn". iIntros "Hn". wpn.
    iApply wpc_store64; [done|]. iSplit.
    { iDestruct "W" as "[W _]". iApply ("W" with "Hn Hp Hbp Hbn HL HR"). }
    iFrame "Hbn". iIntros "Hbn". wpn.
    iApply wpc_store64; [done|]. iSplit.
    { iDestruct "W" as "[W _]". iApply ("W" with "Hn Hp Hbp Hbn HL HR"). }
    iFrame "Hbp". iIntros "Hbp". wpn.
    iApply wpc_store64; [done|]. iSplit.
    { iDestruct "W" as "[W _]". iApply ("W" with "Hn Hp Hbp Hbn HL HR"). }
    iFrame "Hn". iIntros "Hn". wpn.
    iApply wpc_load64. iSplit.
    { iDestruct "W" as "[_ [W _]]". iApply ("W" with "Hn Hp Hbp Hbn HL HR"). }
    iFrame "Hbn". iIntros "Hbn". wpn.
    iApply wpc_store64; [done|]. iSplit.
    { iDestruct "W" as "[_ [W _]]". iApply ("W" with "Hn Hp Hbp Hbn HL HR"). }
    iFrame "Hp". iIntros "Hp".
    iDestruct "W" as "[_ [_ W]]". iApply ("W" with "Hn Hp Hbp Hbn HL HR").
  - assert (L1 ≠ []) as HL1 by (intros ->; done).
    apply (lasto_tail 320) with (e := m) in Hc2; [|done|done]. subst L2.
    destruct L1 as [|[p psz] L1 _] using rev_ind; [done|].
    unfold link_next. rewrite last_snoc. simpl link_prev. simpl hdo.
    rewrite /lasto last_snoc. rewrite /lasto last_snoc in Hu1. wpn.
    iApply wpc_store64; [done|]. iSplit.
    { iDestruct "W" as "[W _]". iApply ("W" with "Hn Hp Hbp Hbn HL HR"). }
    iFrame "Hbn". iIntros "Hbn". wpn.
    iApply wpc_load64. iSplit.
    { iDestruct "W" as "[W _]". iApply ("W" with "Hn Hp Hbp Hbn HL HR"). }
    iFrame "Hp". iIntros "Hp". wpn.
    iApply wpc_store64; [done|]. iSplit.
    { iDestruct "W" as "[W _]". iApply ("W" with "Hn Hp Hbp Hbn HL HR"). }
    iFrame "Hbp". iIntros "Hbp". wpn.
    iApply wpc_load64. iSplit.
    { iDestruct "W" as "[W _]". iApply ("W" with "Hn Hp Hbp Hbn HL HR"). }
    iFrame "Hbp". iIntros "Hbp". wpn.
    iApply wpc_store64; [done|]. iSplit.
    { iDestruct "W" as "[W _]". iApply ("W" with "Hn Hp Hbp Hbn HL HR"). }
    iFrame "Hn". iIntros "Hn". wpn.
    iApply wpc_store64; [done|]. iSplit.
    { iDestruct "W" as "[_ [W _]]". iApply ("W" with "Hn Hp Hbp Hbn HL HR"). }
    iFrame "Hp". iIntros "Hp".
    iDestruct "W" as "[_ [_ W]]". iApply ("W" with "Hn Hp Hbp Hbn HL HR").
  - assert (L1 ≠ []) as HL1 by (intros ->; done).
    assert (L2 ≠ []) as HL2 by (intros ->; rewrite app_nil_r in Hc2; done).
    destruct L1 as [|[p psz] L1 _] using rev_ind; [done|].
    destruct L2 as [|[b2 sz2] L2]; [done|].
    unfold link_next. rewrite last_snoc. simpl link_prev. simpl hdo in *.
    rewrite /lasto last_snoc. rewrite /lasto last_snoc in Hu1. wpn.
    iApply wpc_load64. iSplit.
    { iDestruct "W" as "[W _]". iApply ("W" with "Hn Hp Hbp Hbn HL HR"). }
    iFrame "Hn". iIntros "Hn". wpn.
    iApply wpc_store64; [done|]. iSplit.
    { iDestruct "W" as "[W _]". iApply ("W" with "Hn Hp Hbp Hbn HL HR"). }
    iFrame "Hbn". iIntros "Hbn". wpn.
    iApply wpc_store64; [done|]. iSplit.
    { iDestruct "W" as "[W _]". iApply ("W" with "Hn Hp Hbp Hbn HL HR"). }
    iFrame "Hbp". iIntros "Hbp". wpn.
    iApply wpc_store64; [done|]. iSplit.
    { iDestruct "W" as "[W _]". iApply ("W" with "Hn Hp Hbp Hbn HL HR"). }
    iFrame "Hn". iIntros "Hn". wpn.
    iApply wpc_store64; [done|]. iSplit.
    { iDestruct "W" as "[_ [W _]]". iApply ("W" with "Hn Hp Hbp Hbn HL HR"). }
    iFrame "Hp". iIntros "Hp".
    iDestruct "W" as "[_ [_ W]]". iApply ("W" with "Hn Hp Hbp Hbn HL HR").
Qed.

(** The gap after [L1] contains room for a block header at its aligned start. *)
Lemma graw_ende s L1 e : layout s L1 e → s = 320 → graw L1 <= ende L1 320 < graw L1 + 8.
Proof.
  intros Hl ->. unfold graw, ende. destruct L1 as [|[p psz] L1 _] using rev_ind; simpl; [lia|].
  rewrite last_snoc. unfold blk_end; simpl. pose proof (r8_spec psz). lia.
Qed.

Lemma raw_split_3 a b c d : a <= b <= c → c <= d → raw a d ⊣⊢ raw a b ∗ raw b c ∗ raw c d.
Proof. intros ??. rewrite (raw_split a b d); [|lia]. rewrite (raw_split b c d); [|lia]. done. Qed.

Lemma raw_hdr b : raw b (b + 24) ⊣⊢ ∃ p q r, word b p ∗ word (b + 8) q ∗ word (b + 16) r.
Proof.
  rewrite (raw_split_3 b (b + 8) (b + 16) (b + 24)); [|lia|lia]. iSplit.
  - iIntros "(H1 & H2 & H3)".
    iDestruct (raw_word with "H1") as (p) "H1"; [lia|].
    iDestruct (raw_word with "H2") as (q) "H2"; [lia|].
    iDestruct (raw_word with "H3") as (r) "H3"; [lia|]. iExists p, q, r. iFrame.
  - iIntros "(%p & %q & %r & H1 & H2 & H3)".
    iSplitL "H1"; [iApply (word_raw with "H1"); lia|].
    iSplitL "H2"; [iApply (word_raw with "H2"); lia|]. iApply (word_raw with "H3"); lia.
Qed.

Lemma layout_insert L1 L2 b n m :
  layout 320 (L1 ++ L2) m → b = ende L1 320 → 0 <= n → b + 24 + r8 n <= hdo L2 m →
  layout 320 (L1 ++ (b, n) :: L2) m.
Proof.
  intros Hl -> Hn Hfit. apply layout_app in Hl as [Hl1 Hl2]. apply layout_app. split; [done|].
  simpl. split_and!; [lia| |done|].
  - eapply layout_ende_aligned; [exact Hl1|done].
  - destruct L2 as [|[b2 n2] L2]; simpl in *; [lia|]. naive_solver lia.
Qed.

(** Putting the pieces of the opened list back together. *)
Lemma sa_close_old c L1 L2 b n p q r m e bo ba bc :
  layout 320 (L1 ++ L2) m → b = ende L1 320 → 0 <= n → b + 24 + r8 n <= hdo L2 m →
  pool_inv c m e -∗ sa_rest bo ba bc -∗
  word (link_next L1) (hdo L2 0) -∗ word (link_prev L2) (lasto L1 0) -∗
  word b p -∗ word (b + 8) q -∗ word (b + 16) r -∗
  raw (graw L1) b -∗ raw (b + 24) (b + 24 + n) -∗ raw (b + 24 + n) (hdo L2 m) -∗
  sa_left true L1 -∗ sa_right true L2 m -∗ sa_crash c (L1 ++ L2) bo.
Proof.
  intros Hl Hb Hn Hfit. iIntros "Hp Hr Hn Hpv H0 H8 H16 G1 G2 G3 HL HR".
  iExists m, m, e, ba, bc. iFrame "Hp Hr". iSplit; [|done].
  iApply sa_core_weaken. iApply sa_open. iFrame "Hn HL HR". iSplitL "Hpv"; [by iExists _; iFrame|].
  iDestruct (raw_le with "G1") as %?. iDestruct (raw_le with "G3") as %?.
  iApply (raw_split _ b); [lia|]. iFrame "G1".
  iApply (raw_split _ (b + 24)); [lia|]. iSplitL "H0 H8 H16".
  { iApply raw_hdr. iExists p, q, r. iFrame. }
  iApply (raw_split _ (b + 24 + n)); [lia|]. iFrame.
Qed.
Lemma sa_close_new st L1 L2 b n p m :
  (st = true → p = b) →
  word (link_next L1) b -∗ word (link_prev L2) p -∗
  word b (lasto L1 0) -∗ word (b + 8) (hdo L2 0) -∗ word (b + 16) n -∗
  raw (graw L1) b -∗ raw (b + 24 + n) (hdo L2 m) -∗
  sa_left true L1 -∗ sa_right true L2 m -∗ sa_core st (L1 ++ (b, n) :: L2) m.
Proof.
  intros Hp. iIntros "Hn Hpv H0 H8 H16 G1 G3 HL HR".
  iApply sa_open3. iFrame. destruct st; iFrame.
  - iSplitL "H0"; [by iExists _; iFrame|]. by iExists _; iFrame.
  - iSplitL "H0"; [by iExists _; iFrame|]. iSplitL "Hpv"; [by iExists _; iFrame|].
    rewrite sa_left_weaken sa_right_weaken. iFrame.
Qed.

Lemma wpc_sa_load_tail {A} C L1 L2 m (k : Z → prog A) Φ Ψ :
  word (link_prev L2) (lasto L1 0) -∗ sa_right true L2 m -∗
  ((word (link_prev L2) (lasto L1 0) -∗ sa_right true L2 m -∗ C) ∧
   (word (link_prev L2) (lasto L1 0) -∗ sa_right true L2 m -∗
    wpc C (k (lasto (L1 ++ L2) 0)) Φ Ψ)) -∗
  wpc C (x <- load64 sa_tail ;; k x) Φ Ψ.
Proof.
  iIntros "Hp HR W". destruct L2 as [|[b2 n2] L2]; cbn [link_prev].
  - rewrite app_nil_r. iApply wpc_load64. iSplit.
    { iDestruct "W" as "[W _]". iApply ("W" with "Hp HR"). }
    iFrame "Hp". iIntros "Hp". iDestruct "W" as "[_ W]". iApply ("W" with "Hp HR").
  - cbn [sa_right]. rewrite lasto_app (lasto_ne _ (lasto L1 0) 0); [|done].
    iDestruct "HR" as "((%t & Ht & %Et) & HR)". rewrite Et; [|done].
    iApply wpc_load64. iSplit.
    { iDestruct "W" as "[W _]". iApply ("W" with "Hp"). iFrame. iExists _. by iFrame. }
    iFrame "Ht". iIntros "Ht". iDestruct "W" as "[_ W]". iApply ("W" with "Hp"). iFrame. iExists _. by iFrame.
Qed.

Lemma u64_id x : is_u64 x → u64 x = x.
Proof. unfold is_u64. intros. by apply u64_small. Qed.

Lemma wpc_sa_link {A} C c L1 L2 b n m e bo (k : Z → prog A) Φ Ψ :
  L1 ++ L2 ≠ [] → b = ende L1 320 → 0 <= n → b + 24 + r8 n <= hdo L2 m →
  sa_inv c (L1 ++ L2) m e bo -∗
  ((sa_crash c (L1 ++ L2) bo -∗ C) ∧
   (sa_crash c (L1 ++ (b, n) :: L2) bo -∗ raw (b + 24) (b + 24 + n) -∗ C) ∧
   (sa_inv c (L1 ++ (b, n) :: L2) m e bo -∗ raw (b + 24) (b + 24 + n) -∗
    wpc C (k (b + 24)) Φ Ψ)) -∗
  wpc C (x <- sa_link n b (lasto L1 0) ;; k x) Φ Ψ.
Proof.
  intros Hne Hb Hn Hfit. iIntros "(Hpool & Hrest & Hcore & %Hl) W".
  iAssert (⌜size_ok m⌝)%I as %[Hm1 Hm2].
  { iDestruct "Hpool" as "(_ & _ & _ & _ & _ & _ & %Hx)". iPureIntro. tauto. }
  pose proof (layout_insert _ _ _ _ _ Hl Hb Hn Hfit) as Hl'.
  pose proof (layout_in _ _ _ b n Hl' ltac:(apply elem_of_app; right; by left)) as (Hb1 & Hb2 & _ & Hb3).
  pose proof (r8_spec n) as [Hr8 _].
  pose proof Hl as Hla. apply layout_app in Hla as [Hla1 Hla2].
  pose proof (graw_ende _ _ _ Hla1 eq_refl) as Hg. rewrite -Hb in Hg.
  rewrite sa_open. iDestruct "Hcore" as "(Hn & (%pv & Hpv & %Epv) & G & HL & HR)".
  rewrite Epv; [|done]. clear Epv pv.
  iDestruct (raw_split _ b with "G") as "[G1 G]"; [lia|].
  iDestruct (raw_split _ (b + 24) with "G") as "[Gh G]"; [lia|].
  iDestruct (raw_split _ (b + 24 + n) with "G") as "[G2 G3]"; [lia|].
  iDestruct (raw_hdr with "Gh") as (p q r) "(H0 & H8 & H16)".
  unfold sa_link. wpn.
  iApply wpc_store64; [unfold is_u64; lia|]. iSplit.
  { iDestruct "W" as "[W _]". iApply "W". iApply (sa_close_old with "Hpool Hrest Hn Hpv H0 H8 H16 G1 G2 G3 HL HR"); done. }
  iFrame "H16". iIntros "H16". wpn.
  iApply (wpc_sa_load_tail with "Hpv HR"). iSplit.
  { iIntros "Hpv HR". iDestruct "W" as "[W _]". iApply "W". iApply (sa_close_old with "Hpool Hrest Hn Hpv H0 H8 H16 G1 G2 G3 HL HR"); done. }
  iIntros "Hpv HR". wpn.
  iApply (wpc_sa_link_ptrs with "Hn Hpv H0 H8 HL HR"); [done|done|unfold is_u64; lia|lia|].
  iSplit; [|iSplit].
  { iIntros (p' q') "Hn Hpv H0 H8 HL HR". iDestruct "W" as "[W _]". iApply "W".
    iApply (sa_close_old with "Hpool Hrest Hn Hpv H0 H8 H16 G1 G2 G3 HL HR"); done. }
  { iIntros (p') "Hn Hpv H0 H8 HL HR". iDestruct "W" as "[_ [W _]]". iApply ("W" with "[-G2] G2").
    iExists m, m, e, _, _. iFrame "Hpool Hrest". iSplit; [|done].
    iApply (sa_close_new with "Hn Hpv H0 H8 H16 G1 G3 HL HR"). done. }
  iIntros "Hn Hpv H0 H8 HL HR".
  iDestruct (sa_close_new true with "Hn Hpv H0 H8 H16 G1 G3 HL HR") as "Hcore"; [done|].
  assert (∀ ba bc, sa_rest bo ba bc -∗ pool_inv c m e -∗ sa_core true (L1 ++ (b, n) :: L2) m -∗ sa_crash c (L1 ++ (b, n) :: L2) bo) as Cl.
  { iIntros (ba bc) "Hr Hp Hc". iExists m, m, e, ba, bc. iFrame. iSplit; [by iApply sa_core_weaken|done]. }
  iDestruct "Hrest" as "(Hi & Hbo & Hba & Hbc)".
  pose proof (sum_bounds _ _ _ Hl') as [Hsb1 Hsb2].
  rewrite sum_alloc_app sum_comm_app /= in Hsb1. rewrite sum_comm_app /= in Hsb2.
  pose proof (sum_bounds _ _ _ Hl) as [Hsa1 Hsa2].
  rewrite sum_alloc_app sum_comm_app in Hsa1. rewrite sum_comm_app in Hsa2.
  wpn.
  iApply (wpc_add64 with "Hba"). iSplit.
  { iIntros (v) "Hba". iDestruct "W" as "[_ [W _]]". iApply ("W" with "[-G2] G2").
    iApply (Cl with "[Hi Hbo Hba Hbc] Hpool Hcore"). iFrame. }
  iIntros "Hba". wpn. unfold sa_effective_size. wpn.
  iDestruct (sa_open3 with "Hcore") as "(Hn & Hpb & H8 & H16 & G3 & Hpv & G1 & HL & HR)".
  iApply wpc_load64. iSplit.
  { iDestruct "W" as "[_ [W _]]". iApply ("W" with "[-G2] G2").
    iApply (Cl with "[Hi Hbo Hba Hbc] Hpool [-]"); [iFrame|]. iApply sa_open3. iFrame. }
  iFrame "H16". iIntros "H16".
  iAssert (sa_core true (L1 ++ (b, n) :: L2) m) with "[Hn Hpb H8 H16 G3 Hpv G1 HL HR]" as "Hcore".
  { iApply sa_open3. iFrame. }
  wpn. rewrite round8_r8; [|lia].
  iApply (wpc_add64 with "Hbc"). iSplit.
  { iIntros (v) "Hbc". iDestruct "W" as "[_ [W _]]". iApply ("W" with "[-G2] G2").
    iApply (Cl with "[Hi Hbo Hba Hbc] Hpool Hcore"). iFrame. }
  iIntros "Hbc". wpn. unfold sa_hdr.
  rewrite (u64_small (r8 n + 24)); [|lia]. rewrite (u64_small (b + 24)); [|lia].
  iDestruct "W" as "[_ [_ W]]". iApply ("W" with "[-G2] G2").
  iFrame "Hpool Hcore". iSplit; [|done]. iFrame "Hi Hbo".
  rewrite !sum_alloc_app !sum_comm_app /=.
  rewrite (u64_small (_ + n)); [|lia]. rewrite u64_small; [|lia].
  iSplitL "Hba".
  - by replace (sum_alloc L1 + (n + sum_alloc L2)) with (sum_alloc L1 + sum_alloc L2 + n) by lia.
  - by replace (320 + (sum_comm L1 + (r8 n + 24 + sum_comm L2))) with (320 + (sum_comm L1 + sum_comm L2) + (r8 n + 24)) by lia.
Qed.

Lemma sa_inv_pure c L m e bo : sa_inv c L m e bo ⊢ ⌜cfg_ok c ∧ size_ok m ∧ layout 320 L m⌝.
Proof.
  iIntros "((_ & _ & _ & _ & _ & _ & %Hx) & _ & _ & %Hl)". iPureIntro. tauto.
Qed.

(** After growing the mapping from [m] to [m']. *)
Lemma sa_core_grow st L m m' : layout 320 L m →
  sa_core st L m -∗ raw m m' -∗ sa_core st L m'.
Proof.
  intros Hl. iIntros "H R". iDestruct (raw_le with "R") as %Hle.
  rewrite -(app_nil_r L) !sa_open. cbn [hdo sa_right].
  iDestruct "H" as "($ & $ & G & $ & _)".
  iDestruct (raw_le with "G") as %?. iApply (raw_split _ m); [lia|]. iFrame.
Qed.

Lemma sa_inv_grow c L m bo m' e' :
  layout 320 L m →
  pool_inv c m' e' -∗ raw m m' -∗ sa_rest bo (sum_alloc L) (320 + sum_comm L) -∗
  sa_core true L m -∗ sa_inv c L m' e' bo.
Proof.
  intros Hl. iIntros "Hp R Hr Hc". iDestruct (raw_le with "R") as %Hle.
  iFrame "Hp Hr". iSplit; [by iApply (sa_core_grow with "Hc R")|].
  iPureIntro. by eapply layout_weaken_end.
Qed.

(** Reading head and tail. *)
Lemma wpc_sa_load_head {A} C c L m e bo (k : Z → prog A) Φ Ψ :
  sa_inv c L m e bo -∗
  ((sa_crash c L bo -∗ C) ∧ (sa_inv c L m e bo -∗ wpc C (k (hdo L 0)) Φ Ψ)) -∗
  wpc C (x <- load64 sa_head ;; k x) Φ Ψ.
Proof.
  iIntros "(Hp & Hr & (Hh & Ht & Hc) & %Hl) W". iApply wpc_load64. iSplit.
  { iDestruct "W" as "[W _]". iApply "W". iApply (sa_inv_crash _ _ m e). by iFrame. }
  iFrame "Hh". iIntros "Hh". iDestruct "W" as "[_ W]". iApply "W". by iFrame.
Qed.
Lemma wpc_sa_load_tail' {A} C c L m e bo (k : Z → prog A) Φ Ψ :
  sa_inv c L m e bo -∗
  ((sa_crash c L bo -∗ C) ∧ (sa_inv c L m e bo -∗ wpc C (k (lasto L 0)) Φ Ψ)) -∗
  wpc C (x <- load64 sa_tail ;; k x) Φ Ψ.
Proof.
  iIntros "(Hp & Hr & (Hh & (%t & Ht & %Et) & Hc) & %Hl) W". rewrite Et; [|done].
  iApply wpc_load64. iSplit.
  { iDestruct "W" as "[W _]". iApply "W". iApply (sa_inv_crash _ _ m e). iFrame. iSplit; [by iExists _; iFrame|done]. }
  iFrame "Ht". iIntros "Ht". iDestruct "W" as "[_ W]". iApply "W". iFrame. iSplit; [by iExists _; iFrame|done].
Qed.
Lemma wpc_sa_load_size {A} C c L1 b n L2 m e bo (k : Z → prog A) Φ Ψ :
  sa_inv c (L1 ++ (b, n) :: L2) m e bo -∗
  ((sa_crash c (L1 ++ (b, n) :: L2) bo -∗ C) ∧
   (sa_inv c (L1 ++ (b, n) :: L2) m e bo -∗ wpc C (k n) Φ Ψ)) -∗
  wpc C (x <- load64 (b + 16) ;; k x) Φ Ψ.
Proof.
  iIntros "(Hp & Hr & Hc & %Hl) W". rewrite sa_open3.
  iDestruct "Hc" as "(Hn & Hpb & H8 & H16 & Hc)".
  iApply wpc_load64. iSplit.
  { iDestruct "W" as "[W _]". iApply "W". iApply (sa_inv_crash _ _ m e). iFrame. rewrite sa_open3. by iFrame. }
  iFrame "H16". iIntros "H16". iDestruct "W" as "[_ W]". iApply "W". iFrame. rewrite sa_open3. by iFrame.
Qed.

