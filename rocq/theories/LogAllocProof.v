(** * LogarithmicAllocator: separation-logic specification and proof. *)
From Verif Require Export LogPure StructLib.
From iris.proofmode Require Import tactics.
From iris.prelude Require Import options.
Open Scope Z_scope.
Open Scope prog_scope.

Local Arguments Z.pow : simpl never.
Local Arguments Z.mul : simpl never.
Local Arguments Z.add : simpl never.
Local Arguments fb_order : simpl never.
Local Arguments fb_prev : simpl never.
Local Arguments fb_allocated : simpl never.
Local Arguments bool_decide : simpl never.
Local Arguments u64 : simpl never.
(** ** Free lists *)
Definition hd0 (l : list Z) (z : Z) : Z := match l with [] => z | o :: _ => o end.
Fixpoint last0 (p : Z) (l : list Z) : Z := match l with [] => p | o :: l' => last0 o l' end.
Fixpoint nodes (k p : Z) (l : list Z) (z : Z) : hPropI :=
  match l with
  | [] => emp
  | o :: l' => word o (k * 2 ^ 57 + p) ∗ word (o + 8) (hd0 l' z) ∗ nodes k o l' z
  end%I.
Ltac sl := cbn [last0 hd0 app nodes fst snd].
Definition off_ok (o : Z) : Prop := 0 < o < 2 ^ 57.
Definition flist (k : Z) (l : list Z) : hPropI :=
  (word (la_head k) (hd0 l 0) ∗ word (la_tail k) (last0 0 l) ∗ nodes k 0 l 0 ∗ ⌜Forall off_ok l⌝)%I.

Lemma hd0_app l1 l2 z : hd0 (l1 ++ l2) z = hd0 l1 (hd0 l2 z).
Proof. by destruct l1. Qed.
Lemma last0_app p l1 l2 : last0 p (l1 ++ l2) = last0 (last0 p l1) l2.
Proof. revert p; induction l1 as [|o l1 IH]; intros p; sl; [done|]. apply IH. Qed.
Lemma nodes_app k p l1 l2 z :
  nodes k p (l1 ++ l2) z ⊣⊢ nodes k p l1 (hd0 l2 z) ∗ nodes k (last0 p l1) l2 z.
Proof.
  revert p; induction l1 as [|o l1 IH]; intros p; sl; [by rewrite left_id|].
  rewrite IH hd0_app. iSplit; [iIntros "($&$&$&$)"|iIntros "(($&$&$)&$)"].
Qed.
Lemma last0_ok l : Forall off_ok l → 0 <= last0 0 l < 2 ^ 57.
Proof.
  intros H. assert (∀ p, 0 <= p < 2 ^ 57 → 0 <= last0 p l < 2 ^ 57) as Hx; [|apply Hx; lia].
  induction H as [|o l Ho _ IH]; intros p Hp; sl; [done|]. apply IH. unfold off_ok in Ho. lia.
Qed.
Lemma hdr_u64 k p : 0 <= k < 64 → 0 <= p < 2 ^ 57 → is_u64 (k * 2 ^ 57 + p).
Proof. unfold is_u64. lia. Qed.

(** The two header words of a block. *)
Lemma raw_two o e : o + 16 <= e → raw o e ⊢ (∃ v, word o v) ∗ (∃ v, word (o + 8) v) ∗ raw (o + 16) e.
Proof.
  iIntros (H) "R". iDestruct (raw_words1 with "R") as "[$ R]"; [lia|].
  iDestruct (raw_words1 with "R") as "[$ R]"; [lia|]. by replace (o + 8 + 8) with (o + 16) by lia.
Qed.
Lemma two_raw o e v w : o + 16 <= e → word o v -∗ word (o + 8) w -∗ raw (o + 16) e -∗ raw o e.
Proof.
  iIntros (H) "H1 H2 R". iApply (words_raw1 with "H1"); [lia|]. iApply (words_raw1 with "H2"); [lia|].
  by replace (o + 8 + 8) with (o + 16) by lia.
Qed.

Lemma wp_create_free_block {A} k l o v w (kont : unit → prog A) Φ Ψ :
  4 <= k <= 57 → off_ok o →
  flist k l -∗ word o v -∗ word (o + 8) w -∗ (flist k (l ++ [o]) -∗ wp (kont tt) Φ Ψ) -∗
  wp (x <- la_create_free_block o k ;; kont x) Φ Ψ.
Proof.
  iIntros (Hk Ho) "(Hh & Ht & Hn & %Hl) H1 H2 W". unfold la_create_free_block. wpn.
  pose proof (last0_ok l Hl) as Hlast.
  iApply (wp_load64 with "Ht"). iIntros "Ht". wpn.
  rewrite fb_lor; [|done|lia].
  iApply (wp_store64 with "H1"); [apply hdr_u64; [lia|done]|]. iIntros "H1". wpn.
  iApply (wp_store64 with "H2"); [done|]. iIntros "H2". wpn.
  iApply (wp_load64 with "Ht"). iIntros "Ht".
  assert (is_u64 o) as Hou by (unfold is_u64, off_ok in *; lia).
  destruct l as [|t l _] using rev_ind.
  - cbn [last0 hd0 app nodes]. rewrite (bool_decide_eq_false_2 (0 ≠ 0)); [|tauto]. wpn.
    iApply (wp_store64 with "Hh"); [done|]. iIntros "Hh". wpn.
    iApply (wp_store64 with "Ht"); [done|]. iIntros "Ht". wpn.
    iApply "W". iFrame "Hh Ht". sl. iFrame "H1 H2". iPureIntro. by constructor.
  - rewrite nodes_app last0_app hd0_app. sl. rewrite last0_app in Hlast. simpl in Hlast.
    apply Forall_app in Hl as [Hl Hlt]. inversion Hlt as [|? ? Htok _]; subst.
    rewrite (bool_decide_eq_true_2 (t ≠ 0)); [|unfold off_ok in Htok; lia].
    iDestruct "Hn" as "(Hn & Ht1 & Ht2 & _)". wpn.
    iApply (wp_load64 with "Ht1"). iIntros "Ht1".
    pose proof (last0_ok l Hl). rewrite fb_order_eq; [|done|lia].
    rewrite (bool_decide_eq_false_2 (k ≠ k)); [|tauto]. wpn.
    iApply (wp_store64 with "Ht2"); [done|]. iIntros "Ht2". wpn.
    iApply (wp_store64 with "Ht"); [done|]. iIntros "Ht". wpn.
    iApply "W". unfold flist. rewrite !nodes_app !last0_app !hd0_app. sl. iFrame.
    iPureIntro. rewrite !Forall_app. split; [split; [done|by constructor]|by constructor].
Qed.
Local Opaque la_create_free_block.

Lemma wp_unlink {A} k l1 o l2 (kont : unit → prog A) Φ Ψ :
  4 <= k <= 57 →
  flist k (l1 ++ o :: l2) -∗
  (∀ p v, ⌜0 <= p < 2 ^ 57⌝ -∗ flist k (l1 ++ l2) -∗ word o (k * 2 ^ 57 + p) -∗ word (o + 8) v -∗
     wp (kont tt) Φ Ψ) -∗
  wp (x <- la_unlink o ;; kont x) Φ Ψ.
Proof.
  iIntros (Hk) "(Hh & Ht & Hn & %Hl) W". unfold la_unlink.
  apply Forall_app in Hl as [Hl1 Hl2]. inversion Hl2 as [|? ? Ho Hl2']; subst. clear Hl2.
  rewrite nodes_app. sl. iDestruct "Hn" as "(Hn1 & H1 & H2 & Hn2)".
  pose proof (last0_ok l1 Hl1) as Hp.
  wpn. iApply (wp_load64 with "H1"). iIntros "H1".
  rewrite fb_order_eq; [|done|lia]. wpn.
  iApply (wp_load64 with "H2"). iIntros "H2".
  iAssert (word (o + 8) (hd0 l2 0) -∗ word o (k * 2 ^ 57 + last0 0 l1) -∗
    word (la_head k) (hd0 (l1 ++ o :: l2) 0) -∗ nodes k 0 l1 o -∗
    word (la_tail k) (last0 0 (l1 ++ l2)) -∗ nodes k (last0 0 l1) l2 0 -∗
    wp (w <- load64 o ;; nx <- load64 (o + 8) ;;
        x <- (if bool_decide (fb_prev w <> 0) then store64 (fb_prev w + 8) nx else store64 (la_head k) nx) ;; kont x) Φ Ψ)%I
    with "[W]" as "W".
  { iIntros "H2 H1 Hh Hn1 Ht Hn2". wpn. iApply (wp_load64 with "H1"). iIntros "H1". wpn.
    iApply (wp_load64 with "H2"). iIntros "H2". rewrite fb_prev_eq //.
    assert (is_u64 (hd0 l2 0)) as Hu.
    { destruct l2 as [|y l2]; sl; [done|]. inversion Hl2' as [|? ? Hy _]; subst. unfold is_u64, off_ok in *. lia. }
    destruct l1 as [|t l1 _] using rev_ind.
    - cbn [last0 hd0 app nodes]. rewrite (bool_decide_eq_false_2 (0 ≠ 0)); [|tauto]. wpn.
      iApply (wp_store64 with "Hh"); [done|]. iIntros "Hh". wpn.
      iApply ("W" with "[] [Hh Ht Hn2] H1 H2"); [done|]. iFrame. iPureIntro. done.
    - rewrite !last0_app. sl. apply Forall_app in Hl1 as [Hl1 Hlt]. inversion Hlt as [|? ? Htok _]; subst.
      rewrite (bool_decide_eq_true_2 (t ≠ 0)); [|unfold off_ok in Htok; lia].
      rewrite nodes_app. sl. iDestruct "Hn1" as "(Hn1 & Ht1 & Ht2 & _)". wpn.
      iApply (wp_store64 with "Ht2"); [done|]. iIntros "Ht2". wpn.
      iApply ("W" with "[] [Hh Ht Hn1 Hn2 Ht1 Ht2] H1 H2").
      { iPureIntro. unfold off_ok in Htok. lia. }
      unfold flist. rewrite -!app_assoc. rewrite !nodes_app !hd0_app !last0_app. sl. iFrame.
      iPureIntro. rewrite Forall_app. split; [done|]. by constructor. }
  destruct l2 as [|y l2].
  - cbn [last0 hd0 app nodes]. rewrite (bool_decide_eq_false_2 (0 ≠ 0)); [|tauto]. wpn.
    rewrite fb_prev_eq //. iApply (wp_store64 with "Ht"); [unfold is_u64; lia|]. iIntros "Ht".
    wpn. rewrite app_nil_r. iApply ("W" with "H2 H1 Hh Hn1 Ht"). done.
  - sl. inversion Hl2' as [|? ? Hy Hl2'']; subst.
    rewrite (bool_decide_eq_true_2 (y ≠ 0)); [|unfold off_ok in Hy; lia]. wpn.
    rewrite fb_prev_eq //. rewrite fb_lor; [|done|lia].
    iDestruct "Hn2" as "(Hy1 & Hy2 & Hn2)".
    iApply (wp_store64 with "Hy1"); [apply hdr_u64; [lia|done]|]. iIntros "Hy1". wpn.
    rewrite !last0_app. sl.
    iApply ("W" with "H2 H1 Hh Hn1 Ht"). iFrame.
Qed.
Local Opaque la_unlink.

(** All the lists. *)
Definition flists (fl : Z → list Z) : hPropI := ([∗ list] k ∈ seqZ 4 54, flist k (fl k))%I.
Definition fset (fl : Z → list Z) (k : Z) (l : list Z) (j : Z) : list Z := if decide (j = k) then l else fl j.
Lemma fset_same fl k l : fset fl k l k = l.
Proof. unfold fset. by rewrite decide_True. Qed.
Lemma fset_ne fl k l j : j ≠ k → fset fl k l j = fl j.
Proof. intros. unfold fset. by rewrite decide_False. Qed.
Lemma seqZ_split k : 4 <= k <= 57 → seqZ 4 54 = seqZ 4 (k - 4) ++ k :: seqZ (k + 1) (57 - k).
Proof.
  intros Hk. replace 54 with ((k - 4) + (58 - k)) by lia. rewrite seqZ_app; [|lia|lia]. f_equal.
  rewrite seqZ_cons; [|lia]. f_equal; [lia|]. f_equal; lia.
Qed.
Lemma flists_ext fl fl' : (∀ k, 4 <= k <= 57 → fl k = fl' k) → flists fl ⊢ flists fl'.
Proof.
  intros H. unfold flists. apply big_sepL_mono. intros i k Hi%elem_of_list_lookup_2.
  apply elem_of_seqZ in Hi. rewrite H; [done|lia].
Qed.
Lemma flists_acc fl k : 4 <= k <= 57 →
  flists fl ⊢ flist k (fl k) ∗ ∀ l, flist k l -∗ flists (fset fl k l).
Proof.
  iIntros (Hk) "H". unfold flists. rewrite (seqZ_split k Hk) !big_sepL_app !big_sepL_cons.
  iDestruct "H" as "(H1 & $ & H2)". iIntros (l) "H". rewrite !big_sepL_app !big_sepL_cons fset_same. iFrame "H".
  iSplitL "H1".
  - iApply (big_sepL_mono with "H1"). intros i j Hi%elem_of_list_lookup_2. apply elem_of_seqZ in Hi.
    rewrite fset_ne; [done|lia].
  - iApply (big_sepL_mono with "H2"). intros i j Hi%elem_of_list_lookup_2. apply elem_of_seqZ in Hi.
    rewrite fset_ne; [done|lia].
Qed.
(** Reading only. *)
Lemma flists_acc_ro fl k : 4 <= k <= 57 → flists fl ⊢ flist k (fl k) ∗ (flist k (fl k) -∗ flists fl).
Proof.
  iIntros (Hk) "H". iDestruct (flists_acc _ k Hk with "H") as "[$ H]". iIntros "F".
  iSpecialize ("H" with "F"). iApply (flists_ext with "H"). intros j _. unfold fset. case_decide; congruence.
Qed.

(** ** Blocks *)
Definition tres (t : tile) : hPropI :=
  match t.2 with
  | None => raw (t.1.1 + 16) (t.1.1 + 2 ^ t.1.2)
  | Some n => word t.1.1 (2 ^ 63 + n) ∗ raw (t.1.1 + 8 + n) (t.1.1 + 2 ^ t.1.2)
  end%I.
Definition fl_ok (fl : Z → list Z) (L : list tile) : Prop := ∀ k, 4 <= k <= 57 → fl k ≡ₚ free_of k L.
Definition la_core (L : list tile) (fl : Z → list Z) (m : Z) : hPropI :=
  (flists fl ∗ ([∗ list] t ∈ L, tres t) ∗ ⌜tiles la_start L m ∧ fl_ok fl L⌝)%I.
(** A block [o, o + 2^k) taken out. *)
Definition la_hole (L1 : list tile) (o k : Z) (L2 : list tile) (fl : Z → list Z) (m : Z) : hPropI :=
  (flists fl ∗ ([∗ list] t ∈ L1 ++ L2, tres t) ∗
   ⌜tiles la_start L1 o ∧ tiles (o + 2 ^ k) L2 m ∧ 4 <= k <= 31 ∧ o mod 2 ^ k = 0 ∧ fl_ok fl (L1 ++ L2)⌝)%I.

(** The header of a block. *)
Lemma header_acc L fl t : t ∈ L → tile_ok t → fl_ok fl L →
  flists fl -∗ ([∗ list] t ∈ L, tres t) -∗
  ∃ w, word t.1.1 w ∗
    ⌜match t.2 with None => fb_allocated w = false ∧ fb_order w = t.1.2 | Some _ => fb_allocated w = true end⌝ ∗
    (word t.1.1 w -∗ flists fl ∗ ([∗ list] t ∈ L, tres t)).
Proof.
  iIntros (Hin Hok Hfl) "F T". destruct t as [[o k] a]. destruct Hok as (Hk & Hm & Ha).
  destruct a as [n|]; sl.
  - apply elem_of_list_lookup in Hin as [i Hi].
    iDestruct (big_sepL_lookup_acc with "T") as "[HR T]"; [exact Hi|]. unfold tres at 1. sl. iDestruct "HR" as "[H R]". sl.
    iExists _. iFrame "H". iSplit.
    { iPureIntro. apply ab_allocated. assert (2 ^ k <= 2 ^ 30) by (apply pow_le; lia). lia. }
    iIntros "H". iFrame "F". iApply "T". iFrame.
  - assert (o ∈ fl k) as Hin' by (rewrite Hfl; [by apply free_of_in|lia]).
    iDestruct (flists_acc_ro _ k with "F") as "[(Hh & Ht & Hn & %Hl) F]"; [lia|].
    apply elem_of_list_split in Hin' as (l1 & l2 & Hl12). rewrite Hl12.
    rewrite nodes_app. sl. iDestruct "Hn" as "(Hn1 & H1 & H2 & Hn2)".
    rewrite Hl12 in Hl. pose proof Hl as Hl'. apply Forall_app in Hl' as [Hl1 _]. pose proof (last0_ok _ Hl1).
    iExists _. iFrame "H1". iSplit.
    { iPureIntro. rewrite fb_allocated_eq; [|done|lia]. rewrite fb_order_eq; [done|done|lia]. }
    iIntros "H1". iFrame "T". iApply "F". unfold flist. rewrite nodes_app. sl. iFrame. done.
Qed.

(** Taking a free block out. *)
Lemma fl_ok_remove fl L1 o k L2 l1 l2 : fl_ok fl (L1 ++ (o, k, None) :: L2) → fl k = l1 ++ o :: l2 →
  fl_ok (fset fl k (l1 ++ l2)) (L1 ++ L2).
Proof.
  intros H Hl j Hj. unfold fset. case_decide as Hd.
  - subst j. specialize (H k Hj). rewrite Hl free_of_app free_of_cons_same in H.
    rewrite -!Permutation_middle in H. apply Permutation_cons_inv in H. by rewrite free_of_app.
  - rewrite (H j Hj) !free_of_app free_of_cons_ne //. by left.
Qed.
Lemma fl_ok_add fl L1 o k L2 : fl_ok fl (L1 ++ L2) →
  fl_ok (fset fl k (fl k ++ [o])) (L1 ++ (o, k, None) :: L2).
Proof.
  intros H j Hj. unfold fset. case_decide as Hd.
  - subst j. rewrite (H k Hj) !free_of_app free_of_cons_same -(Permutation_middle _ (free_of k L2)). symmetry. apply Permutation_cons_append.
  - rewrite (H j Hj) !free_of_app free_of_cons_ne //. by left.
Qed.
Lemma fl_ok_used fl L1 o k n L2 : fl_ok fl (L1 ++ L2) ↔ fl_ok fl (L1 ++ (o, k, Some n) :: L2).
Proof.
  assert (∀ j, free_of j (L1 ++ (o, k, Some n) :: L2) = free_of j (L1 ++ L2)) as E.
  { intros j. rewrite !free_of_app free_of_cons_ne //. by right. }
  unfold fl_ok. split; intros H j Hj; specialize (H j Hj); by rewrite ?E in H |- *.
Qed.

Lemma wp_pool_word {A} c m e (kont : Z → prog A) Φ Ψ :
  pool_inv c m e -∗ (pool_inv c m e -∗ wp (kont m) Φ Ψ) -∗ wp (x <- load64 0 ;; kont x) Φ Ψ.
Proof.
  iIntros "(Hm & He & Hx & Hl & Hf & H0 & %Hok) W". iApply (wp_load64 with "H0"). iIntros "H0".
  iApply "W". iFrame. done.
Qed.
Lemma pool_inv_pure c m e : pool_inv c m e ⊢ ⌜cfg_ok c ∧ size_ok m⌝.
Proof. iIntros "(_ & _ & _ & _ & _ & _ & %H)". iPureIntro. tauto. Qed.

Lemma wp_unlink_tile {A} L1 o k L2 fl (kont : unit → prog A) Φ Ψ :
  tile_ok (o, k, None) → fl_ok fl (L1 ++ (o, k, None) :: L2) →
  flists fl -∗ ([∗ list] t ∈ L1 ++ (o, k, None) :: L2, tres t) -∗
  (∀ fl' p v, ⌜fl_ok fl' (L1 ++ L2) ∧ 0 <= p < 2 ^ 57 ∧ (∀ j, j ≠ k → fl' j = fl j) ∧
                (∀ l1 l2, fl k = l1 ++ o :: l2 → o ∉ l1 → fl' k = l1 ++ l2)⌝ -∗ flists fl' -∗
     ([∗ list] t ∈ L1 ++ L2, tres t) -∗
     word o (k * 2 ^ 57 + p) -∗ word (o + 8) v -∗ raw (o + 16) (o + 2 ^ k) -∗ wp (kont tt) Φ Ψ) -∗
  wp (x <- la_unlink o ;; kont x) Φ Ψ.
Proof.
  iIntros (Hok Hfl) "F T W". destruct Hok as (Hk & Hm & _).
  assert (o ∈ fl k) as Hin by (rewrite Hfl; [rewrite free_of_app free_of_cons_same elem_of_app elem_of_cons; tauto|lia]).
  apply elem_of_list_split_l in Hin as (l1 & l2 & Hl & Hno).
  iDestruct (flists_acc _ k with "F") as "[Fk F]"; [lia|]. rewrite Hl.
  iApply (wp_unlink with "Fk"); [lia|]. iIntros (p v Hp) "Fk H1 H2".
  rewrite !big_sepL_app big_sepL_cons. iDestruct "T" as "(T1 & R & T2)".
  iApply ("W" with "[] [F Fk] [T1 T2] H1 H2 R").
  - iPureIntro. split; [by eapply fl_ok_remove|]. split; [done|]. split.
    + intros j Hj. by apply fset_ne.
    + intros l1' l2' Hl' Hno'. rewrite fset_same.
      clear -Hl' Hno Hno'.
      revert l1' Hl' Hno'; induction l1 as [|x l1 IH]; intros [|y l1'] E H; simpl in E.
      * by injection E.
      * injection E as <- _. set_solver.
      * injection E as -> _. set_solver.
      * injection E as -> E. sl. f_equal. apply IH; [set_solver|done|set_solver].
  - by iApply "F".
  - iFrame.
Qed.
Lemma wp_create_tile {A} L1 o k L2 fl v w (kont : unit → prog A) Φ Ψ :
  4 <= k <= 57 → off_ok o → fl_ok fl (L1 ++ L2) →
  flists fl -∗ ([∗ list] t ∈ L1 ++ L2, tres t) -∗ word o v -∗ word (o + 8) w -∗ raw (o + 16) (o + 2 ^ k) -∗
  (∀ fl', ⌜fl' = fset fl k (fl k ++ [o]) ∧ fl_ok fl' (L1 ++ (o, k, None) :: L2)⌝ -∗ flists fl' -∗
     ([∗ list] t ∈ L1 ++ (o, k, None) :: L2, tres t) -∗ wp (kont tt) Φ Ψ) -∗
  wp (x <- la_create_free_block o k ;; kont x) Φ Ψ.
Proof.
  iIntros (Hk Ho Hfl) "F T H1 H2 R W".
  iDestruct (flists_acc _ k with "F") as "[Fk F]"; [lia|].
  iApply (wp_create_free_block with "Fk H1 H2"); [lia|done|]. iIntros "Fk".
  iApply ("W" with "[] [F Fk] [T R]").
  - iPureIntro. split; [done|]. by apply fl_ok_add.
  - by iApply "F".
  - rewrite !big_sepL_app big_sepL_cons. iDestruct "T" as "[$ $]". iFrame.
Qed.

(** ** merge_blocks_at *)
(** Unused memory that has the header of a free block at [b0]. *)
Definition slab (b0 o e : Z) : hPropI :=
  (∃ w, ⌜fb_allocated w = false ∧ o <= b0 ∧ b0 + 8 <= e⌝ ∗ raw o b0 ∗ word b0 w ∗ raw (b0 + 8) e)%I.
Lemma slab_right b0 o e e' : slab b0 o e -∗ raw e e' -∗ slab b0 o e'.
Proof.
  iIntros "(%w & %H & R1 & H1 & R2) R". iDestruct (raw_le with "R") as %?. iExists w. iFrame.
  iSplit; [iPureIntro; lia || (split; [tauto|lia])|]. iApply (raw_split _ e); [lia|]. iFrame.
Qed.
Lemma slab_left b0 o o' e : slab b0 o e -∗ raw o' o -∗ slab b0 o' e.
Proof.
  iIntros "(%w & %H & R1 & H1 & R2) R". iDestruct (raw_le with "R") as %?. iExists w. iFrame.
  iSplit; [iPureIntro; split; [tauto|lia]|]. iApply (raw_split _ o); [lia|]. iFrame.
Qed.

Lemma wp_merge_loop {A} F : ∀ L1 o k L2 fl m c e b0 (kont : Z * Z → prog A) Φ Ψ,
  32 - k <= Z.of_nat F → m <= 2 ^ 56 →
  pool_inv c m e -∗ la_hole L1 o k L2 fl m -∗ slab b0 o (o + 2 ^ k) -∗
  (∀ L1' o' k' L2' fl',
     ⌜used (L1' ++ L2') = used (L1 ++ L2) ∧ committed (L1' ++ L2') = committed (L1 ++ L2) ∧
      (merged (L1 ++ L2) → merged (L1' ++ L2') ∧ (k' < 31 → (buddy o' k', k', None) ∉ L1' ++ L2'))⌝ -∗
     pool_inv c m e -∗ la_hole L1' o' k' L2' fl' m -∗ slab b0 o' (o' + 2 ^ k') -∗ wp (kont (o', k')) Φ Ψ) -∗
  wp (x <- la_merge_loop F o k ;; kont x) Φ Ψ.
Proof.
  induction F as [|F IH]; iIntros (L1 o k L2 fl m c e b0 kont Φ Ψ HF Hm56) "P (FL & T & %H) S W".
  { lia. }
  destruct H as (H1 & H2 & Hk & Hm & Hfl). cbn [la_merge_loop].
  pose proof (tiles_le _ _ _ H1) as Hle1. pose proof (tiles_le _ _ _ H2) as Hle2.
  assert (la_start = 1168) as Hst by reflexivity.
  assert (16 <= 2 ^ k) as H16 by (change 16 with (2 ^ 4); apply pow_le; lia).
  iAssert ((⌜merged (L1 ++ L2) → k < 31 → (buddy o k, k, None) ∉ L1 ++ L2⌝ -∗ pool_inv c m e -∗
    flists fl -∗ ([∗ list] t ∈ L1 ++ L2, tres t) -∗ slab b0 o (o + 2 ^ k) -∗ wp (kont (o, k)) Φ Ψ) ∧ _)%I
    with "[W]" as "W".
  { iSplit; [|iExact "W"]. iIntros "%Hno P FL T S". iApply ("W" $! L1 o k L2 fl with "[] P [FL T] S").
    - iPureIntro. tauto.
    - iFrame. iPureIntro. tauto. }
  destruct (decide (k = 31)) as [->|Hk31].
  - (* the largest order *)
    change (size_for_order 31) with (Ret (A:=Z) (2 ^ 64 - 2 ^ 31)). wpn.
    rewrite buddy31; [|lia|done].
    rewrite (bool_decide_eq_false_2 (_ < la_start)); [|lia]. wpn.
    iApply (wp_pool_word with "P"). iIntros "P".
    rewrite (bool_decide_eq_true_2 (u64 _ > m)).
    2:{ unfold u64. assert (2 ^ 64 - 2 ^ 31 - o + (2 ^ 64 - 2 ^ 31) = (2 ^ 64 - 2 ^ 32 - o) + 1 * 2 ^ 64) as -> by lia.
        rewrite Z.mod_add // Z.mod_small; lia. }
    wpn. iDestruct "W" as "[Stop _]". iApply ("Stop" with "[] P FL T S"). iPureIntro. lia.
  - rewrite size_for_order_ok; [|lia]. wpn. fold (buddy o k).
    pose proof (buddy_spec o k ltac:(lia) Hm) as Hb.
    destruct (bool_decide_reflect (buddy o k < la_start)) as [Hlow|Hlow].
    { wpn. iDestruct "W" as "[Stop _]". iApply ("Stop" with "[] P FL T S"). iPureIntro. intros _ _ Hin.
      apply elem_of_app in Hin as [Hin|Hin].
      - pose proof (tiles_in _ _ _ _ H1 Hin) as (?&?&?). simpl in *. lia.
      - pose proof (tiles_in _ _ _ _ H2 Hin) as (?&?&?). simpl in *. lia. }
    wpn. iApply (wp_pool_word with "P"). iIntros "P".
    rewrite u64_small; [|lia].
    destruct (bool_decide_reflect (buddy o k + 2 ^ k > m)) as [Hhigh|Hhigh].
    { wpn. iDestruct "W" as "[Stop _]". iApply ("Stop" with "[] P FL T S"). iPureIntro. intros _ _ Hin.
      apply elem_of_app in Hin as [Hin|Hin].
      - pose proof (tiles_in _ _ _ _ H1 Hin) as (?&?&?). simpl in *. lia.
      - pose proof (tiles_in _ _ _ _ H2 Hin) as (?&?&?). simpl in *. lia. }
    destruct (buddy_start la_start L1 o k L2 m ltac:(lia) Hm H1 H2 ltac:(lia) ltac:(lia)) as (t & Hin & Ht).
    assert (tile_ok t) as Htok.
    { apply elem_of_app in Hin as [Hin|Hin].
      - by pose proof (tiles_in _ _ _ _ H1 Hin) as (?&?&?).
      - by pose proof (tiles_in _ _ _ _ H2 Hin) as (?&?&?). }
    assert (∀ t', t' ∈ L1 ++ L2 → t'.1.1 = buddy o k → t' = t) as Huniq.
    { intros t' Hin' Ht'.
      rewrite elem_of_app in Hin. rewrite elem_of_app in Hin'. destruct Hin as [Hin|Hin], Hin' as [Hin'|Hin'].
      - eapply tiles_inj; [exact H1|done|done|congruence].
      - pose proof (tiles_in _ _ _ _ H1 Hin) as (?%tile_pos&?&?). pose proof (tiles_in _ _ _ _ H2 Hin') as (?&?&?). lia.
      - pose proof (tiles_in _ _ _ _ H2 Hin) as (?&?&?). pose proof (tiles_in _ _ _ _ H1 Hin') as (?%tile_pos&?&?). lia.
      - eapply tiles_inj; [exact H2|done|done|congruence]. }
    wpn. iDestruct (header_acc _ _ t Hin Htok Hfl with "FL T") as (w) "(Hw & %Hwt & Hcl)".
    rewrite Ht. iApply (wp_load64 with "Hw"). iIntros "Hw".
    iDestruct ("Hcl" with "Hw") as "[FL T]".
    destruct t as [[ot kt] a]. simpl in Ht. subst ot.
    destruct a as [n|]; simpl in Hwt.
    { rewrite Hwt. wpn. iDestruct "W" as "[Stop _]". iApply ("Stop" with "[] P FL T S"). iPureIntro. intros _ _ Hin'.
      apply Huniq in Hin'; done. }
    destruct Hwt as [-> ->].
    destruct (bool_decide_reflect (kt ≠ k)) as [Hkt|Hkt].
    { wpn. iDestruct "W" as "[Stop _]". iApply ("Stop" with "[] P FL T S"). iPureIntro. intros _ _ Hin'.
      apply Huniq in Hin'; [congruence|done]. }
    assert (kt = k) as -> by (destruct (decide (kt = k)); tauto). clear Hkt.
    iDestruct "W" as "[_ W]".
    destruct (buddy_adjacent la_start L1 o k L2 m None ltac:(lia) Hm H1 H2 Hin) as
      [(L2' & -> & Hlt & Hm' & H2')|(L1' & -> & Hlt & Hm' & H1' & He)].
    + wpn. iApply (wp_unlink_tile L1 (buddy o k) k L2' with "FL T"); [done|done|].
      iIntros (fl' p v (Hfl' & Hp & _)) "FL T B1 B2 R".
      rewrite bool_decide_eq_false_2; [|lia].
      iDestruct (two_raw with "B1 B2 R") as "R"; [lia|].
      assert (buddy o k = o + 2 ^ k) as Hbo by (destruct Hb as [Hb|Hb]; lia).
      iApply (IH L1 o (k + 1) L2' fl' m c e b0 with "P [FL T] [S R]"); [lia|done| | |].
      * iFrame. iPureIntro. split_and!; try done; lia.
      * rewrite Hbo. replace (o + 2 ^ k + 2 ^ k) with (o + 2 ^ (k + 1)) by (rewrite pow_succ; lia).
        iApply (slab_right with "S R").
      * iIntros (L1'' o'' k'' L2'' fl'' (Hu & Hc & Hmer)). iApply "W". iPureIntro.
        split; [rewrite Hu !used_app; done|].
        split; [rewrite Hc !committed_app; cbn [committed fst snd]; lia|].
        intros Hmm. apply Hmer. eapply merged_sub; [|exact Hmm]. intros ??. rewrite !elem_of_app elem_of_cons. tauto.
    + wpn. iEval (rewrite -app_assoc) in "T". rewrite -app_assoc in Hfl. sl.
      iApply (wp_unlink_tile L1' (buddy o k) k L2 with "FL T"); [done|done|].
      iIntros (fl' p v (Hfl' & Hp & _)) "FL T B1 B2 R".
      rewrite bool_decide_eq_true_2; [|lia].
      iDestruct (two_raw with "B1 B2 R") as "R"; [lia|].
      assert (buddy o k + 2 ^ k = o) as Hbo by (destruct Hb as [Hb|Hb]; lia).
      iApply (IH L1' (buddy o k) (k + 1) L2 fl' m c e b0 with "P [FL T] [S R]"); [lia|done| | |].
      * iFrame. iPureIntro. split_and!; try done; try lia. by rewrite He.
      * rewrite He Hbo. iApply (slab_left with "S R").
      * iIntros (L1'' o'' k'' L2'' fl'' (Hu & Hc & Hmer)). iApply "W". iPureIntro.
        split; [rewrite Hu !used_app; cbn [used omap list_omap]; simpl; rewrite app_nil_r; done|].
        split; [rewrite Hc !committed_app; cbn [committed fst snd]; lia|].
        intros Hmm. apply Hmer. eapply merged_sub; [|exact Hmm]. intros ??. rewrite !elem_of_app. tauto.
Qed.
Local Opaque la_merge_loop.

(** ** The invariant *)
Definition la_R (L : list tile) (fl : Z → list Z) (bo m : Z) : hPropI :=
  (sa_rest bo (sum_sz (used L)) (la_start + committed L) ∗ la_core L fl m)%I.

Lemma used_mid L1 o k n L2 : used (L1 ++ (o, k, Some n) :: L2) ≡ₚ (o, n) :: used (L1 ++ L2).
Proof. rewrite !used_app. simpl. by rewrite -Permutation_middle. Qed.
Lemma used_free L1 o k L2 : used (L1 ++ (o, k, None) :: L2) = used (L1 ++ L2).
Proof. by rewrite !used_app. Qed.
Lemma committed_mid L1 o k n L2 : committed (L1 ++ (o, k, Some n) :: L2) = 2 ^ k + committed (L1 ++ L2).
Proof. rewrite !committed_app. cbn [committed fst snd]. lia. Qed.
Lemma committed_free L1 o k L2 : committed (L1 ++ (o, k, None) :: L2) = committed (L1 ++ L2).
Proof. rewrite !committed_app. cbn [committed fst snd]. lia. Qed.
Lemma used_bounds s L e : tiles s L e → 0 <= s →
  0 <= sum_sz (used L) ∧ sum_sz (used L) + 8 * Z.of_nat (length (used L)) <= committed L ∧ committed L <= e - s.
Proof.
  revert s; induction L as [|[[o k] a] L IH]; intros s; cbn [tiles]; [unfold sum_sz; simpl; lia|].
  intros (Hs' & Hok & H) Hs. simpl in Hs'. subst o. pose proof (tile_pos _ Hok) as Hp. simpl in Hp.
  apply IH in H as (?&?&?); [|lia]. destruct Hok as (_ & _ & Ha). unfold sum_sz in *.
  destruct a as [n|]; simpl in *; lia.
Qed.
Lemma tiles_mid s L1 o k a L2 e : tiles s (L1 ++ (o, k, a) :: L2) e ↔
  tiles s L1 o ∧ tile_ok (o, k, a) ∧ tiles (o + 2 ^ k) L2 e.
Proof.
  rewrite tiles_app. split.
  - intros (m & H1 & (Hm & Hok & H2)). simpl in *. by subst m.
  - intros (H1 & Hok & H2). exists o. simpl. done.
Qed.

(** ** free *)
Lemma wp_la_free c L1 o k n L2 fl bo m e Φ Ψ :
  m <= 2 ^ 56 →
  pool_inv c m e -∗ la_R (L1 ++ (o, k, Some n) :: L2) fl bo m -∗ raw (o + 8) (o + 8 + n) -∗
  (∀ L' fl' w, ⌜used L' = used (L1 ++ L2) ∧ (merged (L1 ++ (o, k, Some n) :: L2) → merged L') ∧ fb_allocated w = false⌝ -∗
     pool_inv c m e -∗ word o w -∗ (word o w -∗ la_R L' fl' bo m) -∗ Φ tt) -∗
  wp (la_free (o + 8)) Φ Ψ.
Proof.
  iIntros (Hm56) "P (R & FL & T & %H) U W". destruct H as [Ht Hfl].
  pose proof Ht as Ht0. apply tiles_mid in Ht as (H1 & Hok & H2).
  pose proof (used_bounds _ _ _ Ht0 ltac:(by unfold la_start)) as (Hu1 & Hu2 & Hu3).
  destruct Hok as (Hk & Hmod & Hn1 & Hk30 & Hn).
  pose proof (tiles_le _ _ _ H1) as Hle1. pose proof (tiles_le _ _ _ H2) as Hle2.
  assert (la_start = 1168) as Hst by reflexivity.
  assert (2 ^ k <= 2 ^ 30) as Hk2 by (apply pow_le; lia).
  assert (16 <= 2 ^ k) as H16 by (change 16 with (2 ^ 4); apply pow_le; lia).
  rewrite (sum_sz_perm _ _ (used_mid L1 o k n L2)) in Hu1 Hu2 |- *.
  rewrite (Permutation_length (used_mid L1 o k n L2)) in Hu2.
  rewrite committed_mid in Hu2 Hu3 |- *.
  assert (sum_sz ((o, n) :: used (L1 ++ L2)) = n + sum_sz (used (L1 ++ L2))) as Esz by done.
  assert (0 <= sum_sz (used (L1 ++ L2))) as Hu0.
  { rewrite used_app sum_sz_app.
    pose proof (used_bounds _ _ _ H1 ltac:(lia)) as (?&_). pose proof (used_bounds _ _ _ H2 ltac:(lia)) as (?&_). lia. }
  assert (0 <= committed (L1 ++ L2)) as Hc0.
  { rewrite committed_app.
    pose proof (used_bounds _ _ _ H1 ltac:(lia)) as (?&?&_). pose proof (used_bounds _ _ _ H2 ltac:(lia)) as (?&?&_). lia. }
  unfold la_free. wpn. iApply (wp_pool_word with "P"). iIntros "P".
  rewrite bool_decide_eq_false_2; [|unfold la_sizeof_data; lia].
  rewrite (u64_small (o + 8 - 8)); [|lia]. replace (o + 8 - 8) with o by lia.
  rewrite !big_sepL_app big_sepL_cons. iDestruct "T" as "(T1 & [Hh Hs] & T2)". sl.
  wpn. iApply (wp_load64 with "Hh"). iIntros "Hh".
  rewrite ab_allocated; [|lia]. cbn [negb]. rewrite ab_size_eq; [|lia].
  rewrite (u64_small (n + 8)); [|lia]. rewrite (order_for_size_spec (n + 8) k); [|lia|lia].
  rewrite size_for_order_ok; [|lia]. wpn.
  iDestruct "R" as "(Ri & Rb & Ra & Rc)".
  iApply (wpc_add64 with "Ra"). iSplit; [by iIntros|]. iIntros "Ra". wpn.
  iApply (wpc_add64 with "Rc"). iSplit; [by iIntros|]. iIntros "Rc". wpn.
  rewrite Esz. replace (n + sum_sz (used (L1 ++ L2)) + - n) with (sum_sz (used (L1 ++ L2))) by lia.
  rewrite (u64_small (sum_sz _)); [|lia].
  replace (la_start + (2 ^ k + committed (L1 ++ L2)) + - 2 ^ k) with (la_start + committed (L1 ++ L2)) by lia.
  rewrite (u64_small (la_start + _)); [|lia].
  assert (fl_ok fl (L1 ++ L2)) as Hfl' by (by apply fl_ok_used in Hfl).
  iDestruct (raw_split (o + 8) (o + 8 + n) (o + 2 ^ k) with "[U Hs]") as "U"; [lia|iFrame|].
  iDestruct (raw_words1 with "U") as "[[%v Hv] U]"; [lia|]. replace (o + 8 + 8) with (o + 16) by lia.
  iApply (wp_create_tile L1 o k L2 with "FL [T1 T2] Hh Hv U"); [lia|unfold off_ok; lia|done| |].
  { rewrite big_sepL_app. iFrame. }
  iIntros (fl1 (_ & Hfl1)) "FL T". wpn.
  unfold la_merge_blocks_at. wpn.
  iDestruct (header_acc _ _ (o, k, None) with "FL T") as (w) "(Hw & %Hwt & Hcl)"; [rewrite elem_of_app elem_of_cons; tauto|done|done|].
  simpl in Hwt. destruct Hwt as [_ Hwt].
  iApply (wp_load64 with "Hw"). iIntros "Hw". rewrite Hwt. iDestruct ("Hcl" with "Hw") as "[FL T]".
  wpn. iApply (wp_unlink_tile L1 o k L2 with "FL T"); [done|done|].
  iIntros (fl2 p v' (Hfl2 & Hp & _)) "FL T B1 B2 R". wpn.
  iApply (wp_merge_loop 64 L1 o k L2 fl2 m c e o with "P [FL T] [B1 B2 R]"); [lia|done| | |].
  { iFrame. iPureIntro. split_and!; try done; lia. }
  { iExists _. iFrame "B1". iSplit; [iPureIntro; split; [by apply fb_allocated_eq; lia|lia]|].
    iSplitR; [iApply raw_empty|]. iApply (words_raw1 with "B2"); [lia|]. by replace (o + 8 + 8) with (o + 16) by lia. }
  iIntros (L1' o' k' L2' fl' (HU & HC & HM)) "P (FL & T & %H) (%ws & %Hws & S1 & Sw & S2)".
  destruct H as (H1' & H2' & Hk' & Hmod' & Hfl3). cbv beta iota. wpn.
  pose proof (tiles_le _ _ _ H1') as Hle1'. pose proof (tiles_le _ _ _ H2') as Hle2'.
  assert (16 <= 2 ^ k') as H16' by (change 16 with (2 ^ 4); apply pow_le; lia).
  assert (merged (L1 ++ (o, k, Some n) :: L2) → merged (L1' ++ (o', k', None) :: L2')) as Hmerged.
  { intros Hmm. destruct HM as [HM1 HM2].
    { eapply merged_sub; [|exact Hmm]. intros ??. rewrite !elem_of_app elem_of_cons. tauto. }
    apply merged_insert; [lia|done|done|done|].
    destruct (buddy_spec o' k' ltac:(lia) Hmod') as [[_ Hb]|(_ & Hb & _)]; lia. }
  assert (tiles la_start (L1' ++ (o', k', None) :: L2') m) as Htiles.
  { apply tiles_mid. done. }
  assert (used (L1' ++ (o', k', None) :: L2') = used (L1 ++ L2)) as HU'. { rewrite used_free //. }
  assert (committed (L1' ++ (o', k', None) :: L2') = committed (L1 ++ L2)) as HC'. { rewrite committed_free //. }
  destruct (decide (o = o')) as [<-|Hoo].
  - iDestruct (raw_words1 with "S2") as "[[%v2 S2] S3]"; [lia|]. replace (o + 8 + 8) with (o + 16) by lia.
    iApply (wp_create_tile L1' o k' L2' with "FL T Sw S2 S3"); [lia|unfold off_ok; lia|done|].
    iIntros (fl4 (_ & Hfl4)) "FL T". wpn. iApply wp_ret.
    iDestruct (header_acc _ _ (o, k', None) with "FL T") as (w4) "(Hw & %Hwt4 & Hcl)"; [rewrite elem_of_app elem_of_cons; tauto|done|done|].
    simpl in Hwt4. iApply ("W" $! (L1' ++ (o, k', None) :: L2') fl4 w4 with "[] P Hw"); [iPureIntro; tauto|].
    iIntros "Hw". iDestruct ("Hcl" with "Hw") as "[FL T]". unfold la_R. rewrite HU' HC'. iFrame. done.
  - assert (o mod 16 = 0) as Ho16.
    { change 16 with (2 ^ 4). eapply mod_dvd_trans; [|exact Hmod]. lia. }
    assert (o' mod 16 = 0) as Ho16'.
    { change 16 with (2 ^ 4). eapply mod_dvd_trans; [|exact Hmod']. lia. }
    assert (o' + 16 <= o) as Hoo'.
    { destruct Hws as (_ & Hws & _). destruct (decide (o' + 16 <= o)); [done|]. exfalso.
      apply (mult_gap o' o 4); [lia|done|done|change (2 ^ 4) with 16; lia]. }
    iDestruct (raw_two with "S1") as "((%v1 & S0) & (%v2 & S1) & S3)"; [lia|].
    iDestruct (flists_acc _ k' with "FL") as "[Fk FL]"; [lia|].
    iApply (wp_create_free_block with "Fk S0 S1"); [lia|unfold off_ok; lia|]. iIntros "Fk". wpn. iApply wp_ret.
    iApply ("W" $! (L1' ++ (o', k', None) :: L2') (fset fl' k' (fl' k' ++ [o'])) ws with "[] P Sw"); [iPureIntro; tauto|].
    iIntros "Sw". unfold la_R. rewrite HU' HC'. iFrame "Ri Rb Ra Rc".
    iSplitL "FL Fk"; [by iApply "FL"|]. iSplitL; [|iPureIntro; split; [done|by apply fl_ok_add]].
    rewrite !big_sepL_app big_sepL_cons. iDestruct "T" as "[$ $]". unfold tres; sl.
    iApply (raw_split _ o); [lia|]. iFrame "S3". iApply (words_raw1 with "Sw S2"). lia.
Qed.
