(** * What the data structures rely on from an allocator, in separation logic. *)
From Verif Require Export AllocModel SimpleGame IdealSpec.
From iris.proofmode Require Import tactics.
From iris.prelude Require Import options.
Open Scope Z_scope.
Open Scope prog_scope.

Definition sum_sz (B : blocks) : Z := foldr (λ x s, x.2 + s) 0 B.

(** Blocks are given as (offset, size), in any order. *)
Definition blocks_ok (B : blocks) (m : Z) : Prop :=
  (∀ o n, (o, n) ∈ B → 320 < o ∧ o mod 8 = 0 ∧ 0 <= n ∧ o + n <= m) ∧
  NoDup (B.*1) ∧ sum_sz B + 8 * Z.of_nat (length B) <= m.

(** The part of the pool that belongs to no one: its size and epoch. *)
Class PoolRep {RR : Rep} := {
  rep_pool : cfg → Z → Z → hPropI;
  rep_pool_size : ∀ c m e, rep_pool c m e ⊢ ⌜size_ok m⌝;
  rep_pool_epoch : ∀ A c m e (k : Z → prog A) Φ Ψ,
    rep_pool c m e -∗ (rep_pool c m e -∗ wp (k e) Φ Ψ) -∗ wp (x <- get_epoch ;; k x) Φ Ψ
}.
Lemma pool_inv_size c m e : pool_inv c m e ⊢ ⌜size_ok m⌝.
Proof. iIntros "(_ & _ & _ & _ & _ & _ & %Hx)". iPureIntro. tauto. Qed.
Lemma pool_inv_epoch A c m e (k : Z → prog A) Φ Ψ :
  pool_inv c m e -∗ (pool_inv c m e -∗ wp (k e) Φ Ψ) -∗ wp (x <- get_epoch ;; k x) Φ Ψ.
Proof.
  iIntros "(Hm & He & Hx) W". iApply wpc_get_epoch. iSplit; [done|]. iFrame "He". iIntros "He".
  iApply "W". iFrame.
Qed.
Global Instance base_pool : PoolRep (RR := base_rep) :=
  {| rep_pool := pool_inv; rep_pool_size := pool_inv_size; rep_pool_epoch := pool_inv_epoch |}.

Record alloc_spec {RR : Rep} {PR : PoolRep} (al : allocator) := AllocSpec {
  (** [as_R B K bo m]: the allocator's part of the pool; live blocks [B], blocks
      [K] that free did not give back, base object [bo], pool size [m] *)
  as_R : blocks → blocks → Z → Z → hPropI;
  as_size_ok : Z → Prop;
  (** what the allocator needs of the limits of the pool *)
  as_cfg : cfg → Prop;
  as_leaky : Z → Prop;
  as_perm : ∀ B B' K bo m, B ≡ₚ B' → as_R B K bo m ⊢ as_R B' K bo m;
  as_facts : ∀ B K bo m, as_R B K bo m ⊢ ⌜blocks_ok (B ++ K) m⌝;
  as_allocate : ∀ c B K bo m e n Φ Ψ, as_size_ok n → as_cfg c →
    rep_pool c m e ∗ as_R B K bo m -∗
    ((∀ o m' e', ⌜m <= m' <= m + room n ∧ (m' = m → e' = e) ∧ (m' = m ∨ grow_allowed c m')⌝ -∗
        rep_pool c m' e' ∗ as_R ((o, n) :: B) K bo m' -∗ raw o (o + n) -∗ Φ o) ∧
     (⌜¬ grow_allowed c (m + room n)⌝ -∗ rep_pool c m e ∗ as_R B K bo m -∗ Ψ RuntimeError)) -∗
    wp (al_allocate al n) Φ Ψ;
  as_free : ∀ c B K bo m e o n Φ Ψ,
    rep_pool c m e ∗ as_R ((o, n) :: B) K bo m -∗ raw o (o + n) -∗
    (∀ K', ⌜K' = K ∨ (as_leaky n ∧ K' = (o, n) :: K)⌝ -∗
       rep_pool c m e ∗ as_R B K' bo m -∗ Φ tt) -∗
    wp (al_free al o) Φ Ψ;
  as_block_size : ∀ c B K bo m e o n Φ Ψ, (o, n) ∈ B →
    rep_pool c m e ∗ as_R B K bo m -∗
    (rep_pool c m e ∗ as_R B K bo m -∗ Φ n) -∗ wp (al_block_size al o) Φ Ψ;
  as_get_base : ∀ c B K bo m e Φ Ψ,
    rep_pool c m e ∗ as_R B K bo m -∗
    (rep_pool c m e ∗ as_R B K bo m -∗ Φ bo) -∗ wp (al_get_base al) Φ Ψ;
  (** the base objects that may be set (all of them; Locked.v restricts them) *)
  as_base_ok : Z → Prop;
  as_set_base : ∀ c B K bo m e v Φ Ψ, is_u64 v → as_base_ok v →
    rep_pool c m e ∗ as_R B K bo m -∗
    (rep_pool c m e ∗ as_R B K v m -∗ Φ tt) -∗ wp (al_set_base al v) Φ Ψ;
  as_bytes_allocated : ∀ c B K bo m e Φ Ψ,
    rep_pool c m e ∗ as_R B K bo m -∗
    (rep_pool c m e ∗ as_R B K bo m -∗ Φ (sum_sz B + sum_sz K)) -∗
    wp (al_bytes_allocated al) Φ Ψ;
  (** the constructor does nothing in an initialized pool *)
  as_construct : ∃ rest, al_construct al =
    (i <- load64 8 ;; if bool_decide (i <> 0) then Ret tt else rest);
  (** [as_odd8]: all offsets returned are 8 modulo 16 *)
  as_odd8 : bool;
  as_align : ∀ B K bo m, as_odd8 = true → as_R B K bo m ⊢ ⌜∀ o n, (o, n) ∈ B → o mod 16 = 8⌝
}.
Global Arguments as_R {_ _ al}. Global Arguments as_size_ok {_ _ al}. Global Arguments as_cfg {_ _ al}. Global Arguments as_leaky {_ _ al}.
Global Arguments as_odd8 {_ _ al}. Global Arguments as_base_ok {_ _ al}.

(** Any base object may be set. *)
Class BaseFree {RR : Rep} {PR : PoolRep} {al} (S : alloc_spec al) : Prop := base_free : ∀ v, as_base_ok S v.

(** The allocator's part of the pool can be read. *)
Class Visible {RR : Rep} {PR : PoolRep} {al} (S : alloc_spec al) : Prop :=
  as_initialized : ∀ B K bo m, as_R S B K bo m ⊢ ∃ i, ⌜i ≠ 0⌝ ∗ word 8 i ∗ True.

(** ** SimpleAllocator *)
Definition shift24 (L : blocks) : blocks := map (λ x, (x.1 + 24, x.2)) L.
Definition sa_RB (B K : blocks) (bo m : Z) : hPropI :=
  (∃ L, ⌜shift24 L ≡ₚ B ++ K⌝ ∗ sa_R false L bo m)%I.

Lemma sum_sz_app B B' : sum_sz (B ++ B') = sum_sz B + sum_sz B'.
Proof. induction B as [|x B IH]; simpl; [done|]. unfold sum_sz in *. simpl. lia. Qed.
Lemma sum_sz_perm B B' : B ≡ₚ B' → sum_sz B = sum_sz B'.
Proof. induction 1; unfold sum_sz in *; simpl; lia. Qed.
Lemma sum_sz_shift L : sum_sz (shift24 L) = sum_alloc L.
Proof. induction L as [|[b n] L IH]; simpl; [done|]. unfold sum_sz in *. simpl in *. lia. Qed.

Lemma shift24_fst L : (shift24 L).*1 = (λ x, x + 24) <$> L.*1.
Proof.
  unfold shift24. change (map ?f L) with (f <$> L). by rewrite -!list_fmap_compose.
Qed.

Lemma layout_len L s m : layout s L m → sum_alloc L + 24 * Z.of_nat (length L) <= m - s.
Proof.
  revert s; induction L as [|[b n] L IH]; intros s; simpl; [lia|]. intros (?&?&?&Hl).
  apply IH in Hl. pose proof (r8_spec n). lia.
Qed.

Lemma blocks_ok_perm B B' m : B ≡ₚ B' → blocks_ok B m → blocks_ok B' m.
Proof.
  intros HP (H1 & H2 & H3). split_and!.
  - intros o n Hin. apply H1. by rewrite HP.
  - by rewrite -HP.
  - by rewrite -(sum_sz_perm _ _ HP) -HP.
Qed.

Lemma layout_blocks_ok L m : layout 320 L m → blocks_ok (shift24 L) m.
Proof.
  intros Hl. split_and!.
  - intros o n [[b n'] [[= -> ->] Hin]]%elem_of_list_fmap. simpl.
    pose proof (layout_in _ _ _ _ _ Hl Hin) as (?&Hm&?&?). pose proof (r8_spec n').
    split_and!; try lia.
    pose proof (Z.div_mod b 8 ltac:(lia)). rewrite (Z.add_mod b 24 8) // Hm //.
  - rewrite shift24_fst. apply NoDup_fmap_2; [intros ??; lia|]. by eapply layout_nodup.
  - rewrite sum_sz_shift. unfold shift24. rewrite map_length.
    pose proof (layout_len _ _ _ Hl). lia.
Qed.

Lemma sa_R_layout L bo m d : sa_R d L bo m ⊢ ⌜layout 320 L m⌝.
Proof. iIntros "(%ba & %bc & _ & _ & _ & %)". done. Qed.

Lemma grow_allowed_mono c x y : x <= y → grow_allowed c y → grow_allowed c x.
Proof. unfold grow_allowed. intros ? [[?|?] ?]; split; first [lia|by left|right; lia]. Qed.

Lemma shift24_in_split L o n R :
  shift24 L ≡ₚ (o, n) :: R → ∃ L1 L2, L = L1 ++ (o - 24, n) :: L2 ∧ shift24 (L1 ++ L2) ≡ₚ R.
Proof.
  intros HP.
  assert ((o, n) ∈ shift24 L) as Hin by (rewrite HP; by left).
  apply elem_of_list_fmap in Hin as [[b n'] [[= -> ->] Hin]]. simpl in *.
  apply elem_of_list_split in Hin as (L1 & L2 & ->). exists L1, L2.
  replace (b + 24 - 24) with b by lia. split; [done|].
  unfold shift24 in *. rewrite !map_app in HP |- *. simpl in HP.
  apply (Permutation_cons_inv (a := (b + 24, n'))). rewrite -HP. by rewrite Permutation_middle.
Qed.

Lemma sa_R_inv1 c L bo m e : pool_inv c m e -∗ sa_R false L bo m -∗ sa_inv c L m e bo.
Proof. rewrite -sa_R_inv. iIntros "$ $". Qed.
Lemma sa_R_inv2 c L bo m e : sa_inv c L m e bo -∗ pool_inv c m e ∗ sa_R false L bo m.
Proof. rewrite -sa_R_inv. iIntros "$". Qed.
Section simple.
  Context (F : nat) (HF : 2 ^ 62 <= Z.of_nat F).
  Let fuel_ok L m : layout 320 L m → m <= 2 ^ 62 → (length L <= F)%nat.
  Proof. intros Hl Hm. pose proof (layout_len _ _ _ Hl).
    assert (0 <= sum_alloc L); [|lia].
    clear -Hl. revert Hl. generalize 320. induction L as [|[b n] L IH]; intros s; simpl; [lia|].
    intros (?&?&?&Hl). apply IH in Hl. lia.
  Qed.

  Program Definition simple_spec : alloc_spec (simple_allocator F) := {|
    as_R := sa_RB; as_size_ok n := 0 <= n <= 2 ^ 62; as_cfg _ := True; as_leaky n := n <= 16; as_odd8 := false; as_base_ok _ := True |}.
  Next Obligation.
    iIntros (B B' K bo m HP) "(%L & %HL & H)". iExists L. iFrame. iPureIntro. by rewrite -HP.
  Qed.
  Next Obligation.
    iIntros (B K bo m) "(%L & %HL & H)". iDestruct (sa_R_layout with "H") as %Hl. iPureIntro.
    eapply blocks_ok_perm; [exact HL|]. by apply layout_blocks_ok.
  Qed.
  Next Obligation.
    iIntros (c B K bo m e n Φ Ψ Hn _) "[Hp (%L & %HL & HR)] W". simpl in *.
    iDestruct (sa_R_layout with "HR") as %Hl.
    iDestruct (sa_R_inv1 with "Hp HR") as "Hinv".
    iDestruct (sa_inv_pure with "Hinv") as %(Hcfg & Hm & _). destruct Hm as [Hm1 Hm2].
    pose proof (r8_spec n) as [Hr8 _].
    pose proof (layout_end _ _ _ Hl) as Hend. pose proof (layout_ende_ge _ _ _ Hl) as Hend'.
    destruct (round_page_spec (ende L 320 + 24 + r8 n)) as [Hrp _]; [lia|].
    iApply bind_ret_r. iApply (wpc_sa_allocate with "Hinv"); [eapply fuel_ok; [exact Hl|lia]|done|].
    iSplit; [auto|]. iSplit; [auto|]. iSplit.
    - iIntros (L1 L2 m' e' [-> Hpl]) "Hinv Hraw". iApply wp_ret.
      iDestruct "W" as "[W _]". iDestruct (sa_R_inv2 with "Hinv") as "[Hp HR]".
      iApply ("W" with "[] [$Hp HR] Hraw").
      { iPureIntro. unfold room. destruct Hpl as [(_ & -> & ->)|(_ & _ & -> & Hlt & Hgr)]; (split; [lia|split]); first [done|by left|by right|lia]. }
      iExists _. iFrame "HR". iPureIntro. unfold shift24 in *. rewrite !map_app in HL |- *.
      simpl. rewrite -HL. symmetry. apply Permutation_middle.
    - iIntros ([_ Hg]) "Hinv". iSplit; [done|]. iDestruct "W" as "[_ W]".
      iDestruct (sa_R_inv2 with "Hinv") as "[Hp HR]".
      iApply ("W" with "[] [$Hp HR]"); [|iExists L; by iFrame].
      iPureIntro. intros Hg'. apply Hg. eapply grow_allowed_mono; [|exact Hg']. unfold room. lia.
  Qed.
  Next Obligation.
    iIntros (c B K bo m e o n Φ Ψ) "[Hp (%L & %HL & HR)] Hraw W". simpl in *.
    apply shift24_in_split in HL as (L1 & L2 & -> & HL).
    iDestruct (sa_R_layout with "HR") as %Hl.
    iDestruct (sa_R_inv1 with "Hp HR") as "Hinv".
    pose proof (layout_in _ _ _ (o - 24) n Hl ltac:(apply elem_of_app; right; by left)) as (Hb1 & Hb2 & Hnn & Hb3).
    iApply bind_ret_r. replace o with (o - 24 + 24) at 4 by lia.
    iApply (wpc_sa_free _ c L1 (o - 24) n L2 m e bo (raw o (o + n)) with "Hinv Hraw").
    { by replace (o - 24 + 24) with o by lia. }
    iSplit; [auto|]. iSplit; [auto|]. iSplit.
    - iIntros (Hlt) "Hinv Hraw". iApply wp_ret. iDestruct (sa_R_inv2 with "Hinv") as "[Hp HR]".
      iApply ("W" $! ((o, n) :: K) with "[] [$Hp HR]").
      { iPureIntro. right. split; [|done]. pose proof (r8_spec n) as [? Hmod].
        pose proof (Z.div_mod (r8 n) 8 ltac:(lia)). lia. }
      iExists _. iFrame "HR". simpl. iPureIntro. rewrite -(Permutation_middle B K (o, n)) -HL.
      unfold shift24. rewrite !map_app /=. replace (o - 24 + 24) with o by lia.
      symmetry. apply Permutation_middle.
    - iIntros (Hlt) "Hinv". iApply wp_ret. iDestruct (sa_R_inv2 with "Hinv") as "[Hp HR]".
      iApply ("W" with "[] [$Hp HR]"); [by iLeft|]. iExists _. by iFrame.
  Qed.
  Next Obligation.
    iIntros (c B K bo m e o n Φ Ψ Hin) "[Hp (%L & %HL & HR)] W". simpl in *.
    assert ((o, n) ∈ shift24 L) as Hin' by (rewrite HL; apply elem_of_app; by left).
    apply elem_of_list_fmap in Hin' as [[b n'] [[= -> ->] Hin']]. simpl in *.
    apply elem_of_list_split in Hin' as (L1 & L2 & ->).
    iDestruct (sa_R_inv1 with "Hp HR") as "Hinv".
    iApply bind_ret_r. iApply (wp_sa_block_size with "Hinv"). iIntros "Hinv".
    iDestruct (sa_R_inv2 with "Hinv") as "[Hp HR]". iApply wp_ret. iApply "W". iFrame "Hp".
    iExists _. by iFrame.
  Qed.
  Next Obligation.
    iIntros (c B K bo m e Φ Ψ) "[Hp (%L & %HL & HR)] W".
    iDestruct (sa_R_inv1 with "Hp HR") as "Hinv".
    iApply bind_ret_r. iApply (wp_sa_get_base with "Hinv"). iIntros "Hinv".
    iDestruct (sa_R_inv2 with "Hinv") as "[Hp HR]". iApply wp_ret. iApply "W". iFrame "Hp".
    iExists _. by iFrame.
  Qed.
  Next Obligation.
    iIntros (c B K bo m e v Φ Ψ Hv _) "[Hp (%L & %HL & HR)] W".
    iDestruct (sa_R_inv1 with "Hp HR") as "Hinv".
    iApply bind_ret_r. iApply (wp_sa_set_base with "Hinv"); [done|]. iIntros "Hinv".
    iDestruct (sa_R_inv2 with "Hinv") as "[Hp HR]". iApply wp_ret. iApply "W". iFrame "Hp".
    iExists _. by iFrame.
  Qed.
  Next Obligation.
    iIntros (c B K bo m e Φ Ψ) "[Hp (%L & %HL & HR)] W".
    iDestruct (sa_R_inv1 with "Hp HR") as "Hinv".
    iApply bind_ret_r. iApply (wp_sa_bytes_allocated with "Hinv"). iIntros "Hinv".
    iDestruct (sa_R_inv2 with "Hinv") as "[Hp HR]". iApply wp_ret.
    rewrite -sum_sz_app -(sum_sz_perm _ _ HL) sum_sz_shift. iApply "W". iFrame "Hp".
    iExists _. by iFrame.
  Qed.
  Next Obligation. eexists. reflexivity. Qed.
  Next Obligation. done. Qed.
  Global Instance simple_base_free : BaseFree simple_spec.
  Proof. done. Qed.
  Global Instance simple_visible : Visible simple_spec.
  Proof.
    iIntros (B K bo m) "(%L & %HL & (%ba & %bc & ((%i & Hi & %Hne) & _) & _))". iExists i. by iFrame.
  Qed.
End simple.
