(** * What a crash leaves of the blocks of a SimpleAllocator. *)
From Verif Require Export WPCrash.
From iris.proofmode Require Import tactics.
From iris.prelude Require Import options.
Open Scope Z_scope.
Open Scope prog_scope.

(** The blocks [B] are allocated, and maybe others that are in nobody's use. *)
Definition acr (c : cfg) (B : blocks) (bo : Z) : hPropI :=
  (∃ K L, ⌜shift24 L ≡ₚ B ++ K⌝ ∗ sa_crash c L bo)%I.
Lemma acr_perm c B B' bo : B ≡ₚ B' → acr c B bo ⊢ acr c B' bo.
Proof. iIntros (HP) "(%K & %L & %HL & H)". iExists K, L. iFrame. iPureIntro. by rewrite -HP. Qed.
Lemma acr_leak c B bo o n : acr c ((o, n) :: B) bo ⊢ acr c B bo.
Proof.
  iIntros "(%K & %L & %HL & H)". iExists ((o, n) :: K), L. iFrame.
  iPureIntro. rewrite HL. cbn [app]. apply Permutation_middle.
Qed.

Lemma simple_fuel (F : nat) L m : 2 ^ 62 <= Z.of_nat F → layout 320 L m → m <= 2 ^ 62 → (length L <= F)%nat.
Proof.
  intros HF Hl Hm. pose proof (layout_len _ _ _ Hl).
  assert (0 <= sum_alloc L); [|lia].
  clear -Hl. revert Hl. generalize 320. induction L as [|[b n] L IH]; intros s; simpl; [lia|].
  intros (?&?&?&Hl). apply IH in Hl. lia.
Qed.

Section laws.
  Context (F : nat) (HF : 2 ^ 62 <= Z.of_nat F) (c : cfg).
  Notation al := (simple_allocator F).
  Notation ainv := (ainv (simple_spec F HF) c).

  Lemma ainv_acr B s : ainv B s ⊢ acr c B (s_bo s).
  Proof using.
    iIntros "(_ & Hp & (%L & %HL & HR))". iExists (s_K s), L. iSplit; [done|].
    iApply sa_inv_crash. iApply (sa_R_inv1 with "Hp HR").
  Qed.

  Lemma crash_al_allocate C D B s n : 0 <= n <= 2 ^ 62 → (acr c B (s_bo s) ∗ D ⊢ C) →
    ainv B s -∗ D -∗ crash C (al_allocate al n).
  Proof using.
    iIntros (Hn HC) "(_ & Hp & (%L & %HL & HR)) D". simpl.
    iDestruct (sa_R_layout with "HR") as %Hl.
    iDestruct (sa_R_inv1 with "Hp HR") as "Hinv".
    iDestruct (sa_inv_pure with "Hinv") as %(Hcfg & Hm & _). destruct Hm as [Hm1 Hm2].
    iApply bind_ret_r. iApply (wpc_sa_allocate with "Hinv"); [by eapply simple_fuel; [..|exact Hl|lia]|done|].
    iSplit; [|iSplit; [|iSplit]].
    - iIntros "H". iApply HC. iFrame "D". iExists (s_K s), L. by iFrame.
    - iIntros (L1 L2 ->) "H R". iApply HC. iFrame "D". iExists ((ende L1 320 + 24, n) :: s_K s), _.
      iFrame "H". iPureIntro. rewrite -(Permutation_middle B (s_K s)) -HL. unfold shift24. rewrite !map_app /=.
      symmetry. apply Permutation_middle.
    - iIntros (L1 L2 m' e' [-> _]) "H R". iApply crash_ret. iApply HC. iFrame "D".
      iExists ((ende L1 320 + 24, n) :: s_K s), _. rewrite sa_inv_crash.
      iFrame "H". iPureIntro. rewrite -(Permutation_middle B (s_K s)) -HL. unfold shift24. rewrite !map_app /=.
      symmetry. apply Permutation_middle.
    - iIntros "_ H". iSplit; [|done]. iApply HC. iFrame "D". iExists (s_K s), L. rewrite sa_inv_crash. by iFrame.
  Qed.
  Lemma crash_allocate {A} C D B s n (K : Z → prog A) : 0 <= n <= 2 ^ 62 → (acr c B (s_bo s) ∗ D ⊢ C) →
    ainv B s -∗ D -∗
    (∀ o s', ⌜320 < o ∧ o mod 8 = 0 ∧ o + n <= 2 ^ 62 ∧ s_bo s' = s_bo s⌝ -∗ ainv ((o, n) :: B) s' -∗ raw o (o + n) -∗ D -∗ crash C (K o)) -∗
    crash C (y <- al_allocate al n ;; K y).
  Proof using.
    iIntros (Hn HC) "H D W". iApply crash_seq. iSplit; [by iApply (crash_al_allocate with "H D")|].
    iApply bind_ret_r. iApply (wp_allocate with "H"); [done|]. iSplit; [|auto].
    iIntros (o s' (He & H1 & H2 & H3)) "H R". iApply wp_ret. iApply ("W" with "[] H R D"). iPureIntro.
    destruct He as (_ & ? & _). done.
  Qed.

  Lemma crash_al_free C D B s o n : (acr c B (s_bo s) ∗ D ⊢ C) →
    ainv ((o, n) :: B) s -∗ raw o (o + n) -∗ D -∗ crash C (al_free al o).
  Proof using.
    iIntros (HC) "(_ & Hp & (%L & %HL & HR)) R D". simpl in *. pose proof HL as HL0.
    apply shift24_in_split in HL as (L1 & L2 & -> & HL).
    iDestruct (sa_R_layout with "HR") as %Hl.
    iDestruct (sa_R_inv1 with "Hp HR") as "Hinv".
    iApply bind_ret_r. replace o with (o - 24 + 24) at 4 by lia.
    assert (sa_crash c (L1 ++ (o - 24, n) :: L2) (s_bo s) -∗ raw o (o + n) -∗ D -∗ C) as C1.
    { iIntros "H R D". iApply HC. iFrame "D". iApply acr_leak. iExists (s_K s), _. by iFrame. }
    iApply (wpc_sa_free _ c L1 (o - 24) n L2 _ _ _ (raw o (o + n)) with "Hinv R").
    { by replace (o - 24 + 24) with o by lia. }
    iSplit; [|iSplit; [|iSplit]].
    - iIntros "H R". iApply (C1 with "H R D").
    - iIntros "H". iApply HC. iFrame "D". iExists (s_K s), _. by iFrame.
    - iIntros (_) "H R". iApply crash_ret. rewrite sa_inv_crash. iApply (C1 with "H R D").
    - iIntros (_) "H". iApply crash_ret. rewrite sa_inv_crash. iApply HC. iFrame "D". iExists (s_K s), _. by iFrame.
  Qed.
  Lemma crash_free {A} C D B s o n (K : unit → prog A) : (acr c B (s_bo s) ∗ D ⊢ C) →
    ainv ((o, n) :: B) s -∗ raw o (o + n) -∗ D -∗
    (∀ s', ⌜s_bo s' = s_bo s⌝ -∗ ainv B s' -∗ D -∗ crash C (K tt)) -∗
    crash C (y <- al_free al o ;; K y).
  Proof using.
    iIntros (HC) "H R D W". iApply crash_seq. iSplit; [by iApply (crash_al_free with "H R D")|].
    iApply bind_ret_r. iApply (wp_free with "H R").
    iIntros (s' He) "H". iApply wp_ret. iApply ("W" with "[] H D"). iPureIntro. by destruct He as (_ & ? & _).
  Qed.
End laws.
