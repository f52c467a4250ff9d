(** * Reasoning about data structures over an allocator. *)
From Verif Require Export AllocSpec.
From iris.proofmode Require Import tactics.
From iris.prelude Require Import options.
Open Scope Z_scope.
Open Scope prog_scope.

(** The parts of the allocator state that data structures do not own. *)
Record ast := Ast { s_K : blocks; s_bo : Z; s_m : Z; s_e : Z }.

(** [ext c r P s s']: the pool grew by at most [r], within the limits of [c]; blocks
    were leaked only if [P]; the base object is unchanged. *)
Definition ext (c : cfg) (r : Z) (P : Prop) (s s' : ast) : Prop :=
  s_m s <= s_m s' <= s_m s + r ∧ s_bo s' = s_bo s ∧ (s_m s' = s_m s → s_e s' = s_e s) ∧
  (s_K s' = s_K s ∨ P) ∧ (s_m s' = s_m s ∨ grow_allowed c (s_m s')).
Lemma ext_refl c s : ext c 0 False s s.
Proof. unfold ext. split_and!; first [lia|done|by left]. Qed.
Lemma ext_trans c r1 r2 P1 P2 s1 s2 s3 :
  ext c r1 P1 s1 s2 → ext c r2 P2 s2 s3 → ext c (r1 + r2) (P1 ∨ P2) s1 s3.
Proof.
  intros (Ha&Hb&Hc&Hd&He) (Ha'&Hb'&Hc'&Hd'&He'). split_and!; [lia|lia|congruence| | |].
  - intros ?. rewrite Hc'; [apply Hc; lia|lia].
  - destruct Hd as [Hd|?]; [|right; by left]. destruct Hd' as [Hd'|?]; [|right; by right].
    left. congruence.
  - destruct He' as [He'|?]; [rewrite He'|by right]. done.
Qed.
Lemma ext_weaken c r r' (P P' : Prop) s1 s2 : ext c r P s1 s2 → r <= r' → (P → P') → ext c r' P' s1 s2.
Proof. intros (?&?&?&?&?) ??. split_and!; [lia|lia|done|done|tauto|done]. Qed.

Lemma sum_sz_nonneg B : (∀ o n, (o, n) ∈ B → 0 <= n) → 0 <= sum_sz B.
Proof.
  intros Hn. induction B as [|[o n] B IH]; unfold sum_sz in *; simpl; [lia|].
  pose proof (Hn o n ltac:(by left)).
  assert (0 <= foldr (λ (x : Z * Z) s, x.2 + s) 0 B); [|lia].
  apply IH. intros a b Hin. apply (Hn a b). by right.
Qed.

Section lib.
  Context {RR : Rep} {PR : PoolRep} {al : allocator} (S : alloc_spec al) (c : cfg).

  Definition ainv (B : blocks) (s : ast) : hPropI :=
    (⌜as_cfg S c⌝ ∗ rep_pool c (s_m s) (s_e s) ∗ as_R S B (s_K s) (s_bo s) (s_m s))%I.

  Lemma ainv_perm B B' s : B ≡ₚ B' → ainv B s ⊢ ainv B' s.
  Proof. iIntros (HP) "($ & $ & H)". by iApply (as_perm with "H"). Qed.
  Lemma ainv_facts B s : ainv B s ⊢ ⌜blocks_ok B (s_m s) ∧ size_ok (s_m s)⌝.
  Proof.
    iIntros "(_ & Hp & H)". iDestruct (as_facts with "H") as %(H1 & H2 & H3).
    iDestruct (rep_pool_size with "Hp") as %Hx. iPureIntro. split; [|done].
    split_and!.
    - intros o n Hin. apply H1. apply elem_of_app. by left.
    - rewrite fmap_app in H2. by apply NoDup_app in H2 as [? _].
    - rewrite sum_sz_app app_length in H3.
      assert (0 <= sum_sz (s_K s)); [|lia].
      apply sum_sz_nonneg. intros o n Hin. apply (H1 o n). apply elem_of_app. by right.
  Qed.

  Lemma ainv_align B s : as_odd8 S = true → ainv B s ⊢ ⌜∀ o n, (o, n) ∈ B → o mod 16 = 8⌝.
  Proof. iIntros (Ho) "(_ & _ & H)". by iApply (as_align with "H"). Qed.

  Lemma wp_allocate {A} B s n (k : Z → prog A) Φ Ψ : as_size_ok S n →
    ainv B s -∗
    ((∀ o s', ⌜ext c (room n) False s s' ∧ 320 < o ∧ o mod 8 = 0 ∧ o + n <= 2 ^ 62⌝ -∗
        ainv ((o, n) :: B) s' -∗ raw o (o + n) -∗ wp (k o) Φ Ψ) ∧
     (⌜¬ grow_allowed c (s_m s + room n)⌝ -∗ ainv B s -∗ Ψ RuntimeError)) -∗
    wp (x <- al_allocate al n ;; k x) Φ Ψ.
  Proof.
    iIntros (Hn) "[%Hc H] W". iApply wp_bind. iApply (as_allocate with "H"); [done|done|]. iSplit.
    - iIntros (o m' e' (Hm & He & Hg)) "H R". iDestruct "W" as "[W _]".
      iAssert (ainv ((o, n) :: B) (Ast (s_K s) (s_bo s) m' e')) with "[H]" as "H"; [by iSplit|].
      iDestruct (ainv_facts _ (Ast (s_K s) (s_bo s) m' e') with "H") as %[[Hb _] Hsz].
      iApply ("W" $! o (Ast (s_K s) (s_bo s) m' e') with "[] H R"). iPureIntro.
      destruct (Hb o n ltac:(by left)) as (?&?&?&?). simpl in *. unfold size_ok in *.
      split_and!; [split_and!; simpl; [lia|lia|done|done|by left|tauto]|done|done|lia].
    - iDestruct "W" as "[_ W]". iIntros "%Hg H". iApply "W"; [done|]. by iSplit.
  Qed.
  Lemma wp_free {A} B s o n (k : unit → prog A) Φ Ψ :
    ainv ((o, n) :: B) s -∗ raw o (o + n) -∗
    (∀ s', ⌜ext c 0 (as_leaky S n) s s'⌝ -∗ ainv B s' -∗ wp (k tt) Φ Ψ) -∗
    wp (x <- al_free al o ;; k x) Φ Ψ.
  Proof.
    iIntros "[%Hc H] R W". iApply wp_bind. iApply (as_free with "H R").
    iIntros (K' HK) "H". iApply ("W" $! (Ast K' (s_bo s) (s_m s) (s_e s)) with "[] [H]"); [|by iSplit].
    iPureIntro. split_and!; simpl; [lia|lia|done|done| |by left]. destruct HK as [->|[? _]]; [by left|by right].
  Qed.
  Lemma wp_block_size {A} B s o n (k : Z → prog A) Φ Ψ : (o, n) ∈ B →
    ainv B s -∗ (ainv B s -∗ wp (k n) Φ Ψ) -∗ wp (x <- al_block_size al o ;; k x) Φ Ψ.
  Proof. iIntros (Hin) "[%Hc H] W". iApply wp_bind. iApply (as_block_size with "H"); [done|..]. iIntros "H". iApply "W". by iSplit. Qed.
  Lemma wp_get_base {A} B s (k : Z → prog A) Φ Ψ :
    ainv B s -∗ (ainv B s -∗ wp (k (s_bo s)) Φ Ψ) -∗ wp (x <- al_get_base al ;; k x) Φ Ψ.
  Proof. iIntros "[%Hc H] W". iApply wp_bind. iApply (as_get_base with "H"). iIntros "H". iApply "W". by iSplit. Qed.
  Lemma wp_set_base {A} B s v (k : unit → prog A) Φ Ψ : is_u64 v → as_base_ok S v →
    ainv B s -∗ (ainv B (Ast (s_K s) v (s_m s) (s_e s)) -∗ wp (k tt) Φ Ψ) -∗
    wp (x <- al_set_base al v ;; k x) Φ Ψ.
  Proof. iIntros (Hv Hv') "[%Hc H] W". iApply wp_bind. iApply (as_set_base with "H"); [done|done|..]. iIntros "H". iApply "W". by iSplit. Qed.
  Lemma wp_epoch {A} B s (k : Z → prog A) Φ Ψ :
    ainv B s -∗ (ainv B s -∗ wp (k (s_e s)) Φ Ψ) -∗ wp (x <- get_epoch ;; k x) Φ Ψ.
  Proof.
    iIntros "(%Hc & Hp & H) W". iApply (rep_pool_epoch with "Hp"). iIntros "Hp". iApply "W". by iFrame.
  Qed.
End lib.

(** Words and bytes *)
Lemma raw_words1 a b : a + 8 <= b → raw a b ⊢ (∃ v, word a v) ∗ raw (a + 8) b.
Proof.
  iIntros (H) "R". iDestruct (raw_split _ (a + 8) with "R") as "[R $]"; [lia|].
  by iApply (raw_word with "R").
Qed.
Lemma words_raw1 a b v : a + 8 <= b → word a v -∗ raw (a + 8) b -∗ raw a b.
Proof.
  iIntros (H) "W R". iApply (raw_split _ (a + 8)); [lia|]. iFrame. by iApply (word_raw with "W").
Qed.
Lemma wp_load_bytes_b {RR : Rep} {A} n a bs (k : list Z → prog A) Φ Ψ : length bs = n →
  pts a bs -∗ (pts a bs -∗ wp (k bs) Φ Ψ) -∗ wp (x <- load_bytes a n ;; k x) Φ Ψ.
Proof. iIntros (H) "Hp W". iApply wp_bind. by iApply (wp_load_bytes with "Hp"). Qed.
Lemma wp_store_bytes_b {RR : Rep} {A} a b bs (k : unit → prog A) Φ Ψ : bytes_ok bs → b = a + Z.of_nat (length bs) →
  raw a b -∗ (pts a bs -∗ wp (k tt) Φ Ψ) -∗ wp (x <- store_bytes a bs ;; k x) Φ Ψ.
Proof.
  iIntros (Hok Hb) "(%cs & %Hl & Hp) W". iApply wp_bind. iApply (wp_store_bytes with "Hp"); [lia|done|]. iIntros "Hp". by iApply "W".
Qed.

Lemma in_app_l {A} (x : A) l k : x ∈ l → x ∈ l ++ k.
Proof. intros. apply elem_of_app. by left. Qed.
