(** * HashTable: clear, iteration, creation. *)
From Verif Require Export HashErase.
From iris.proofmode Require Import tactics.
From iris.prelude Require Import options.
Open Scope Z_scope.
Open Scope prog_scope.

Local Opaque h_slot h_match h_walk h_find h_allowed h_count.

Lemma slot_frees_blocks p : slot_frees (slot_abs p) = (slot_blocks p).*2.
Proof.
  destruct p as [b ns]. unfold slot_frees, slot_blocks, slot_abs, node_pairs. cbn [fst snd].
  induction ns as [|y ns IH]; [done|]. cbn [map concat]. rewrite fmap_app IH. by destruct b.
Qed.
Lemma h_frees_blocks P : h_frees (map slot_abs P) = (concat (map slot_blocks P)).*2.
Proof.
  unfold h_frees. induction P as [|p P IH]; [done|]. cbn [map concat]. by rewrite fmap_app IH slot_frees_blocks.
Qed.
Lemma h_repeat_wf hsh n : (0 < n)%nat → h_wf hsh (repeat (false, []) n).
Proof.
  intros Hn. split.
  - by destruct n; [lia|].
  - intros i s Hi. apply elem_of_list_lookup_2 in Hi. apply elem_of_list_In, repeat_spec in Hi. subst s.
    simpl. split_and!; [lia|by apply NoDup_nil|]. intros k Hk. by apply elem_of_nil in Hk.
Qed.
Lemma h_repeat_items n : h_items (repeat (false, []) n) = [].
Proof. unfold h_items. induction n; simpl; done. Qed.
Lemma h_cleared_repeat t : h_cleared t = repeat (false, []) (length t).
Proof. unfold h_cleared. induction t; simpl; f_equal; done. Qed.

Lemma fmap_snd_cons (a n : Z) (B : blocks) : ((a, n) :: B).*2 = n :: B.*2.
Proof. done. Qed.

Lemma slot_abs_repeat n : repeat (false, []) n = map slot_abs (repeat (false, []) n).
Proof. induction n as [|n IH]; simpl; [done|]. by rewrite -IH. Qed.
Lemma slot_blocks_repeat n : concat (map slot_blocks (repeat (false, []) n)) = [].
Proof. induction n as [|n IH]; simpl; done. Qed.

(** Iteration, abstractly: what an iterator has yet to yield. *)
Definition iter_ok (t : htable) (it : h_iter) (rest : list (bytes * bytes)) : Prop :=
  (hi_slot it = Z.of_nat (length t) ∧ hi_index it = 0%nat ∧ hi_items it = [] ∧ rest = []) ∨
  (∃ i b x, hi_slot it = Z.of_nat i ∧ t !! i = Some (b, hi_items it) ∧ hi_items it !! hi_index it = Some x ∧
     rest = x :: drop (Datatypes.S (hi_index it)) (hi_items it) ++ h_items (drop (Datatypes.S i) t)).
Lemma h_items_drop (t : htable) i s : t !! i = Some s → h_items (drop i t) = s.2 ++ h_items (drop (Datatypes.S i) t).
Proof. intros Hi. rewrite (drop_S _ s); done. Qed.
Lemma h_items_blocks P : (length (h_items (map slot_abs P)) <= length (concat (map slot_blocks P)))%nat.
Proof.
  unfold h_items. induction P as [|p P IH]; simpl; [lia|]. rewrite !app_length.
  pose proof (slot_blocks_len p). unfold node_pairs. rewrite map_length. lia.
Qed.

Section hash.
  Context {RR : Rep} {PR : PoolRep} {al : allocator} (S : alloc_spec al) (c : cfg) (hsh : bytes → Z) (F : nat) (HF : 2 ^ 62 <= Z.of_nat F).
  Notation ainv := (ainv S c).
  Notation h_rep := (h_rep hsh).
  Set Default Proof Using "All".

  Definition any_leaky (l : list Z) : Prop := ∃ n, n ∈ l ∧ as_leaky S n.
  Lemma any_leaky_app l1 l2 : any_leaky l1 ∨ any_leaky l2 → any_leaky (l1 ++ l2).
  Proof. intros [(n & ? & ?)|(n & ? & ?)]; exists n; rewrite elem_of_app; tauto. Qed.

  Lemma ainv_addr B s o n : ainv ((o, n) :: B) s ⊢ ⌜320 < o ∧ o mod 8 = 0 ∧ 0 <= n ∧ o + n <= 2 ^ 62⌝.
  Proof.
    iIntros "H". iDestruct (ainv_facts with "H") as %[(H1 & _) Hm]. iPureIntro.
    destruct (H1 o n) as (?&?&?&?); [by left|]. unfold size_ok in *. split_and!; first [done|lia].
  Qed.

  Lemma wp_h_free_chain {A} : ∀ G ns Bf s (K : unit → prog A) Φ Ψ,
    (length ns <= G)%nat →
    hseg ns 0 -∗ ainv (slot_blocks (true, ns) ++ Bf) s -∗
    (∀ s', ⌜ext c 0 (any_leaky ((slot_blocks (true, ns)).*2)) s s'⌝ -∗ ainv Bf s' -∗ wp (K tt) Φ Ψ) -∗
    wp (x <- h_free_chain al G (nfirst ns 0) ;; K x) Φ Ψ.
  Proof.
    intros G. induction G as [|G IH]; intros ns Bf s K Φ Ψ HG; iIntros "Hns H W".
    - destruct ns; [|simpl in HG; lia]. cbn [h_free_chain nfirst]. rewrite bool_decide_eq_true_2; [|done]. wpn.
      iApply ("W" with "[] H"). iPureIntro. eapply ext_weaken; [apply ext_refl|done|done].
    - destruct ns as [|[[a kv] x] ns].
      { cbn [h_free_chain nfirst]. rewrite bool_decide_eq_true_2; [|done]. wpn.
        iApply ("W" with "[] H"). iPureIntro. eapply ext_weaken; [apply ext_refl|done|done]. }
      rewrite slot_blocks_cons. cbn [node_blocks fst snd app].
      iAssert (ainv ((a, 24) :: (kv, pair_size x) :: slot_blocks (true, ns) ++ Bf) s) with "[H]" as "H".
      { iApply (ainv_perm with "H"). apply Permutation_swap. }
      iDestruct (ainv_addr with "H") as %(Ha & _).
      iAssert (ainv ((kv, pair_size x) :: (a, 24) :: slot_blocks (true, ns) ++ Bf) s) with "[H]" as "H".
      { iApply (ainv_perm with "H"). apply Permutation_swap. }
      cbn [h_free_chain nfirst]. rewrite bool_decide_eq_false_2; [|lia].
      cbn [hseg]. iDestruct "Hns" as "((W0 & W8 & W16 & Hkv) & Hns)". wpn.
      iApply (wp_load64 with "W0"). iIntros "W0". wpn.
      iApply (wp_load64 with "W8"). iIntros "W8". wpn.
      iApply (wp_free with "H [Hkv]"). { by iApply (kv_raw with "Hkv"). }
      iIntros (s1 Hext1) "H". wpn.
      iApply (wp_free with "H [W0 W8 W16]").
      { iApply (words_raw1 with "W0"); [lia|]. iApply (words_raw1 with "W8"); [lia|].
        iApply (word_raw with "[W16]"); [|replace (a + 8 + 8) with (a + 16) by lia; done]. lia. }
      iIntros (s2 Hext2) "H". wpn.
      iApply (IH with "Hns H"); [simpl in HG; lia|]. iIntros (s3 Hext3) "H".
      iApply ("W" with "[] H"). iPureIntro.
      eapply ext_weaken; [exact (ext_trans _ _ _ _ _ _ _ _ (ext_trans _ _ _ _ _ _ _ _ Hext1 Hext2) Hext3)|done|].
      rewrite !fmap_snd_cons. intros [[?|?]|(n & ? & ?)].
      + eexists. split; [left|done].
      + eexists. split; [right; left|done].
      + exists n. split; [by do 2 right|done].
  Qed.
  Local Opaque h_free_chain.

  Lemma wp_h_clear_loop : ∀ P a Bf s Φ Ψ,
    ainv (concat (map slot_blocks P) ++ Bf) s -∗ slots_at a P -∗
    (∀ s', ⌜ext c 0 (any_leaky ((concat (map slot_blocks P)).*2)) s s'⌝ -∗ ainv Bf s' -∗
        slots_at a (repeat (false, []) (length P)) -∗ Φ tt) -∗
    wp (h_clear_loop al F (length P) a) Φ Ψ.
  Proof.
    intros P. induction P as [|p P IH]; intros a Bf s Φ Ψ; iIntros "H HS W".
    - cbn [h_clear_loop length]. iApply wp_ret. iApply ("W" with "[] H HS"). iPureIntro. eapply ext_weaken; [apply ext_refl|done|done].
    - cbn [h_clear_loop length slots_at map concat repeat]. rewrite -app_assoc. iDestruct "HS" as "[Hp HS]".
      iAssert (∀ s1, ⌜ext c 0 (any_leaky ((slot_blocks p).*2)) s s1⌝ -∗ ainv (concat (map slot_blocks P) ++ Bf) s1 -∗
         slot_at a (false, []) -∗ wp (h_clear_loop al F (length P) (a + 16)) Φ Ψ)%I with "[HS W]" as "Hrest".
      { iIntros (s1 Hext1) "H Hp". iApply (IH with "H HS"). iIntros (s2 Hext2) "H HS".
        iApply ("W" with "[] H [Hp HS]"); [|iFrame]. iPureIntro.
        eapply ext_weaken; [exact (ext_trans _ _ _ _ _ _ _ _ Hext1 Hext2)|done|].
        rewrite fmap_app. apply any_leaky_app. }
      destruct p as [[|] [|[[b kv] x] ns]]; cbn [slot_at]; try (iDestruct "Hp" as "[]").
      + iDestruct "Hp" as "(Ws & [%y Wy] & Hns)".
        iAssert ⌜320 < b ∧ b mod 8 = 0 ∧ 8 * Z.of_nat (length ((b, kv, x) :: ns)) <= 2 ^ 62⌝%I with "[H]" as %(Hb & Hb8 & Hlen).
        { iDestruct (slot_block_facts _ _ (slot_blocks (true, (b, kv, x) :: ns)) _ _ (true, (b, kv, x) :: ns) [] with "H") as %(Hf & _ & Hl).
          { by rewrite app_nil_r. } iPureIntro.
          destruct (node_in_blocks true ((b, kv, x) :: ns) (b, kv, x)) as [_ Hb]; [by left|].
          destruct (Hf _ _ (Hb eq_refl)) as (?&?&_). done. }
        destruct (odd_tag b Hb8) as (Hodd & _ & Htag & _).
        iApply (wp_load64 with "Ws"). iIntros "Ws".
        rewrite bool_decide_eq_false_2; [|lia]. rewrite Hodd Htag. wpn.
        iApply (wp_h_free_chain with "Hns H"); [lia|]. iIntros (s1 Hext1) "H". wpn.
        iApply (wp_store64 with "Ws"); [done|]. iIntros "Ws". wpn.
        iApply (wp_store64 with "Wy"); [done|]. iIntros "Wy". wpn.
        iApply ("Hrest" with "[//] H"). iFrame. by iExists _.
      + iDestruct "Hp" as "[Ws Wy]". iApply (wp_load64 with "Ws"). iIntros "Ws".
        rewrite bool_decide_eq_true_2; [|done]. wpn. iApply ("Hrest" with "[] H [Ws Wy]"); [|iFrame].
        iPureIntro. eapply ext_weaken; [apply ext_refl|done|done].
      + destruct ns as [|? ?]; [|iDestruct "Hp" as "[]"]. iDestruct "Hp" as "(Ws & Wy & Hkv)".
        iDestruct (ainv_addr with "H") as %(Hk & Hk8 & _). cbn [fst snd] in Hk, Hk8.
        destruct (odd_tag kv Hk8) as (_ & Hodd & _ & _).
        iApply (wp_load64 with "Ws"). iIntros "Ws".
        rewrite bool_decide_eq_false_2; [|lia]. rewrite Hodd. wpn.
        iApply (wp_free with "H [Hkv]"). { by iApply (kv_raw with "Hkv"). }
        iIntros (s1 Hext1) "H". wpn.
        iApply (wp_store64 with "Ws"); [done|]. iIntros "Ws". wpn.
        iApply (wp_store64 with "Wy"); [done|]. iIntros "Wy". wpn.
        iApply ("Hrest" with "[] H"); [|iFrame; by iExists _]. iPureIntro.
        eapply ext_weaken; [exact Hext1|done|]. intros ?. eexists. split; [left|done].
  Qed.

  Lemma wp_h_clear o t B Bf s Φ Ψ :
    ainv (B ++ Bf) s -∗ h_rep o t B -∗
    (∀ B' s', ⌜ext c 0 (any_leaky (h_frees t)) s s'⌝ -∗ ainv (B' ++ Bf) s' -∗ h_rep o (h_cleared t) B' -∗ Φ tt) -∗
    wp (h_clear al F o) Φ Ψ.
  Proof.
    iIntros "H (%bits & %so & %P & %Hpure & W0 & W8 & W16 & HS) W".
    destruct Hpure as (-> & Hwf & Hb & Hlen & HB). unfold h_clear.
    iApply (wp_load64 with "W8"). iIntros "W8".
    iApply (wp_load64 with "W0"). iIntros "W0".
    rewrite Z.shiftl_1_l. replace (Z.to_nat (2 ^ bits)) with (length P) by lia.
    iApply wp_bind. iApply (wp_h_clear_loop P so ([(o, 24); (so, 16 * Z.of_nat (length P))] ++ Bf) with "[H] HS").
    { iApply (ainv_perm with "H"). rewrite HB. unfold h_blocks. simpl. by rewrite -!Permutation_middle. }
    iIntros (s' Hext) "H HS". iApply bind_ret_r. iApply (wp_store64 with "W16"); [done|]. iIntros "W16". iApply wp_ret.
    iApply ("W" with "[] H"); [by rewrite h_frees_blocks|].
    assert (0 < length P)%nat as HP. { pose proof (Z.pow_pos_nonneg 2 bits ltac:(lia) ltac:(lia)). lia. }
    rewrite h_cleared_repeat map_length. iExists bits, so, (repeat (false, []) (length P)).
    rewrite h_repeat_items. iFrame. iPureIntro. split; [|split; [|split; [done|split]]].
    - apply slot_abs_repeat.
    - by apply h_repeat_wf.
    - by rewrite repeat_length.
    - unfold h_blocks. by rewrite repeat_length slot_blocks_repeat.
  Qed.

  (** ** Reading *)
  Lemma wp_h_read_pair {A} kv x B s (K : pair → prog A) Φ Ψ : (kv, pair_size x) ∈ B →
    ainv B s -∗ kv_at kv x -∗ (ainv B s -∗ kv_at kv x -∗ wp (K x) Φ Ψ) -∗
    wp (y <- h_read_pair al kv (dlen x.1) ;; K y) Φ Ψ.
  Proof.
    iIntros (Hin) "H Hkv W".
    iAssert ⌜pair_size x <= 2 ^ 62⌝%I with "[H]" as %Hsz.
    { iDestruct (ainv_facts with "H") as %[(H1 & _) Hm]. iPureIntro.
      destruct (H1 _ _ Hin) as (?&?&?&?). unfold size_ok in *. lia. }
    unfold h_read_pair. wpn. iDestruct (kv_value with "Hkv") as "[Hk Hv]".
    iApply (wp_load_bytes_b with "Hk"); [unfold dlen; lia|]. iIntros "Hk". wpn.
    iApply (wp_block_size with "H"); [done|]. iIntros "H". wpn.
    unfold pair_size in *. replace (dlen x.1 + dlen x.2 - dlen x.1) with (dlen x.2) by lia.
    rewrite (u64_small (dlen x.2)); [|unfold dlen in *; lia].
    iApply (wp_load_bytes_b with "Hv"); [unfold dlen; lia|]. iIntros "Hv". wpn.
    destruct x as [kx vx]. iApply ("W" with "H"). iApply (kv_value_back with "Hk Hv").
  Qed.
  Local Opaque h_read_pair.

  Lemma wp_h_read_chain {A} : ∀ G ns B s (K : list pair → prog A) Φ Ψ,
    (length ns <= G)%nat → (∀ y, y ∈ ns → y.1.1 ≠ 0 ∧ (y.1.2, pair_size y.2) ∈ B) →
    ainv B s -∗ hseg ns 0 -∗ (ainv B s -∗ hseg ns 0 -∗ wp (K (node_pairs ns)) Φ Ψ) -∗
    wp (x <- h_read_chain al G (nfirst ns 0) ;; K x) Φ Ψ.
  Proof.
    intros G. induction G as [|G IH]; intros ns B s K Φ Ψ HG Hn; iIntros "H Hns W".
    - destruct ns; [|simpl in HG; lia]. cbn [h_read_chain nfirst]. rewrite bool_decide_eq_true_2; [|done]. wpn.
      iApply ("W" with "H Hns").
    - destruct ns as [|[[a kv] x] ns].
      { cbn [h_read_chain nfirst]. rewrite bool_decide_eq_true_2; [|done]. wpn. iApply ("W" with "H Hns"). }
      cbn [h_read_chain nfirst]. destruct (Hn (a, kv, x)) as [Hnz Hin]; [by left|]. simpl in Hnz, Hin.
      rewrite bool_decide_eq_false_2; [|done].
      cbn [hseg]. iDestruct "Hns" as "((W0 & W8 & W16 & Hkv) & Hns)". wpn.
      iApply (wp_load64 with "W8"). iIntros "W8". wpn.
      iApply (wp_load64 with "W16"). iIntros "W16". wpn.
      iApply (wp_h_read_pair with "H Hkv"); [done|]. iIntros "H Hkv". wpn.
      iApply (wp_load64 with "W0"). iIntros "W0". wpn.
      iApply (IH with "H Hns"); [simpl in HG; lia|intros y Hy; apply Hn; by right|]. iIntros "H Hns". wpn.
      iApply ("W" with "H"). iFrame.
  Qed.
  Local Opaque h_read_chain.

  Definition h_arr (o bits so : Z) (P : list hs) : hPropI := (word o bits ∗ word (o + 8) so ∗ slots_at so P)%I.

  Lemma wp_h_slot_contents {A} o bits so P B Bf s i p (K : list pair → prog A) Φ Ψ :
    B ≡ₚ h_blocks o so P → P !! i = Some p →
    ainv (B ++ Bf) s -∗ h_arr o bits so P -∗
    (ainv (B ++ Bf) s -∗ h_arr o bits so P -∗ wp (K (node_pairs p.2)) Φ Ψ) -∗
    wp (x <- h_slot_contents al F o (Z.of_nat i) ;; K x) Φ Ψ.
  Proof.
    iIntros (HB Hi) "H (W0 & W8 & HS) W".
    assert (∃ R, B ≡ₚ slot_blocks p ++ R) as [R HR].
    { eexists. rewrite HB. unfold h_blocks.
      rewrite -{2}(take_drop_middle P i p Hi) map_app concat_app. simpl.
      rewrite (app_comm_cons _ _ (so, _)) (app_comm_cons _ _ (o, _)).
      rewrite Permutation_app_swap_app. done. }
    assert (∀ x, x ∈ slot_blocks p → x ∈ B ++ Bf) as HpB.
    { intros x Hx. apply in_app_l. rewrite HR. by apply in_app_l. }
    iDestruct (slot_block_facts _ _ _ _ _ _ _ HR with "H") as %(Hf & _ & Hlen).
    assert (length (take i P) = i) as Htk. { apply lookup_lt_Some in Hi. rewrite take_length. lia. }
    iAssert (slot_at (so + Z.of_nat i * 16) p ∗ (∀ p', ⌜p' = p⌝ -∗ slot_at (so + Z.of_nat i * 16) p' -∗ slots_at so P))%I with "[HS]" as "[Hp Hback]".
    { assert (slots_at so P ⊣⊢ slots_at so (take i P) ∗ slot_at (so + Z.of_nat i * 16) p ∗ slots_at (so + Z.of_nat i * 16 + 16) (drop (Datatypes.S i) P)) as Heq.
      { rewrite -{1}(take_drop_middle P i p Hi) slots_at_app Htk. by replace (16 * Z.of_nat i) with (Z.of_nat i * 16) by lia. }
      rewrite {1}Heq. iDestruct "HS" as "(HS1 & $ & HS2)". iIntros (p' ->) "Hp". rewrite Heq. iFrame. }
    unfold h_slot_contents. wpn. iApply (wp_load64 with "W8"). iIntros "W8". cbv zeta. wpn.
    destruct p as [[|] [|[[b kv] x] ns]]; cbn [slot_at]; try (iDestruct "Hp" as "[]").
    - destruct (node_in_blocks true ((b, kv, x) :: ns) (b, kv, x)) as [_ Hb]; [by left|].
      destruct (Hf _ _ (Hb eq_refl)) as (Hb1 & Hb8 & _). cbn [fst snd] in Hb1, Hb8.
      destruct (odd_tag b Hb8) as (Hodd & _ & Htag & _).
      iDestruct "Hp" as "(Ws & Wy & Hns)". iApply (wp_load64 with "Ws"). iIntros "Ws". wpn.
      rewrite bool_decide_eq_false_2; [|lia]. rewrite Hodd Htag. cbn [negb]. wpn.
      iApply (wp_h_read_chain F ((b, kv, x) :: ns) with "H Hns"); [simpl in *; lia| |].
      { intros y Hy. destruct (node_in_blocks true _ y Hy) as [Hy1 Hy2].
        destruct (Hf _ _ (Hy2 eq_refl)) as (?&_). split; [lia|]. by apply HpB. }
      iIntros "H Hns". iApply ("W" with "H"). iFrame "W0 W8".
      iApply ("Hback" $! (true, (b, kv, x) :: ns) with "[//]"). cbn [slot_at]. iFrame.
    - iDestruct "Hp" as "[Ws Wy]". iApply (wp_load64 with "Ws"). iIntros "Ws". wpn.
      rewrite bool_decide_eq_true_2; [|done]. wpn. iApply ("W" with "H"). iFrame "W0 W8".
      iApply ("Hback" $! (false, []) with "[//]"). cbn [slot_at]. iFrame.
    - destruct ns as [|? ?]; [|iDestruct "Hp" as "[]"]. iDestruct "Hp" as "(Ws & Wy & Hkv)".
      destruct (node_in_blocks false [(b, kv, x)] (b, kv, x)) as [Hkvb _]; [by left|].
      destruct (Hf _ _ Hkvb) as (Hk & Hk8 & _). cbn [fst snd] in Hk, Hk8.
      destruct (odd_tag kv Hk8) as (_ & Hodd & _ & _).
      iApply (wp_load64 with "Ws"). iIntros "Ws". wpn.
      rewrite bool_decide_eq_false_2; [|lia]. rewrite Hodd. cbn [negb]. wpn.
      iApply (wp_load64 with "Wy"). iIntros "Wy". wpn.
      iApply (wp_h_read_pair with "H Hkv"); [by apply HpB|]. iIntros "H Hkv". wpn.
      iApply ("W" with "H"). iFrame "W0 W8".
      iApply ("Hback" $! (false, [(b, kv, x)]) with "[//]"). cbn [slot_at]. iFrame.
  Qed.
  Local Opaque h_slot_contents.

  Lemma wp_h_bits {A} o bits so P (K : Z → prog A) Φ Ψ : 2 <= bits <= 30 →
    h_arr o bits so P -∗ (h_arr o bits so P -∗ wp (K bits) Φ Ψ) -∗ wp (x <- h_bits o ;; K x) Φ Ψ.
  Proof.
    iIntros (Hb) "(W0 & W8 & HS) W". unfold h_bits. wpn. iApply (wp_load64 with "W0"). iIntros "W0". wpn.
    rewrite Z.mod_small; [|lia]. iApply "W". iFrame.
  Qed.
  Local Opaque h_bits.

  (** Everything about the array that does not change. *)
  Definition arr_ok (o bits so : Z) (P : list hs) (B : blocks) : Prop :=
    2 <= bits <= 30 ∧ Z.of_nat (length P) = 2 ^ bits ∧ B ≡ₚ h_blocks o so P.

  Lemma wp_h_advance {A} o bits so P B Bf s (K : h_iter → prog A) Φ Ψ : arr_ok o bits so P B →
    ∀ G i p it, P !! i = Some p → hi_slot it = Z.of_nat i → hi_items it = node_pairs p.2 → (length P - i <= G)%nat →
    ainv (B ++ Bf) s -∗ h_arr o bits so P -∗
    (∀ it', ⌜iter_ok (map slot_abs P) it' (drop (hi_index it) (hi_items it) ++ h_items (drop (Datatypes.S i) (map slot_abs P)))⌝ -∗
       ainv (B ++ Bf) s -∗ h_arr o bits so P -∗ wp (K it') Φ Ψ) -∗
    wp (x <- h_advance al F G o it ;; K x) Φ Ψ.
  Proof.
    intros (Hb & Hlen & HB) G. induction G as [|G IH]; intros i p [sl ix its] Hi; cbn [hi_slot hi_items hi_index];
      intros -> -> HG; iIntros "H HA W"; pose proof (lookup_lt_Some _ _ _ Hi) as Hlt; [lia|].
    assert (map slot_abs P !! i = Some (slot_abs p)) as Hti by (rewrite list_lookup_fmap Hi; done).
    cbn [h_advance hi_slot hi_items hi_index].
    destruct (bool_decide_reflect (length (node_pairs p.2) <= ix)%nat) as [Hix|Hix].
    - rewrite drop_ge; [|done]. wpn. iApply (wp_h_bits with "HA"); [done|]. iIntros "HA". wpn.
      rewrite Z.shiftl_1_l -Hlen.
      destruct (bool_decide_reflect (Z.of_nat i + 1 < Z.of_nat (length P))) as [Hn|Hn].
      + destruct (P !! (Datatypes.S i)) as [q|] eqn:Hq; [|apply lookup_ge_None in Hq; lia]. wpn.
        replace (Z.of_nat i + 1) with (Z.of_nat (Datatypes.S i)) by lia.
        iApply (wp_h_slot_contents with "H HA"); [exact HB|exact Hq|]. iIntros "H HA". wpn.
        iApply (IH (Datatypes.S i) q with "H HA"); [done|done|done|lia|].
        cbn [hi_index hi_items]. rewrite drop_0. simpl app at 2.
        rewrite (h_items_drop (map slot_abs P) (Datatypes.S i) (slot_abs q)); [done|]. rewrite list_lookup_fmap Hq. done.
      + wpn. iApply ("W" with "[] H HA"). iPureIntro. left. cbn [hi_slot hi_items hi_index]. rewrite map_length.
        split; [lia|]. split; [done|]. split; [done|]. rewrite drop_ge; [done|]. rewrite map_length. lia.
    - wpn. iApply ("W" with "[] H HA"). iPureIntro. right. cbn [hi_slot hi_items hi_index].
      destruct (node_pairs p.2 !! ix) as [x|] eqn:Hx; [|apply lookup_ge_None in Hx; lia].
      exists i, p.1, x. split; [done|]. split; [done|]. split; [done|]. rewrite (drop_S _ x); done.
  Qed.
  Local Opaque h_advance.

  Lemma wp_h_iterate_from {A} o bits so P B Bf s (K : list pair → prog A) Φ Ψ : arr_ok o bits so P B → (length P <= F)%nat →
    ∀ G it rest, iter_ok (map slot_abs P) it rest → (length rest <= G)%nat →
    ainv (B ++ Bf) s -∗ h_arr o bits so P -∗
    (ainv (B ++ Bf) s -∗ h_arr o bits so P -∗ wp (K rest) Φ Ψ) -∗
    wp (x <- h_iterate_from al F G o it ;; K x) Φ Ψ.
  Proof.
    intros Hok HlF G it rest. pose proof Hok as (Hb & Hlen & HB).
    revert it rest K. induction G as [|G IH]; intros it rest K Hit HG; iIntros "H HA W".
    all: cbn [h_iterate_from]; unfold h_is_end; wpn; iApply (wp_h_bits with "HA"); [done|]; iIntros "HA"; wpn; rewrite Z.shiftl_1_l -Hlen.
    all: destruct Hit as [(Hs & Hx & Hi & ->)|(i & b & x & Hs & Ht & Hx & ->)].
    - rewrite bool_decide_eq_true_2; [|rewrite Hs Hi map_length; simpl; split; [done|lia]]. wpn. iApply ("W" with "H HA").
    - simpl in HG. lia.
    - rewrite bool_decide_eq_true_2; [|rewrite Hs Hi map_length; simpl; split; [done|lia]]. wpn. iApply ("W" with "H HA").
    - pose proof (lookup_lt_Some _ _ _ Ht) as Hlt. rewrite map_length in Hlt.
      rewrite bool_decide_eq_false_2; [|lia]. rewrite Hx. wpn. unfold h_next. wpn.
      iApply (wp_h_bits with "HA"); [done|]. iIntros "HA". wpn. rewrite Z.shiftl_1_l -Hlen.
      rewrite bool_decide_eq_false_2; [|lia]. wpn.
      pose proof (lookup_lt_Some _ _ _ Hx) as Hltx. rewrite bool_decide_eq_true_2; [|done].
      rewrite list_lookup_fmap in Ht. destruct (P !! i) as [p|] eqn:Hp; [|done]. simpl in Ht. injection Ht as <- Ht.
      iApply (wp_h_advance _ _ _ _ _ _ _ _ _ _ Hok F i p with "H HA"); [done|done|done|lia|].
      iIntros (it' Hit') "H HA". wpn. cbn [hi_index hi_items] in Hit'.
      iApply (IH with "H HA"); [exact Hit'|simpl in HG; lia|]. iIntros "H HA". wpn. iApply ("W" with "H HA").
  Qed.
  Local Opaque h_iterate_from.

  (** Iteration yields the pairs of the slots, in order. *)
  Lemma wp_h_iterate o t B Bf s Φ Ψ :
    ainv (B ++ Bf) s -∗ h_rep o t B -∗
    (ainv (B ++ Bf) s -∗ h_rep o t B -∗ Φ (h_items t)) -∗ wp (h_iterate al F o) Φ Ψ.
  Proof.
    iIntros "H (%bits & %so & %P & %Hpure & W0 & W8 & W16 & HS) W".
    destruct Hpure as (-> & Hwf & Hb & Hlen & HB).
    iAssert ⌜Z.of_nat (length (h_items (map slot_abs P))) <= 2 ^ 62⌝%I with "[H]" as %Hn.
    { iDestruct (ainv_facts with "H") as %[(H1 & _ & H3) Hm]. iPureIntro. unfold size_ok in Hm.
      assert (0 <= sum_sz (B ++ Bf)) as Hs0.
      { apply sum_sz_nonneg. intros a n Hin. destruct (H1 _ _ Hin) as (?&?&?&?). done. }
      pose proof (h_items_blocks P). apply Permutation_length in HB as HBl. unfold h_blocks in HBl. simpl in HBl.
      rewrite app_length in H3. lia. }
    iAssert (h_arr o bits so P) with "[W0 W8 HS]" as "HA"; [iFrame|].
    assert (Z.of_nat (length P) <= 2 ^ 30) as HP30. { rewrite Hlen. apply Z.pow_le_mono_r; lia. }
    destruct (P !! 0%nat) as [p|] eqn:Hp.
    2:{ apply lookup_ge_None in Hp. pose proof (Z.pow_pos_nonneg 2 bits ltac:(lia) ltac:(lia)). lia. }
    unfold h_iterate, h_begin. wpn. iApply (wp_h_bits with "HA"); [done|]. iIntros "HA". wpn. rewrite Z.shiftl_1_l -Hlen.
    apply lookup_lt_Some in Hp as Hp'.
    rewrite bool_decide_eq_true_2; [|lia]. wpn.
    iApply (wp_h_slot_contents o bits so P B Bf s 0%nat p with "H HA"); [exact HB|exact Hp|]. iIntros "H HA". wpn.
    iApply (wp_h_advance _ _ _ _ B Bf _ _ _ _ ltac:(done) F 0%nat p with "H HA"); [done|done|done|lia|].
    iIntros (it' Hit) "H HA". cbn [hi_index hi_items] in Hit. rewrite drop_0 in Hit.
    iApply bind_ret_r.
    iApply (wp_h_iterate_from _ _ _ _ B Bf _ _ _ _ ltac:(done) with "H HA"); [lia|exact Hit| |].
    { pose proof (h_items_drop (map slot_abs P) 0 (slot_abs p)) as Hd. rewrite drop_0 in Hd.
      change (node_pairs p.2) with (slot_abs p).2. rewrite -Hd; [lia|]. rewrite list_lookup_fmap Hp. done. }
    iIntros "H (W0 & W8 & HS)". iApply wp_ret.
    pose proof (h_items_drop (map slot_abs P) 0 (slot_abs p)) as Hd. rewrite drop_0 in Hd.
    change (node_pairs p.2) with (slot_abs p).2. rewrite -Hd; [|rewrite list_lookup_fmap Hp; done].
    iApply ("W" with "H"). iExists bits, so, P. iFrame. done.
  Qed.

  (** ** Creation *)
  Lemma wp_h_clear_slots {A} : ∀ n a (K : unit → prog A) Φ Ψ,
    raw a (a + 16 * Z.of_nat n) -∗ (slots_at a (repeat (false, []) n) -∗ wp (K tt) Φ Ψ) -∗
    wp (x <- h_clear_slots n a ;; K x) Φ Ψ.
  Proof.
    intros n. induction n as [|n IH]; intros a K Φ Ψ; iIntros "R W".
    - cbn [h_clear_slots]. wpn. by iApply "W".
    - cbn [h_clear_slots repeat]. wpn.
      iDestruct (raw_words1 with "R") as "[[%v W0] R]"; [lia|].
      iDestruct (raw_words1 with "R") as "[[%v' W8] R]"; [lia|].
      iApply (wp_store64 with "W0"); [done|]. iIntros "W0". wpn.
      iApply (wp_store64 with "W8"); [done|]. iIntros "W8". wpn.
      iApply (IH with "[R]").
      { replace (a + 8 + 8) with (a + 16) by lia. by replace (a + 16 * Z.of_nat (Datatypes.S n)) with (a + 16 + 16 * Z.of_nat n) by lia. }
      iIntros "HS". iApply "W". cbn [slots_at slot_at]. iFrame "HS W0". by iExists _.
  Qed.
  Local Opaque h_clear_slots.

  Lemma wp_h_create bits Bf s Φ Ψ : 2 <= bits <= 30 → as_size_ok S 24 → as_size_ok S (16 * 2 ^ bits) →
    ainv Bf s -∗
    ((∀ o B' s', ⌜ext c (room 24 + room (16 * 2 ^ bits)) False s s' ∧ 320 < o < 2 ^ 62⌝ -∗
        ainv (B' ++ Bf) s' -∗ h_rep o (h_new bits) B' -∗ Φ o) ∧
     (∀ s' J, ⌜¬ grow_allowed c (s_m s + (room 24 + room (16 * 2 ^ bits))) ∧ ext c (room 24 + room (16 * 2 ^ bits)) False s s'⌝ -∗
        ainv (J ++ Bf) s' -∗ raws J -∗ Ψ RuntimeError)) -∗
    wp (h_create al bits) Φ Ψ.
  Proof.
    iIntros (Hb H24 Hsz) "H W".
    assert (0 < 2 ^ bits <= 2 ^ 30) as Hpow by (split; [apply Z.pow_pos_nonneg|apply Z.pow_le_mono_r]; lia).
    unfold h_create. rewrite bool_decide_eq_false_2; [|lia]. rewrite Z.shiftl_1_l.
    rewrite (u64_small (16 * 2 ^ bits)); [|lia].
    iApply (wp_allocate with "H"); [done|]. iSplit.
    2:{ iIntros (Hg) "H". iDestruct "W" as "[_ W]". iApply ("W" $! _ [] with "[] H []"); [|by rewrite /raws].
        iPureIntro. split; [|eapply ext_weaken; [apply ext_refl|unfold room; lia|done]].
        intros Hg'. apply Hg. eapply grow_allowed_mono; [|exact Hg']. unfold room; lia. }
    iIntros (o s1 (Hext1 & Ho & _ & Ho2)) "H R".
    iApply (wp_allocate with "H"); [done|]. iSplit.
    2:{ iIntros (Hg) "H". iDestruct "W" as "[_ W]". iApply ("W" $! _ [(o, 24)] with "[] H [R]").
        - iPureIntro. split; [|eapply ext_weaken; [exact Hext1|unfold room; lia|done]].
          intros Hg'. apply Hg. eapply grow_allowed_mono; [|exact Hg']. destruct Hext1 as (?&_). lia.
        - rewrite /raws. simpl. by iFrame. }
    iIntros (so s2 (Hext2 & Hso & _ & Hso2)) "H RS".
    iDestruct (raw_words1 with "R") as "[[%v W0] R]"; [lia|].
    iDestruct (raw_words1 with "R") as "[[%v' W8] R]"; [lia|].
    iDestruct (raw_words1 with "R") as "[[%v'' W16] R]"; [lia|].
    replace (o + 8 + 8) with (o + 16) by lia.
    iApply (wp_store64 with "W0"); [unfold is_u64; lia|]. iIntros "W0". wpn.
    iApply (wp_store64 with "W8"); [unfold is_u64; lia|]. iIntros "W8". wpn.
    iApply (wp_store64 with "W16"); [done|]. iIntros "W16". wpn.
    iApply (wp_h_clear_slots with "[RS]").
    { by replace (16 * Z.of_nat (Z.to_nat (2 ^ bits))) with (16 * 2 ^ bits) by lia. }
    iIntros "HS". iApply wp_ret. iDestruct "W" as "[W _]".
    iApply ("W" $! o [(so, 16 * 2 ^ bits); (o, 24)] with "[] H").
    { iPureIntro. split; [|lia]. eapply ext_weaken; [exact (ext_trans _ _ _ _ _ _ _ _ Hext1 Hext2)|lia|tauto]. }
    iExists bits, so, (repeat (false, []) (Z.to_nat (2 ^ bits))). unfold h_new.
    rewrite h_repeat_items. change (Z.of_nat (length [])) with 0. iFrame. iPureIntro. split; [|split; [|split; [done|split]]].
    - apply slot_abs_repeat.
    - apply h_repeat_wf. lia.
    - rewrite repeat_length. lia.
    - unfold h_blocks. rewrite repeat_length slot_blocks_repeat. rewrite Z2Nat.id; [|lia]. apply Permutation_swap.
  Qed.
  Local Opaque h_create.

  Lemma wp_h_open_base `{!BaseFree S} bits Bf s Φ Ψ : 2 <= bits <= 30 → as_size_ok S 24 → as_size_ok S (16 * 2 ^ bits) → is_u64 (s_bo s) →
    ainv Bf s -∗
    ((⌜s_bo s ≠ 0⌝ -∗ ainv Bf s -∗ Φ (s_bo s)) ∧
     (∀ o B' s', ⌜s_bo s = 0 ∧ s_bo s' = o ∧
          ext c (room 24 + room (16 * 2 ^ bits)) False s (Ast (s_K s') 0 (s_m s') (s_e s')) ∧ 320 < o < 2 ^ 62⌝ -∗
        ainv (B' ++ Bf) s' -∗ h_rep o (h_new bits) B' -∗ Φ o) ∧
     (∀ s' J, ⌜s_bo s = 0 ∧ ¬ grow_allowed c (s_m s + (room 24 + room (16 * 2 ^ bits))) ∧
          ext c (room 24 + room (16 * 2 ^ bits)) False s s'⌝ -∗
        ainv (J ++ Bf) s' -∗ raws J -∗ Ψ RuntimeError)) -∗
    wp (h_open_base al bits) Φ Ψ.
  Proof.
    iIntros (Hb H24 Hsz Hbo) "H W". unfold h_open_base. iApply (wp_get_base with "H"). iIntros "H".
    case_bool_decide as Hb0.
    - iApply wp_bind. iApply (wp_h_create with "H"); [done|done|done|]. iSplit.
      2:{ iIntros (s' J [Hg Hext]) "H HJ". iDestruct "W" as "[_ [_ W]]". iApply ("W" with "[] H HJ"). done. }
      iIntros (o B' s' [Hext Ho]) "H HR". iApply (wp_set_base with "H"); [unfold is_u64; lia|apply base_free|]. iIntros "H".
      iApply wp_ret. iDestruct "W" as "[_ [W _]]". iApply ("W" with "[] H HR").
      iPureIntro. destruct Hext as (?&Hbo'&?&?). simpl. rewrite Hb0 in Hbo'.
      split; [done|]. split; [done|]. split; [|lia]. split; [simpl; lia|]. split; [done|]. done.
    - iApply wp_ret. iDestruct "W" as "[W _]". by iApply "W".
  Qed.
End hash.
