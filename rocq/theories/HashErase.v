(** * HashTable: erase, clear, iteration, creation. *)
From Verif Require Export HashOps.
From iris.proofmode Require Import tactics.
From iris.prelude Require Import options.
Open Scope Z_scope.
Open Scope prog_scope.

Local Opaque h_slot h_match h_walk h_find h_allowed h_count.

Lemma le_val_app l1 l2 : le_val (l1 ++ l2) = le_val l1 + 256 ^ Z.of_nat (length l1) * le_val l2.
Proof.
  induction l1 as [|b l1 IH]; cbn [le_val app length]; [change (Z.of_nat 0) with 0; lia|].
  rewrite IH. replace (Z.of_nat (Datatypes.S (length l1))) with (Z.of_nat (length l1) + 1) by lia.
  rewrite Z.pow_add_r; lia.
Qed.
(** Reading a word at an offset that is one too large. *)
Lemma wp_load_odd {RR : Rep} {A} a x y (K : Z → prog A) Φ Ψ :
  word a x -∗ word (a + 8) y -∗
  (∀ z, ⌜z = (x / 256 + 2 ^ 56 * (y mod 256))%Z⌝ -∗ word a x -∗ word (a + 8) y -∗ wp (K z) Φ Ψ) -∗
  wp (z <- load64 (a + 1) ;; K z) Φ Ψ.
Proof.
  iIntros "[X %Hx] [Y %Hy] W".
  assert (le_bytes 8 x = (x mod 256) :: le_bytes 7 (x / 256)) as Ex by done.
  assert (le_bytes 8 y = [y mod 256] ++ le_bytes 7 (y / 256)) as Ey by done.
  iEval (rewrite Ex) in "X". iEval (rewrite Ey pts_app) in "Y".
  change ((x mod 256) :: le_bytes 7 (x / 256)) with ([x mod 256] ++ le_bytes 7 (x / 256)).
  iEval (rewrite pts_app) in "X". iDestruct "X" as "[X0 X1]". iDestruct "Y" as "[Y0 Y1]".
  iApply (wpc_load True 8 (a + 1) (le_bytes 7 (x / 256) ++ [y mod 256])); [by rewrite app_length le_bytes_length|done|].
  iSplit; [done|]. rewrite pts_app le_bytes_length.
  replace (a + 1 + Z.of_nat 7) with (a + 8) by lia. change (Z.of_nat (length [x mod 256])) with 1.
  iFrame "X1 Y0". iIntros "[X1 Y0]". iApply ("W" with "[] [X0 X1] [Y0 Y1]").
  - iPureIntro. rewrite le_val_app le_val_bytes le_bytes_length. cbn [le_val].
    change (Z.of_nat 7) with 7. change (256 ^ 7) with (2 ^ 56). rewrite Z.mod_small; [lia|].
    unfold is_u64 in Hx. split; [apply Z.div_pos; lia|]. apply Z.div_lt_upper_bound; lia.
  - iSplit; [|done]. rewrite Ex. change ((x mod 256) :: le_bytes 7 (x / 256)) with ([x mod 256] ++ le_bytes 7 (x / 256)).
    rewrite pts_app. iFrame.
  - iSplit; [|done]. rewrite Ey pts_app. iFrame.
Qed.

Lemma is_first_app k l1 l2 : k ∉ keys l1 → l1 ≠ [] → is_first k (l1 ++ l2) = false.
Proof.
  destruct l1 as [|[a b] l1]; [done|]. intros Hk _. cbn in Hk |- *.
  apply not_elem_of_cons in Hk as [? _]. by apply bool_decide_eq_false_2.
Qed.
Lemma h_del_absent hsh t k : h_wf hsh t → h_get hsh t k = None → h_del hsh t k = t.
Proof.
  intros [Ht Hwf] Hg. pose proof (h_slot_of_lookup hsh t k Ht) as Hs. destruct (Hwf _ _ Hs) as (Hok & _ & _).
  unfold h_del. apply list_insert_id. rewrite Hs. f_equal. unfold h_get in Hg.
  destruct (h_slot_of hsh t k) as [b l]. cbn [snd] in Hg. apply get_key_None in Hg. unfold slot_del. cbn [fst snd].
  rewrite get_key_del_notin //. destruct l as [|[a v] l].
  - by destruct b.
  - rewrite -(app_nil_r ((a, v) :: l)) is_first_app //. rewrite andb_true_r. done.
Qed.
Lemma h_del_len hsh t k : h_wf hsh t →
  (length (h_items (h_del hsh t k)) + if h_get hsh t k then 1 else 0)%nat = length (h_items t).
Proof.
  intros [Ht Hwf]. unfold h_del. pose proof (h_items_len_upd hsh t k (slot_del k (h_slot_of hsh t k)) Ht) as H.
  assert (length (slot_del k (h_slot_of hsh t k)).2 + (if h_get hsh t k then 1 else 0) = length (h_slot_of hsh t k).2)%nat as E; [|lia].
  unfold h_get. destruct (h_slot_of hsh t k) as [b l].
  assert (length (slot_del k (b, l)).2 = length (del_key k l)) as ->.
  { unfold slot_del. cbn [fst snd]. by destruct (del_key k l). }
  cbn [snd].
  destruct (get_key k l) as [v|] eqn:E.
  - rewrite (get_key_del_length k l); [lia|]. apply get_key_Some in E. apply elem_of_list_fmap. by exists (k, v).
  - apply get_key_None in E. rewrite get_key_del_notin //.
Qed.
Lemma h_del_wf hsh t k odd8 : h_wf hsh t → erase_ok hsh odd8 t k → h_wf hsh (h_del hsh t k).
Proof.
  intros Hwf He. destruct (h_get hsh t k) as [v|] eqn:Hg.
  2:{ by rewrite h_del_absent. }
  apply (h_del_facts hsh t k Hwf). intros (H1 & H2 & H3). unfold erase_ok, h_get in *.
  destruct (h_slot_of hsh t k) as [b l]. cbn [fst snd] in *. rewrite H2 Hg in He. specialize (He H1 ltac:(done)). lia.
Qed.

Lemma h_del_map_ok hsh t k odd8 : h_wf hsh t → erase_ok hsh odd8 t k → h_map (h_del hsh t k) = delete k (h_map t).
Proof.
  intros Hwf He. destruct (h_get hsh t k) as [v|] eqn:Hg.
  2:{ rewrite h_del_absent // delete_notin // -(h_get_map hsh) //. }
  apply h_del_map; [done|]. intros (H1 & H2 & H3). unfold erase_ok, h_get in *.
  destruct (h_slot_of hsh t k) as [b l]. cbn [fst snd] in *. rewrite H2 Hg in He. specialize (He H1 ltac:(done)). lia.
Qed.

Section hash.
  Context {RR : Rep} {PR : PoolRep} {al : allocator} (S : alloc_spec al) (c : cfg) (hsh : bytes → Z) (F : nat) (HF : 2 ^ 62 <= Z.of_nat F).
  Notation ainv := (ainv S c).
  Notation h_rep := (h_rep hsh).
  Notation h_hole := (h_hole hsh).


  Definition erase_leaky (t : htable) (k : bytes) : Prop :=
    ∃ w, h_get hsh t k = Some w ∧ (as_leaky S (pair_size (k, w)) ∨ (fst (h_slot_of hsh t k) = true ∧ as_leaky S 24)).

  Set Default Proof Using "All".
  Lemma wp_h_erase o t k chk B Bf s Φ Ψ :
    (h_holds hsh t chk = true → erase_ok hsh (as_odd8 S) t k) →
    ainv (B ++ Bf) s -∗ h_rep o t B -∗
    ((∀ s' B', ⌜h_holds hsh t chk = true ∧ ext c 0 (erase_leaky t k) s s'⌝ -∗
        ainv (B' ++ Bf) s' -∗ h_rep o (h_del hsh t k) B' -∗ Φ (bool_decide (h_get hsh t k ≠ None))) ∧
     (⌜h_holds hsh t chk = false⌝ -∗ ainv (B ++ Bf) s -∗ h_rep o t B -∗ Φ false)) -∗
    wp (h_erase al F hsh o k chk) Φ Ψ.
  Proof.
    iIntros (Hok) "H HR W".
    iDestruct (h_rep_wf with "HR") as %Hwf. pose proof Hwf as [Hne _].
    iDestruct (h_rep_count with "H HR") as %Hcount; [done|].
    unfold h_erase. iApply (wp_h_allowed with "H HR"); [done|]. iIntros "H HR".
    destruct (h_holds hsh t chk); cbn [negb].
    2:{ iApply wp_ret. iDestruct "W" as "[_ W]". by iApply ("W" with "[] H HR"). }
    specialize (Hok eq_refl). iDestruct "W" as "[W _]".
    iDestruct (h_focus hsh o t B k with "HR") as "(%bits & %so & %p & %R & %Hpure & Wc & Hs & HO)".
    destruct Hpure as (Hp & HB & _ & [n Hso]).
    iDestruct (slot_block_facts with "H") as %(Hf & HfR & Hlen); [exact HB|].
    iAssert ⌜as_odd8 S = true → ∀ o n, (o, n) ∈ slot_blocks p → o mod 16 = 8⌝%I with "[H]" as %Hodd8.
    { destruct (as_odd8 S) eqn:E8; [|done]. iDestruct (ainv_align with "H") as %H8; [done|]. iPureIntro. intros _ o' n' Hin.
      eapply H8. apply elem_of_app. left. rewrite HB. apply elem_of_app. by left. }
    iAssert (ainv (slot_blocks p ++ R ++ Bf) s) with "[H]" as "H".
    { iApply (ainv_perm with "H"). by rewrite HB app_assoc. }
    (* nothing to erase *)
    iAssert (∀ p', ⌜p' = p ∧ h_get hsh t k = None⌝ -∗ slot_at (so + 16 * (hsh k mod 2 ^ bits)) p' -∗
       word (o + 16) (length (h_items t)) -∗ h_hole o t k bits so R -∗ ainv (slot_blocks p ++ R ++ Bf) s -∗
       (∀ s' B', ⌜true = true ∧ ext c 0 (erase_leaky t k) s s'⌝ -∗
        ainv (B' ++ Bf) s' -∗ h_rep o (h_del hsh t k) B' -∗ Φ (bool_decide (h_get hsh t k ≠ None))) -∗ Φ false)%I as "Hnone".
    { iIntros (p' [-> Hg]) "Hs Wc HO H W". rewrite (h_del_absent hsh t k Hwf Hg). rewrite Hg.
      rewrite (bool_decide_eq_false_2 (None ≠ None)); [|by intros ?].
      iApply ("W" $! s (slot_blocks p ++ R) with "[] [H] [Hs Wc HO]").
      - iPureIntro. split; [done|]. eapply ext_weaken; [apply ext_refl|done|done].
      - by rewrite -app_assoc.
      - iApply (h_unfocus with "Wc Hs HO"); done. }
    pose proof (h_del_len hsh t k Hwf) as Hil. pose proof (h_del_wf hsh t k _ Hwf Hok) as Hdwf.
    unfold erase_ok in Hok.
    unfold erase_leaky in *. unfold h_del, h_get in *. rewrite <- Hp in *.
    iApply (wp_h_slot _ _ _ _ _ _ R with "HO"). iIntros "HO". cbv beta.
    set (sl := so + 16 * (hsh k mod 2 ^ bits)).
    destruct p as [[|] [|[[a kv0] x] ns]]; cbn [slot_at]; try (iDestruct "Hs" as "[]").
    - (* chain *)
      iDestruct "Hs" as "(Ws & [%y Wy] & Hns)".
      destruct (node_in_blocks true ((a, kv0, x) :: ns) (a, kv0, x)) as [_ Ha]; [by left|].
      destruct (Hf _ _ (Ha eq_refl)) as (Ha1 & Ha8 & _ & Ha2). cbn [fst snd] in Ha1, Ha8, Ha2.
      destruct (odd_tag a Ha8) as (Hodd & _ & Htag & _).
      iApply (wp_load64 with "Ws"). iIntros "Ws".
      rewrite (bool_decide_eq_false_2 (a + 1 = 0)); [|lia]. rewrite Hodd. cbn [negb]. rewrite Htag.
      iApply (wp_h_walk with "Hns"); [simpl in *; lia| |].
      { intros z Hz. destruct (node_in_blocks true _ z Hz) as [_ Hz2].
        destruct (Hf _ _ (Hz2 eq_refl)) as (?&_). lia. }
      iIntros (ns1 ns2 (Heq & Hk1 & Hk2)) "Hns".
      change (word sl (a + 1)) with (word sl (nfirst ((a, kv0, x) :: ns) 0 + 1)).
      assert ((a, kv0, x) :: ns ≠ []) as Hnn by done.
      assert (320 < nfirst ((a, kv0, x) :: ns) 0 <= 2 ^ 62) as Hnf by (simpl; lia).
      remember ((a, kv0, x) :: ns) as nn eqn:Hnn0. clear Hnn0 Ha Ha1 Ha2 Ha8 Hodd Htag.
      destruct ns2 as [|[[a2 kv2] [k2 v2]] ns2]; cbn [nfirst].
      { rewrite (bool_decide_eq_false_2 (0 ≠ 0)); [|lia]. rewrite app_nil_r in Heq. subst ns1.
        iApply wp_ret. iApply ("Hnone" $! (true, nn) with "[] [Ws Wy Hns] Wc HO H W").
        - iPureIntro. split; [done|]. by apply get_key_None.
        - rewrite slot_true //. iFrame "Ws". iSplitL "Wy"; [by iExists _|done]. }
      iClear "Hnone".
      assert ((a2, kv2, (k2, v2)) ∈ nn) as Hin2.
      { rewrite Heq. apply elem_of_app. right. by left. }
      simpl in Hk2. subst k2.
      destruct (node_in_blocks true _ _ Hin2) as [Hkv2b Ha2b]. specialize (Ha2b eq_refl).
      destruct (Hf _ _ Ha2b) as (Ha21 & Ha28 & _ & Ha22). destruct (Hf _ _ Hkv2b) as (Hkv21 & _ & Hx0 & Hx2).
      cbn [fst snd] in Hkv21, Hx0, Hx2, Ha21, Ha22, Ha28.
      rewrite (bool_decide_eq_true_2 (a2 ≠ 0)); [|lia].
      iEval (rewrite Heq hseg_app; cbn [hseg]) in "Hns".
      iDestruct "Hns" as "(Hns1 & (V0 & V8 & V16 & Hkv2) & Hns2)".
      assert (slot_blocks (true, nn) ≡ₚ (kv2, pair_size (k, v2)) :: (a2, 24) :: slot_blocks (true, ns1) ++ slot_blocks (true, ns2)) as HPn.
      { rewrite Heq slot_blocks_app slot_blocks_cons. unfold node_blocks. simpl. by rewrite -!Permutation_middle. }
      assert (slot_abs (true, nn) = (true, node_pairs ns1 ++ (k, v2) :: node_pairs ns2)) as Eabs.
      { unfold slot_abs, node_pairs. cbn [fst snd]. by rewrite Heq map_app. }
      assert (get_key k (slot_abs (true, nn)).2 = Some v2) as E2.
      { rewrite Eabs. by apply get_key_found. }
      assert (is_u64 (nfirst ns2 0)) as Hn2u.
      { unfold is_u64. destruct ns2 as [|[[b kvb] xb] ns2]; cbn [nfirst]; [lia|].
        assert ((b, kvb, xb) ∈ nn) as Hinb by (rewrite Heq; apply elem_of_app; right; right; by left).
        destruct (node_in_blocks true _ _ Hinb) as [_ Hbb]. destruct (Hf _ _ (Hbb eq_refl)) as (?&_&_&?). simpl in *. lia. }
      rewrite E2 in Hil |- *. rewrite (bool_decide_eq_true_2 (Some v2 ≠ None)); [|done].
      iApply (wp_load64 with "V0"). iIntros "V0".
      destruct ns1 as [|y1 ns1_]; [clear Hk1; simpl in Heq|].
      + (* first *)
        cbn [nlast last]. unfold nlast. cbn [last]. rewrite (bool_decide_eq_false_2 (0 ≠ 0)); [|lia].
        iApply (wp_store64 with "Ws"); [done|]. iIntros "Ws".
        iApply (wp_load64 with "V8"). iIntros "V8".
        iApply (wp_free _ _ ((a2, 24) :: slot_blocks (true, ns2) ++ R ++ Bf) s kv2 (pair_size (k, v2)) with "[H] [Hkv2]").
        { iApply (ainv_perm with "H"). by rewrite HPn /=. }
        { by iApply (kv_raw with "Hkv2"). }
        iIntros (s1 Hext1) "H".
        iApply (wp_load64 with "V8"). iIntros "V8".
        iApply (wp_free _ _ (slot_blocks (true, ns2) ++ R ++ Bf) s1 a2 24 with "H [V0 V8 V16]").
        { iApply (words_raw1 with "V0"); [lia|]. iApply (words_raw1 with "V8"); [lia|].
          iApply (word_raw with "[V16]"); [|replace (a2 + 8 + 8) with (a2 + 16) by lia; done]. lia. }
        iIntros (s2 Hext2) "H".
        iApply (wp_load64 with "Ws"). iIntros "Ws".
        rewrite Eabs /= bool_decide_eq_true_2 // in Hok. specialize (Hok eq_refl ltac:(done)).
        unfold node_pairs in Hok. rewrite map_length in Hok.
        destruct ns2 as [|[[b kvb] xb] [|? ?]]; [| |simpl in Hok; lia]; cbn [nfirst].
        * rewrite (bool_decide_eq_true_2 (0 = 0)); [|done]. wpn.
          iApply (wp_h_count with "Wc"); [unfold is_u64; lia|]. iIntros "Wc".
          iApply wp_ret. rewrite (bool_decide_eq_true_2 (kv2 ≠ 0)); [|lia].
          assert (slot_del k (slot_abs (true, nn)) = slot_abs (false, [])) as E.
          { rewrite Eabs. unfold slot_del. cbn. by rewrite bool_decide_eq_true_2. }
          rewrite E in Hil, Hdwf |- *.
          iApply ("W" $! s2 with "[] [H]"); [| |
            iApply (h_close hsh _ _ _ _ _ _ (false, []) with "HO [Wc] [Ws Wy]"); [done| |cbn [slot_at]; iFrame; by iExists _]].
          -- iPureIntro. split; [done|]. eapply ext_weaken; [exact (ext_trans _ _ _ _ _ _ _ _ Hext1 Hext2)|done|].
             intros [?|?]; exists v2; [split; [done|by left]|]. split; [done|]. right. by rewrite Eabs.
          -- iExact "H".
          -- iEval (rewrite -Hil) in "Wc".
             replace (Z.of_nat (length (h_items (<[h_index hsh t k:=slot_abs (false, [])]> t)) + 1)%nat + -1)
               with (Z.of_nat (length (h_items (<[h_index hsh t k:=slot_abs (false, [])]> t)))) by lia. done.
        * assert ((b, kvb, xb) ∈ nn) as Hinb by (rewrite Heq; right; by left).
          destruct (node_in_blocks true _ _ Hinb) as [Hkvbb Hbb]. destruct (Hf _ _ (Hbb eq_refl)) as (Hb1&_&_&Hb2).
          destruct (Hf _ _ Hkvbb) as (Hkvb1 & Hkvb8 & Hxb0 & Hxb2). cbn [fst snd] in Hb1, Hb2, Hkvb1, Hxb0, Hxb2.
          rewrite (bool_decide_eq_false_2 (b = 0)); [|lia]. wpn.
          cbn [hseg nfirst]. iDestruct "Hns2" as "((X0 & X8 & X16 & Hkvb) & _)".
          iApply (wp_load64 with "X0"). iIntros "X0".
          rewrite (bool_decide_eq_true_2 (0 = 0)); [|done]. wpn.
          iApply (wp_load64 with "X8"). iIntros "X8". wpn.
          iApply (wp_store64 with "Ws"); [unfold is_u64; lia|]. iIntros "Ws". wpn.
          iApply (wp_load64 with "X16"). iIntros "X16". wpn.
          iApply (wp_store64 with "Wy"); [unfold is_u64, pair_size, dlen in *; lia|]. iIntros "Wy". wpn.
          iApply (wp_free _ _ ((kvb, pair_size xb) :: R ++ Bf) s2 b 24 with "[H] [X0 X8 X16]").
          { iApply (ainv_perm with "H"). apply Permutation_swap. }
          { iApply (words_raw1 with "X0"); [lia|]. iApply (words_raw1 with "X8"); [lia|].
            iApply (word_raw with "[X16]"); [|replace (b + 8 + 8) with (b + 16) by lia; done]. lia. }
          iIntros (s3 Hext3) "H".
          iApply (wp_h_count with "Wc"); [unfold is_u64; lia|]. iIntros "Wc".
          iApply wp_ret. rewrite (bool_decide_eq_true_2 (kv2 ≠ 0)); [|lia].
          assert (slot_del k (slot_abs (true, nn)) = slot_abs (false, [(b, kvb, xb)])) as E.
          { rewrite Eabs. unfold slot_del. cbn. by rewrite bool_decide_eq_true_2. }
          rewrite E in Hil, Hdwf |- *.
          iApply ("W" $! s3 with "[] [H]"); [| |
            iApply (h_close hsh _ _ _ _ _ _ (false, [(b, kvb, xb)]) with "HO [Wc] [Ws Wy Hkvb]"); [done| |cbn [slot_at]; iFrame]].
          -- iPureIntro. split; [done|].
             eapply ext_weaken; [exact (ext_trans _ _ _ _ _ _ _ _ (ext_trans _ _ _ _ _ _ _ _ Hext1 Hext2) Hext3)|done|].
             intros [[?|?]|?]; exists v2; [split; [done|by left]| |]; (split; [done|]; right; by rewrite Eabs).
          -- iExact "H".
          -- iEval (rewrite -Hil) in "Wc".
             replace (Z.of_nat (length (h_items (<[h_index hsh t k:=slot_abs (false, [(b, kvb, xb)])]> t)) + 1)%nat + -1)
               with (Z.of_nat (length (h_items (<[h_index hsh t k:=slot_abs (false, [(b, kvb, xb)])]> t)))) by lia. done.
      + (* not the first *)
        remember (y1 :: ns1_) as ns1 eqn:Hns1. assert (ns1 ≠ []) as Hn1 by by subst. clear Hns1 y1 ns1_.
        destruct (list_snoc_cases ns1) as [->|(ns' & [[a' kv'] x'] & Hns')]; [done|].
        assert (nlast 0 ns1 = a') as -> by (rewrite Hns'; apply nlast_snoc).
        assert ((a', kv', x') ∈ nn) as Hina.
        { rewrite Heq Hns'. apply elem_of_app; left. apply elem_of_app; right. by left. }
        destruct (node_in_blocks true _ _ Hina) as [_ Hab]. destruct (Hf _ _ (Hab eq_refl)) as (Ha'1&_&_&Ha'2).
        cbn [fst snd] in Ha'1, Ha'2.
        rewrite (bool_decide_eq_true_2 (a' ≠ 0)); [|lia].
        iEval (cbn [nfirst]; rewrite Hns' hseg_snoc) in "Hns1". iDestruct "Hns1" as "(Hns1 & (U0 & U8 & U16 & Hkv'))".
        iApply (wp_store64 with "U0"); [done|]. iIntros "U0".
        iAssert (hseg ns1 (nfirst ns2 0)) with "[Hns1 U0 U8 U16 Hkv']" as "Hns1".
        { rewrite Hns' hseg_snoc. iFrame. }
        iApply (wp_load64 with "V8"). iIntros "V8".
        iApply (wp_free _ _ ((a2, 24) :: slot_blocks (true, ns1 ++ ns2) ++ R ++ Bf) s kv2 (pair_size (k, v2)) with "[H] [Hkv2]").
        { iApply (ainv_perm with "H"). by rewrite HPn slot_blocks_app /=. }
        { by iApply (kv_raw with "Hkv2"). }
        iIntros (s1 Hext1) "H".
        iApply (wp_load64 with "V8"). iIntros "V8".
        iApply (wp_free _ _ (slot_blocks (true, ns1 ++ ns2) ++ R ++ Bf) s1 a2 24 with "H [V0 V8 V16]").
        { iApply (words_raw1 with "V0"); [lia|]. iApply (words_raw1 with "V8"); [lia|].
          iApply (word_raw with "[V16]"); [|replace (a2 + 8 + 8) with (a2 + 16) by lia; done]. lia. }
        iIntros (s2 Hext2) "H".
        iApply (wp_load64 with "Ws"). iIntros "Ws".
        rewrite (bool_decide_eq_false_2 (nfirst nn 0 + 1 = 0)); [|lia].
        iAssert (hseg (ns1 ++ ns2) 0) with "[Hns1 Hns2]" as "Hns". { rewrite hseg_app. iFrame. }
        destruct ns1 as [|[[f fkv] fx] ns1'] eqn:Ens1; [done|].
        assert (nfirst nn 0 = f) as Hnn1 by by rewrite Heq.
        rewrite Hnn1. cbn [app hseg]. iDestruct "Hns" as "((X0 & X8 & X16 & Hfkv) & Hns)". wpn.
        iApply (wp_load_odd with "X0 X8"). iIntros (z Hz) "X0 X8".
        assert (z ≠ 0) as Hz0.
        { rewrite Hz. assert (0 <= fkv mod 256 < 256) as Hmod by (apply Z.mod_pos_bound; lia).
          assert (0 <= nfirst (ns1' ++ ns2) 0 ∧ (256 <= nfirst (ns1' ++ ns2) 0 ∨ fkv mod 256 ≠ 0)) as [Hge Hcase].
          { rewrite Eabs is_first_app // in Hok. 
            specialize (Hok eq_refl ltac:(by rewrite get_key_found)). destruct Hok as [H8|Hl3].
            - assert ((f, fkv, fx) ∈ nn) as Hinf by (rewrite Heq; by left).
              destruct (node_in_blocks true _ _ Hinf) as [Hfb _].
              pose proof (Hodd8 H8 _ _ Hfb) as Hf16. cbn [fst snd] in Hf16. split.
              + destruct (ns1' ++ ns2) as [|[[g gkv] gx] rest] eqn:Er; cbn [nfirst]; [lia|].
                assert ((g, gkv, gx) ∈ nn) as Hing.
                { rewrite Heq /=. right. assert ((g, gkv, gx) ∈ ns1' ++ ns2) as Hg by (rewrite Er; by left).
                  apply elem_of_app in Hg as [?|?]; apply elem_of_app; [by left|right; by right]. }
                destruct (node_in_blocks true _ _ Hing) as [_ Hgb]. destruct (Hf _ _ (Hgb eq_refl)) as (?&_). simpl in *. lia.
              + right. intros H0. pose proof (Z.div_mod fkv 256 ltac:(lia)) as Hdm. rewrite H0 Z.add_0_r in Hdm.
                rewrite Hdm in Hf16. replace (256 * (fkv `div` 256)) with (0 + (16 * (fkv `div` 256)) * 16) in Hf16 by lia.
                rewrite Z_mod_plus_full in Hf16. done.
            - rewrite app_length /= /node_pairs !map_length in Hl3.
              destruct (ns1' ++ ns2) as [|[[g gkv] gx] rest] eqn:Er; cbn [nfirst].
              { apply (f_equal length) in Er. rewrite app_length in Er. simpl in *. lia. }
              assert ((g, gkv, gx) ∈ nn) as Hing.
              { rewrite Heq /=. right. assert ((g, gkv, gx) ∈ ns1' ++ ns2) as Hg by (rewrite Er; by left).
                apply elem_of_app in Hg as [?|?]; apply elem_of_app; [by left|right; by right]. }
              destruct (node_in_blocks true _ _ Hing) as [_ Hgb]. destruct (Hf _ _ (Hgb eq_refl)) as (?&_). simpl in *. lia. }
          destruct Hcase as [Hc|Hc].
          - pose proof (Z.div_le_mono 256 _ 256 ltac:(lia) Hc). change (256 / 256) with 1 in *. lia.
          - pose proof (Z.div_pos _ 256 Hge ltac:(lia)). lia. }
        rewrite (bool_decide_eq_false_2 (z = 0)); [|done]. wpn.
        iApply (wp_h_count with "Wc"); [unfold is_u64; lia|]. iIntros "Wc".
        iApply wp_ret. rewrite (bool_decide_eq_true_2 (kv2 ≠ 0)); [|lia].
        assert (slot_del k (slot_abs (true, nn)) = slot_abs (true, (f, fkv, fx) :: ns1' ++ ns2)) as E.
        { rewrite Eabs. unfold slot_del. cbn [fst snd]. rewrite del_key_split // is_first_app //.
          unfold slot_abs, node_pairs. cbn [fst snd map app]. by rewrite map_app. }
        rewrite E in Hil, Hdwf |- *.
        iApply ("W" $! s2 with "[] [H]"); [| |
          iApply (h_close hsh _ _ _ _ _ _ (true, (f, fkv, fx) :: ns1' ++ ns2) with "HO [Wc] [-]"); [done| |]].
        * iPureIntro. split; [done|]. eapply ext_weaken; [exact (ext_trans _ _ _ _ _ _ _ _ Hext1 Hext2)|done|].
          intros [?|?]; exists v2; [split; [done|by left]|]. split; [done|]. right. by rewrite Eabs.
        * rewrite -app_assoc. iExact "H".
        * iEval (rewrite -Hil) in "Wc".
          replace (Z.of_nat (length (h_items (<[h_index hsh t k:=slot_abs (true, (f, fkv, fx) :: ns1' ++ ns2)]> t)) + 1)%nat + -1)
            with (Z.of_nat (length (h_items (<[h_index hsh t k:=slot_abs (true, (f, fkv, fx) :: ns1' ++ ns2)]> t)))) by lia. done.
        * cbn [slot_at]. iFrame "Ws". iSplitL "Wy"; [by iExists _|]. cbn [hseg]. iFrame.
    - (* empty *)
      iDestruct "Hs" as "[Ws Wy]". iApply (wp_load64 with "Ws"). iIntros "Ws".
      rewrite (bool_decide_eq_true_2 (0 = 0)); [|done]. iApply wp_ret.
      iApply ("Hnone" $! (false, []) with "[//] [Ws Wy] Wc HO H W"). cbn [slot_at]. iFrame.
    - (* direct *)
      destruct ns as [|? ?]; [|iDestruct "Hs" as "[]"].
      iDestruct "Hs" as "(Ws & Wy & Hk0)".
      destruct (node_in_blocks false [(a, kv0, x)] (a, kv0, x)) as [Hkvb _]; [by left|].
      destruct (Hf _ _ Hkvb) as (Hk01 & Hk08 & Hx0 & Hx2). cbn [fst snd] in Hk01, Hk08, Hx0, Hx2.
      destruct (odd_tag kv0 Hk08) as (_ & Hodd & _ & _).
      iApply (wp_load64 with "Ws"). iIntros "Ws".
      rewrite (bool_decide_eq_false_2 (kv0 = 0)); [|lia]. rewrite Hodd. cbn [negb].
      iApply (wp_load64 with "Wy"). iIntros "Wy".
      iApply (wp_h_match with "Hk0"). iIntros "Hk0". destruct x as [kx vx]. cbn [fst snd].
      destruct (bool_decide_reflect (k = kx)) as [Hkk|Hkk].
      2:{ iApply wp_ret. iApply ("Hnone" $! (false, [(a, kv0, (kx, vx))]) with "[] [Ws Wy Hk0] Wc HO H W").
          - iPureIntro. split; [done|]. cbn. by rewrite bool_decide_eq_false_2.
          - cbn [slot_at]. iFrame. }
      subst kx. iClear "Hnone".
      assert (get_key k (slot_abs (false, [(a, kv0, (k, vx))])).2 = Some vx) as E2.
      { cbn. by rewrite bool_decide_eq_true_2. }
      rewrite E2 in Hil |- *. rewrite (bool_decide_eq_true_2 (Some vx ≠ None)); [|done].
      iApply (wp_free _ _ (R ++ Bf) s kv0 (pair_size (k, vx)) with "H [Hk0]").
      { by iApply (kv_raw with "Hk0"). }
      iIntros (s' Hext) "H".
      iApply (wp_load64 with "Ws"). iIntros "Ws".
      iApply (wp_store64 with "Ws"); [done|]. iIntros "Ws".
      iApply (wp_store64 with "Wy"); [done|]. iIntros "Wy".
      iApply (wp_h_count with "Wc"); [unfold is_u64; lia|]. iIntros "Wc".
      iApply wp_ret. rewrite (bool_decide_eq_true_2 (kv0 ≠ 0)); [|lia].
      assert (slot_del k (slot_abs (false, [(a, kv0, (k, vx))])) = slot_abs (false, [])) as E.
      { unfold slot_del. cbn. by rewrite bool_decide_eq_true_2. }
      rewrite E in Hil, Hdwf |- *.
      iApply ("W" $! s' with "[] [H]"); [| |
        iApply (h_close hsh _ _ _ _ _ _ (false, []) with "HO [Wc] [Ws Wy]"); [done| |cbn [slot_at]; iFrame; by iExists _]].
      + iPureIntro. split; [done|]. eapply ext_weaken; [exact Hext|done|]. intros ?. exists vx. split; [done|by left].
      + iExact "H".
      + iEval (rewrite -Hil) in "Wc".
        replace (Z.of_nat (length (h_items (<[h_index hsh t k:=slot_abs (false, [])]> t)) + 1)%nat + -1)
          with (Z.of_nat (length (h_items (<[h_index hsh t k:=slot_abs (false, [])]> t)))) by lia. done.
  Qed.
End hash.
