(** * HashTable: insert, incr, erase, clear, iteration, creation. *)
From Verif Require Export HashProof.
From iris.proofmode Require Import tactics.
From iris.prelude Require Import options.
Open Scope Z_scope.
Open Scope prog_scope.

Local Opaque h_slot h_match h_walk h_find h_allowed h_count.

Section hash.
  Context {RR : Rep} {PR : PoolRep} {al : allocator} (S : alloc_spec al) (c : cfg) (hsh : bytes → Z) (F : nat) (HF : 2 ^ 62 <= Z.of_nat F).
  Notation ainv := (ainv S c).
  Notation h_rep := (h_rep hsh).
  Notation h_hole := (h_hole hsh).
  Set Default Proof Using "All".

  (** Allocating and filling a new pair. *)
  Lemma wp_new_pair {A} k v Bx s (K : Z → prog A) Φ Ψ :
    bytes_ok k → bytes_ok v → as_size_ok S (dlen k + dlen v) → dlen k + dlen v <= 2 ^ 61 →
    ainv Bx s -∗
    ((∀ kv s', ⌜ext c (room (dlen k + dlen v)) False s s' ∧ 320 < kv ∧ kv mod 8 = 0 ∧ kv + (dlen k + dlen v) <= 2 ^ 62⌝ -∗
        ainv ((kv, dlen k + dlen v) :: Bx) s' -∗ kv_at kv (k, v) -∗ wp (K kv) Φ Ψ) ∧
     (⌜¬ grow_allowed c (s_m s + room (dlen k + dlen v))⌝ -∗ ainv Bx s -∗ Ψ RuntimeError)) -∗
    wp (kv <- al_allocate al (u64 (len k + len v)) ;; store_bytes kv k ;; store_bytes (kv + len k) v ;; K kv) Φ Ψ.
  Proof.
    iIntros (Hk Hv Hs Hle) "H W". rewrite (u64_small (len k + len v)); [|unfold dlen in *; lia].
    change (len k + len v) with (dlen k + dlen v).
    iApply (wp_allocate with "H"); [done|]. iSplit; [iDestruct "W" as "[W _]"|by iDestruct "W" as "[_ W]"].
    iIntros (kv s' He) "H R".
    iDestruct (raw_split _ (kv + dlen k) with "R") as "[R1 R2]"; [unfold dlen; lia|].
    iApply (wp_store_bytes_b with "R1"); [done|done|]. iIntros "P1".
    iApply (wp_store_bytes_b with "R2"); [done|unfold dlen; lia|]. iIntros "P2".
    iApply ("W" with "[//] H"). iApply (kv_value_back kv (k, v) with "P1 P2").
  Qed.

  Definition old_leaky (t : htable) (k : bytes) : Prop :=
    ∃ w, h_get hsh t k = Some w ∧ as_leaky S (pair_size (k, w)).

  (** The part of insert after the new pair has been written. *)
  Definition h_link (base : Z) (k v : bytes) (kv : Z) : prog bool :=
    slot <- h_slot base (hsh k) ;;
    ko <- load64 slot ;;
    if bool_decide (ko = 0) then
      store64 slot kv ;;
      store64 (slot + 8) (len k) ;;
      h_count base 1 ;;
      Ret true
    else if negb (Z.odd ko) then
      ks <- load64 (slot + 8) ;;
      m <- h_match ko ks k ;;
      if (m : bool) then
        al_free al ko ;;
        store64 slot kv ;;
        store64 (slot + 8) (len k) ;;
        Ret true
      else
        ex <- al_allocate al 24 ;;
        cr <- al_allocate al 24 ;;
        store64 cr 0 ;;
        store64 (cr + 8) kv ;;
        store64 (cr + 16) (len k) ;;
        store64 ex cr ;;
        ko <- load64 slot ;;
        store64 (ex + 8) ko ;;
        ks <- load64 (slot + 8) ;;
        store64 (ex + 16) ks ;;
        store64 slot (Z.lor ex 1) ;;
        store64 (slot + 8) 0 ;;
        h_count base 1 ;;
        Ret true
    else
      '(prev, cur) <- h_walk F 0 (Z.ldiff ko 1) k ;;
      if bool_decide (cur <> 0) then
        ko <- load64 (cur + 8) ;;
        al_free al ko ;;
        store64 (cur + 8) kv ;;
        store64 (cur + 16) (len k) ;;
        Ret true
      else
        cr <- al_allocate al 24 ;;
        store64 prev cr ;;
        store64 cr 0 ;;
        store64 (cr + 8) kv ;;
        store64 (cr + 16) (len k) ;;
        h_count base 1 ;;
        Ret true.

  Lemma wp_h_link o t k v kv B Bf s Φ Ψ :
    as_size_ok S 24 → 320 < kv → kv mod 8 = 0 → kv + (dlen k + dlen v) <= 2 ^ 62 →
    ainv ((kv, pair_size (k, v)) :: B ++ Bf) s -∗ h_rep o t B -∗ kv_at kv (k, v) -∗
    ((∀ s' B', ⌜ext c (room 24 + room 24) (old_leaky t k) s s'⌝ -∗ ainv (B' ++ Bf) s' -∗
        h_rep o (h_put hsh t k v) B' -∗ Φ true) ∧
     (∀ s' J, ⌜ext c (room 24 + room 24) False s s' ∧ ¬ grow_allowed c (s_m s + room 24 + room 24)⌝ -∗
        ainv (J ++ B ++ Bf) s' -∗ h_rep o t B -∗ raws J -∗ Ψ RuntimeError)) -∗
    wp (h_link o k v kv) Φ Ψ.
  Proof.
    iIntros (H24 Hkv1 Hkv8 Hkv2) "H HR Hkv W".
    iDestruct (h_rep_wf with "HR") as %Hwf. pose proof Hwf as [Hne _].
    iAssert (ainv (B ++ ((kv, pair_size (k, v)) :: Bf)) s) with "[H]" as "H".
    { iApply (ainv_perm with "H"). apply Permutation_middle. }
    iDestruct (h_rep_count with "H HR") as %Hcount; [done|].
    iDestruct (h_focus hsh o t B k with "HR") as "(%bits & %so & %p & %R & %Hpure & Wc & Hs & HO)".
    destruct Hpure as (Hp & HB & _ & [n Hso]).
    iDestruct (slot_block_facts with "H") as %(Hf & HfR & Hlen); [exact HB|].
    pose proof (h_insert_len hsh t k v Hwf) as Hil. pose proof (h_put_wf hsh t k v Hwf) as Hpwf.
    unfold h_put, h_get in Hil, Hpwf. rewrite -Hp in Hil, Hpwf.
    unfold h_link, old_leaky, h_put, h_get. rewrite -Hp.
    iAssert (ainv ((kv, pair_size (k, v)) :: slot_blocks p ++ R ++ Bf) s) with "[H]" as "H".
    { iApply (ainv_perm with "H"). rewrite HB -Permutation_middle. by rewrite app_assoc. }
    iAssert (∀ p', ⌜p' = p⌝ -∗ slot_at (so + 16 * (hsh k mod 2 ^ bits)) p' -∗
       word (o + 16) (length (h_items t)) -∗ h_hole o t k bits so R -∗ h_rep o t B)%I as "Hback".
    { iIntros (p' ->) "Hs Wc HO". iApply h_rep_perm; [symmetry; exact HB|].
      iApply (h_unfocus with "Wc Hs HO"); done. }
    iApply (wp_h_slot _ _ _ _ _ _ R with "HO"). iIntros "HO". cbv beta.
    set (sl := so + 16 * (hsh k mod 2 ^ bits)).
    assert (is_u64 kv) as Hkvu by (unfold is_u64, dlen in *; lia).
    assert (is_u64 (len k)) as Hku by (unfold is_u64, dlen in *; lia).
    destruct p as [[|] [|[[a kv0] x] ns]]; cbn [slot_at]; try (iDestruct "Hs" as "[]").
    - (* chain *)
      iDestruct "Hs" as "(Ws & [%y Wy] & Hns)".
      destruct (node_in_blocks true ((a, kv0, x) :: ns) (a, kv0, x)) as [_ Ha]; [by left|].
      destruct (Hf _ _ (Ha eq_refl)) as (Ha1 & Ha8 & _). cbn [fst snd] in Ha1, Ha8.
      destruct (odd_tag a Ha8) as (Hodd & _ & Htag & _).
      iApply (wp_load64 with "Ws"). iIntros "Ws".
      rewrite bool_decide_eq_false_2; [|lia]. rewrite Hodd. cbn [negb]. rewrite Htag.
      iApply (wp_h_walk with "Hns"); [simpl in *; lia| |].
      { intros z Hz. destruct (node_in_blocks true _ z Hz) as [_ Hz2].
        destruct (Hf _ _ (Hz2 eq_refl)) as (?&_). lia. }
      iIntros (ns1 ns2 (Heq & Hk1 & Hk2)) "Hns".
      change (word sl (a + 1)) with (word sl (nfirst ((a, kv0, x) :: ns) 0 + 1)).
      assert ((a, kv0, x) :: ns ≠ []) as Hnn by done.
      remember ((a, kv0, x) :: ns) as nn eqn:Hnn0. clear Hnn0 Ha Ha1 Ha8 Hodd Htag.
      destruct ns2 as [|[[a2 kv2] [k2 v2]] ns2]; cbn [nfirst].
      + rewrite (bool_decide_eq_false_2 (0 ≠ 0)); [|lia]. rewrite app_nil_r in Heq. subst ns1.
        iApply (wp_allocate with "H"); [done|]. iSplit.
        2:{ iIntros (Hg) "H". iDestruct "W" as "[_ W]".
            iApply ("W" $! s [(kv, pair_size (k, v))] with "[] [H] [Ws Wy Hns Wc HO] [Hkv]").
            - iPureIntro. split; [eapply ext_weaken; [apply ext_refl|unfold room; lia|done]|].
              intros Hg'. apply Hg. eapply grow_allowed_mono; [|exact Hg']. unfold room; lia.
            - iApply (ainv_perm with "H"). simpl. by rewrite HB -app_assoc.
            - iApply ("Hback" with "[//] [Ws Wy Hns] Wc HO"). rewrite slot_true //. iFrame "Ws". iSplitL "Wy"; [by iExists _|done].
            - unfold raws. rewrite big_sepL_singleton. by iApply (kv_raw with "Hkv"). }
        iIntros (cr s2 (Hext2 & Hcr1 & Hcr8 & Hcr2)) "H Rcr".
        iDestruct (raw_words1 with "Rcr") as "[[%c0 C0] Rcr]"; [lia|].
        iDestruct (raw_words1 with "Rcr") as "[[%c8 C8] Rcr]"; [lia|].
        iDestruct (raw_word with "Rcr") as "[%c16 C16]"; [lia|].
        replace (cr + 8 + 8) with (cr + 16) by lia.
        assert (is_u64 cr) as Hcru by (unfold is_u64; lia).
        destruct (list_snoc_cases nn) as [->|(ns' & [[a' kv'] x'] & Hnn')]; [done|].
        iEval (rewrite Hnn' hseg_snoc) in "Hns". assert (nlast 0 nn = a') as -> by (rewrite Hnn'; apply nlast_snoc).
        iDestruct "Hns" as "(Hns & (V0 & V8 & V16 & Hkv'))".
        iApply (wp_store64 with "V0"); [done|]. iIntros "V0".
        iApply (wp_store64 with "C0"); [done|]. iIntros "C0".
        iApply (wp_store64 with "C8"); [done|]. iIntros "C8".
        iApply (wp_store64 with "C16"); [done|]. iIntros "C16".
        iApply (wp_h_count with "Wc"); [unfold is_u64; lia|]. iIntros "Wc".
        iApply wp_ret. iDestruct "W" as "[W _]".
        assert (slot_put k v (slot_abs (true, nn)) = slot_abs (true, nn ++ [(cr, kv, (k, v))])) as E.
        { unfold slot_abs, node_pairs. cbn [fst snd]. rewrite map_app. apply slot_put_absent; [done|].
          destruct nn; done. }
        assert (get_key k (slot_abs (true, nn)).2 = None) as E2.
        { by apply get_key_None. }
        rewrite E E2 in Hil, Hpwf |- *.
        iApply ("W" $! s2 with "[] [H]"); [| |
          iApply (h_close hsh _ _ _ _ _ _ (true, nn ++ [(cr, kv, (k, v))]) with "HO [Wc] [-]"); [done| |]].
        * iPureIntro. eapply ext_weaken; [exact Hext2|unfold room; lia|done].
        * iApply (ainv_perm with "H"). rewrite slot_blocks_app. unfold slot_blocks at 3, node_blocks. simpl.
          rewrite -!app_assoc /=. rewrite -!Permutation_middle. apply Permutation_swap.
        * by rewrite Hil Nat2Z.inj_add.
        * rewrite slot_true; [|by destruct nn]. rewrite nfirst_app.
          replace (nfirst nn (nfirst [(cr, kv, (k, v))] 0)) with (nfirst nn 0) by (destruct nn as [|[[??]?]?]; done).
          iFrame "Ws". iSplitL "Wy"; [by iExists _|]. rewrite hseg_snoc Hnn' hseg_snoc. iFrame. 
      + assert ((a2, kv2, (k2, v2)) ∈ nn) as Hin2.
        { rewrite Heq. apply elem_of_app. right. by left. }
        simpl in Hk2. subst k2.
        destruct (node_in_blocks true _ _ Hin2) as [Hkv2b Ha2]. specialize (Ha2 eq_refl).
        destruct (Hf _ _ Ha2) as (Ha21 & _). destruct (Hf _ _ Hkv2b) as (Hkv21 & _ & Hx0 & Hx2).
        cbn [fst snd] in Hkv21, Hx0, Hx2, Ha21.
        rewrite bool_decide_eq_true_2; [|lia].
        iEval (rewrite Heq hseg_app; cbn [hseg]) in "Hns".
        iDestruct "Hns" as "(Hns1 & (V0 & V8 & V16 & Hkv2) & Hns2)".
        iApply (wp_load64 with "V8"). iIntros "V8".
        assert (slot_blocks (true, nn) ≡ₚ (kv2, pair_size (k, v2)) :: (a2, 24) :: slot_blocks (true, ns1) ++ slot_blocks (true, ns2)) as HPn.
        { rewrite Heq slot_blocks_app slot_blocks_cons. unfold node_blocks. simpl. by rewrite -!Permutation_middle. }
        iApply (wp_free _ _ ((kv, pair_size (k, v)) :: (a2, 24) :: slot_blocks (true, ns1) ++ slot_blocks (true, ns2) ++ R ++ Bf) s kv2 (pair_size (k, v2)) with "[H] [Hkv2]").
        { iApply (ainv_perm with "H"). rewrite HPn /= -app_assoc. apply Permutation_swap. }
        { by iApply (kv_raw with "Hkv2"). }
        iIntros (s' Hext) "H".
        iApply (wp_store64 with "V8"); [done|]. iIntros "V8".
        iApply (wp_store64 with "V16"); [done|]. iIntros "V16".
        iApply wp_ret. iDestruct "W" as "[W _]".
        assert (slot_put k v (slot_abs (true, nn)) = slot_abs (true, ns1 ++ (a2, kv, (k, v)) :: ns2)) as E.
        { unfold slot_abs, node_pairs. cbn [fst snd]. rewrite Heq !map_app. cbn [map snd]. by apply slot_put_found. }
        assert (get_key k (slot_abs (true, nn)).2 = Some v2) as E2.
        { unfold slot_abs, node_pairs. cbn [fst snd]. rewrite Heq !map_app. cbn [map snd]. by apply get_key_found. }
        rewrite E E2 in Hil, Hpwf |- *.
        iApply ("W" $! s' with "[] [H]"); [| |
          iApply (h_close hsh _ _ _ _ _ _ (true, ns1 ++ (a2, kv, (k, v)) :: ns2) with "HO [Wc] [-]"); [done| |]].
        * iPureIntro. eapply ext_weaken; [exact Hext|unfold room; lia|]. intros ?. by exists v2.
        * iApply (ainv_perm with "H"). rewrite slot_blocks_app slot_blocks_cons. unfold node_blocks. simpl.
          rewrite -!app_assoc /=. by rewrite -!Permutation_middle.
        * by rewrite Hil Nat.add_0_r.
        * rewrite slot_true; [|by destruct ns1]. rewrite Heq !nfirst_app. cbn [nfirst].
          iFrame "Ws". iSplitL "Wy"; [by iExists _|]. rewrite hseg_app. cbn [hseg nfirst]. iFrame.
    - (* empty *)
      iDestruct "Hs" as "[Ws [%y Wy]]". iApply (wp_load64 with "Ws"). iIntros "Ws".
      rewrite bool_decide_eq_true_2; [|done].
      iApply (wp_store64 with "Ws"); [done|]. iIntros "Ws".
      iApply (wp_store64 with "Wy"); [done|]. iIntros "Wy".
      iApply (wp_h_count with "Wc"); [unfold is_u64; lia|]. iIntros "Wc".
      iApply wp_ret. iDestruct "W" as "[W _]".
      iApply ("W" $! s with "[] [H]"); [| |
        iApply (h_close hsh _ _ _ _ _ _ (false, [(0, kv, (k, v))]) with "HO [Wc] [Ws Wy Hkv]"); [done| |cbn [slot_at]; iFrame]].
      + iPureIntro. eapply ext_weaken; [apply ext_refl|unfold room; lia|done].
      + iExact "H".
      + change (slot_put k v (slot_abs (false, []))) with (slot_abs (false, [(0, kv, (k, v))])) in Hil.
        rewrite Hil Nat2Z.inj_add. done.
    - (* direct *)
      destruct ns as [|? ?]; [|iDestruct "Hs" as "[]"].
      iDestruct "Hs" as "(Ws & Wy & Hk0)".
      destruct (node_in_blocks false [(a, kv0, x)] (a, kv0, x)) as [Hkvb _]; [by left|].
      destruct (Hf _ _ Hkvb) as (Hk01 & Hk08 & Hx0 & Hx2). cbn [fst snd] in Hk01, Hk08, Hx0, Hx2.
      destruct (odd_tag kv0 Hk08) as (_ & Hodd & _ & _).
      iApply (wp_load64 with "Ws"). iIntros "Ws".
      rewrite bool_decide_eq_false_2; [|lia]. rewrite Hodd. cbn [negb].
      iApply (wp_load64 with "Wy"). iIntros "Wy".
      iApply (wp_h_match with "Hk0"). iIntros "Hk0". destruct x as [kx vx]. cbn [fst snd].
      case_bool_decide as Hk.
      + subst kx.
        iApply (wp_free _ _ ((kv, pair_size (k, v)) :: R ++ Bf) s kv0 (pair_size (k, vx)) with "[H] [Hk0]").
        { iApply (ainv_perm with "H"). apply Permutation_swap. }
        { by iApply (kv_raw with "Hk0"). }
        iIntros (s' Hext) "H".
        iApply (wp_store64 with "Ws"); [done|]. iIntros "Ws".
        iApply (wp_store64 with "Wy"); [done|]. iIntros "Wy".
        iApply wp_ret. iDestruct "W" as "[W _]".
        assert (slot_put k v (slot_abs (false, [(a, kv0, (k, vx))])) = slot_abs (false, [(a, kv, (k, v))])) as E.
        { apply (slot_put_found k v false [] vx []). apply not_elem_of_nil. }
        assert (get_key k (slot_abs (false, [(a, kv0, (k, vx))])).2 = Some vx) as E2.
        { cbn. by rewrite bool_decide_eq_true_2. }
        rewrite E E2 in Hil, Hpwf |- *.
        iApply ("W" $! s' with "[] [H]"); [| |
          iApply (h_close hsh _ _ _ _ _ _ (false, [(a, kv, (k, v))]) with "HO [Wc] [Ws Wy Hkv]"); [done| |cbn [slot_at]; iFrame]].
        * iPureIntro. eapply ext_weaken; [exact Hext|unfold room; lia|]. intros ?. by exists vx.
        * iExact "H".
        * by rewrite Hil Nat.add_0_r.
      + iApply (wp_allocate with "H"); [done|]. iSplit.
        2:{ iIntros (Hg) "H". iDestruct "W" as "[_ W]".
            iApply ("W" $! s [(kv, pair_size (k, v))] with "[] [H] [Ws Wy Hk0 Wc HO] [Hkv]").
            - iPureIntro. split; [eapply ext_weaken; [apply ext_refl|unfold room; lia|done]|].
              intros Hg'. apply Hg. eapply grow_allowed_mono; [|exact Hg']. unfold room; lia.
            - iApply (ainv_perm with "H"). simpl. rewrite HB. done.
            - iApply ("Hback" with "[//] [Ws Wy Hk0] Wc HO"). iFrame.
            - unfold raws. rewrite big_sepL_singleton. by iApply (kv_raw with "Hkv"). }
        iIntros (ex s1 (Hext1 & Hex1 & Hex8 & Hex2)) "H Rex".
        iApply (wp_allocate with "H"); [done|]. iSplit.
        2:{ iIntros (Hg) "H". iDestruct "W" as "[_ W]".
            iApply ("W" $! s1 [(ex, 24); (kv, pair_size (k, v))] with "[] [H] [Ws Wy Hk0 Wc HO] [Hkv Rex]").
            - iPureIntro. split; [eapply ext_weaken; [exact Hext1|unfold room; lia|done]|].
              intros Hg'. apply Hg. eapply grow_allowed_mono; [|exact Hg']. destruct Hext1 as (?&_). lia.
            - iApply (ainv_perm with "H"). simpl. rewrite HB. done.
            - iApply ("Hback" with "[//] [Ws Wy Hk0] Wc HO"). iFrame.
            - unfold raws. simpl. iFrame "Rex". iSplit; [|done]. by iApply (kv_raw with "Hkv"). }
        iIntros (cr s2 (Hext2 & Hcr1 & Hcr8 & Hcr2)) "H Rcr".
        iDestruct (raw_words1 with "Rcr") as "[[%c0 C0] Rcr]"; [lia|].
        iDestruct (raw_words1 with "Rcr") as "[[%c8 C8] Rcr]"; [lia|].
        iDestruct (raw_word with "Rcr") as "[%c16 C16]"; [lia|].
        iDestruct (raw_words1 with "Rex") as "[[%e0 E0] Rex]"; [lia|].
        iDestruct (raw_words1 with "Rex") as "[[%e8 E8] Rex]"; [lia|].
        iDestruct (raw_word with "Rex") as "[%e16 E16]"; [lia|].
        replace (cr + 8 + 8) with (cr + 16) by lia. replace (ex + 8 + 8) with (ex + 16) by lia.
        assert (is_u64 ex) as Hexu by (unfold is_u64; lia). assert (is_u64 cr) as Hcru by (unfold is_u64; lia).
        iApply (wp_store64 with "C0"); [done|]. iIntros "C0".
        iApply (wp_store64 with "C8"); [done|]. iIntros "C8".
        iApply (wp_store64 with "C16"); [done|]. iIntros "C16".
        iApply (wp_store64 with "E0"); [done|]. iIntros "E0".
        iApply (wp_load64 with "Ws"). iIntros "Ws".
        iApply (wp_store64 with "E8"); [unfold is_u64; lia|]. iIntros "E8".
        iApply (wp_load64 with "Wy"). iIntros "Wy".
        iApply (wp_store64 with "E16"); [unfold is_u64, pair_size, dlen in *; simpl in *; lia|]. iIntros "E16".
        destruct (odd_tag ex Hex8) as (_ & _ & _ & ->).
        iApply (wp_store64 with "Ws"); [unfold is_u64; lia|]. iIntros "Ws".
        iApply (wp_store64 with "Wy"); [done|]. iIntros "Wy".
        iApply (wp_h_count with "Wc"); [unfold is_u64; lia|]. iIntros "Wc".
        iApply wp_ret. iDestruct "W" as "[W _]".
        assert (slot_put k v (slot_abs (false, [(a, kv0, (kx, vx))])) =
          slot_abs (true, [(ex, kv0, (kx, vx)); (cr, kv, (k, v))])) as E.
        { apply (slot_put_absent k v false [(kx, vx)]); [|done]. cbn. by apply not_elem_of_cons; split; [|apply not_elem_of_nil]. }
        assert (get_key k (slot_abs (false, [(a, kv0, (kx, vx))])).2 = None) as E2.
        { cbn. by rewrite bool_decide_eq_false_2. }
        rewrite E E2 in Hil, Hpwf |- *.
        iApply ("W" $! s2 with "[] [H]"); [| |
          iApply (h_close hsh _ _ _ _ _ _ (true, [(ex, kv0, (kx, vx)); (cr, kv, (k, v))]) with "HO [Wc] [-]");
            [done| |cbn [slot_at hseg nfirst]; unfold hnode_at; iFrame; by iExists 0]].
        * iPureIntro. eapply ext_weaken; [exact (ext_trans _ _ _ _ _ _ _ _ Hext1 Hext2)|lia|tauto].
        * iApply (ainv_perm with "H"). unfold slot_blocks, node_blocks. simpl.
          (* cr ex kv kv0 = kv0 ex kv cr *)
          rewrite (Permutation_swap (kv0, _) (kv, _)).
          rewrite (Permutation_swap (kv0, _) (ex, _)).
          rewrite (Permutation_swap (kv0, _) (cr, _)). constructor.
          rewrite (Permutation_swap (ex, _) (cr, _)). constructor. apply Permutation_swap.
        * by rewrite Hil Nat2Z.inj_add.
  Qed.

  Lemma wp_h_insert o t k v chk B Bf s Φ Ψ :
    bytes_ok k → bytes_ok v → as_size_ok S (dlen k + dlen v) → dlen k + dlen v <= 2 ^ 61 → as_size_ok S 24 →
    ainv (B ++ Bf) s -∗ h_rep o t B -∗
    ((∀ s' B', ⌜h_holds hsh t chk = true ∧ ext c (room (dlen k + dlen v) + room 24 + room 24) (old_leaky t k) s s'⌝ -∗
        ainv (B' ++ Bf) s' -∗ h_rep o (h_put hsh t k v) B' -∗ Φ true) ∧
     (⌜h_holds hsh t chk = false⌝ -∗ ainv (B ++ Bf) s -∗ h_rep o t B -∗ Φ false) ∧
     (∀ s' J, ⌜h_holds hsh t chk = true ∧ ext c (room (dlen k + dlen v) + room 24 + room 24) False s s' ∧
          ¬ grow_allowed c (s_m s + (room (dlen k + dlen v) + room 24 + room 24))⌝ -∗
        ainv (J ++ B ++ Bf) s' -∗ h_rep o t B -∗ raws J -∗ Ψ RuntimeError)) -∗
    wp (h_insert al F hsh o k v chk) Φ Ψ.
  Proof.
    iIntros (Hk Hv Hs Hle H24) "H HR W".
    assert (h_insert al F hsh o k v chk = (ok <- h_allowed al F hsh o chk ;;
      if negb ok then Ret false else
      kv <- al_allocate al (u64 (len k + len v)) ;; store_bytes kv k ;; store_bytes (kv + len k) v ;; h_link o k v kv)) as -> by done.
    iApply (wp_h_allowed with "H HR"); [done|]. iIntros "H HR".
    destruct (h_holds hsh t chk); cbn [negb].
    2:{ iApply wp_ret. iDestruct "W" as "[_ [W _]]". by iApply ("W" with "[] H HR"). }
    iApply (wp_new_pair with "H"); [done|done|done|done|]. iSplit.
    - iIntros (kv s1 (Hext & Hkv1 & Hkv8 & Hkv2)) "H Hkv".
      iApply (wp_h_link with "H HR Hkv"); [done|done|done|done|]. iSplit.
      + iIntros (s' B' Hext2) "H HR". iDestruct "W" as "[W _]". iApply ("W" with "[] H HR"). iPureIntro.
        split; [done|]. eapply ext_weaken; [exact (ext_trans _ _ _ _ _ _ _ _ Hext Hext2)|lia|tauto].
      + iIntros (s' J [Hext2 Hg]) "H HR HJ". iDestruct "W" as "[_ [_ W]]". iApply ("W" with "[] H HR HJ"). iPureIntro.
        split; [done|]. split; [eapply ext_weaken; [exact (ext_trans _ _ _ _ _ _ _ _ Hext Hext2)|lia|tauto]|].
        intros Hg'. apply Hg. eapply grow_allowed_mono; [|exact Hg']. destruct Hext as (?&_). lia.
    - iIntros (Hg) "H". iDestruct "W" as "[_ [_ W]]". iApply ("W" $! s [] with "[] H HR []"); [|by rewrite /raws]. iPureIntro.
      split; [done|]. split; [eapply ext_weaken; [apply ext_refl|unfold room, dlen; lia|done]|].
      intros Hg'. apply Hg. eapply grow_allowed_mono; [|exact Hg']. unfold room; lia.
  Qed.

  Lemma steady_ext r P s s' : ¬ grow_allowed c (s_m s + 1) → ext c r P s s' → s_m s' = s_m s ∧ s_e s' = s_e s.
  Proof.
    intros Hg (Hm & _ & He & _ & Hgr). assert (s_m s' = s_m s) as Hmm.
    { destruct Hgr as [?|Hgr]; [done|]. destruct (decide (s_m s' = s_m s)); [done|]. exfalso. apply Hg.
      eapply grow_allowed_mono; [|exact Hgr]. lia. }
    auto.
  Qed.

  Lemma wp_h_incr u new o t k B Bf s Φ Ψ :
    bytes_ok k → bytes_ok new → length new = 8%nat →
    (∀ n f d, u n = Some f → dlen d = n → bytes_ok (f d) ∧ dlen (f d) = n) →
    fst (h_slot_of hsh t k) = false →
    (h_get hsh t k = None → as_size_ok S (dlen k + 8) ∧ dlen k + 8 <= 2 ^ 61 ∧ as_size_ok S 24 ∧
       ¬ grow_allowed c (s_m s + 1)) →
    ainv (B ++ Bf) s -∗ h_rep o t B -∗
    ((∀ s' B' d, ⌜h_incr_value hsh u new t k = Some d ∧
          ext c (match h_get hsh t k with Some _ => 0 | None => room (dlen k + 8) + room 24 + room 24 end) False s s'⌝ -∗
        ainv (B' ++ Bf) s' -∗ h_rep o (h_put hsh t k d) B' -∗ Φ d) ∧
     (⌜h_incr_value hsh u new t k = None⌝ -∗ ainv (B ++ Bf) s -∗ h_rep o t B -∗ Ψ OutOfRange) ∧
     (∀ s' J, ⌜h_get hsh t k = None ∧ ext c (room (dlen k + 8) + room 24 + room 24) False s s' ∧
          ¬ grow_allowed c (s_m s + (room (dlen k + 8) + room 24 + room 24))⌝ -∗
        ainv (J ++ B ++ Bf) s' -∗ h_rep o t B -∗ raws J -∗ Ψ RuntimeError)) -∗
    wp (h_incr al F hsh u new o k) Φ Ψ.
  Proof.
    iIntros (Hk Hnew Hnl Hu Hdir Habs) "H HR W".
    assert (dlen new = 8) as Hnl' by (unfold dlen; lia).
    iDestruct (h_rep_wf with "HR") as %Hwf. pose proof Hwf as [Hne _].
    iDestruct (h_rep_count with "H HR") as %Hcount; [done|].
    iDestruct (h_focus hsh o t B k with "HR") as "(%bits & %so & %p & %R & %Hpure & Wc & Hs & HO)".
    destruct Hpure as (Hp & HB & _ & [n Hso]).
    iDestruct (slot_block_facts with "H") as %(Hf & HfR & Hlen); [exact HB|].
    assert (∀ v, length (h_items (h_put hsh t k v)) = (length (h_items t) + if h_get hsh t k then 0 else 1)%nat ∧
       h_wf hsh (h_put hsh t k v)) as Hput.
    { intros v. split; [by apply h_insert_len|by apply h_put_wf]. }
    unfold h_put, h_get in Hput. rewrite -Hp in Hput, Hdir.
    unfold h_incr, h_incr_value, h_put, h_get in *. rewrite -Hp in Habs |- *.
    iAssert (ainv (slot_blocks p ++ R ++ Bf) s) with "[H]" as "H".
    { iApply (ainv_perm with "H"). by rewrite HB app_assoc. }
    iAssert (∀ p', ⌜p' = p⌝ -∗ slot_at (so + 16 * (hsh k mod 2 ^ bits)) p' -∗
       word (o + 16) (length (h_items t)) -∗ h_hole o t k bits so R -∗ h_rep o t B)%I as "Hback".
    { iIntros (p' ->) "Hs Wc HO". iApply h_rep_perm; [symmetry; exact HB|].
      iApply (h_unfocus with "Wc Hs HO"); done. }
    iApply (wp_epoch with "H"). iIntros "H". cbv beta.
    iApply (wp_h_slot _ _ _ _ _ _ R with "HO"). iIntros "HO". cbv beta.
    set (sl := so + 16 * (hsh k mod 2 ^ bits)).
    destruct p as [[|] [|[[a kv0] x] ns]]; cbn [slot_at]; try (iDestruct "Hs" as "[]"); [done| |].
    - (* empty *)
      destruct (Habs eq_refl) as (Hs8 & Hs8l & H24 & Hsteady).
      assert (is_u64 (len k)) as Hku by (unfold is_u64, dlen in *; lia).
      iDestruct "Hs" as "[Ws [%y Wy]]". iApply (wp_load64 with "Ws"). iIntros "Ws".
      rewrite bool_decide_eq_true_2; [|done].
      rewrite (u64_small (len k + 8)); [|unfold dlen in *; lia]. change (len k + 8) with (dlen k + 8).
      iApply (wp_allocate with "H"); [done|]. iSplit.
      2:{ iIntros (Hg) "H". iDestruct "W" as "[_ [_ W]]".
          iApply ("W" $! s [] with "[] [H] [Ws Wy Wc HO] []"); [| | |by rewrite /raws].
          - iPureIntro. split; [done|]. split; [eapply ext_weaken; [apply ext_refl|unfold room, dlen; lia|done]|].
            intros Hg'. apply Hg. eapply grow_allowed_mono; [|exact Hg']. unfold room; lia.
          - iApply (ainv_perm with "H"). simpl. by rewrite HB.
          - iApply ("Hback" with "[//] [Ws Wy] Wc HO"). cbn [slot_at]. iFrame. by iExists _. }
      iIntros (kv s1 (Hext1 & Hkv1 & Hkv8 & Hkv2)) "H R".
      destruct (steady_ext _ _ _ _ Hsteady Hext1) as [_ He1].
      assert (is_u64 kv) as Hkvu by (unfold is_u64, dlen in *; lia).
      unfold h_same_mapping. wpn. iApply (wp_epoch with "H"). iIntros "H". rewrite He1 bool_decide_eq_true_2; [|done]. wpn.
      iApply (wp_store64 with "Ws"); [done|]. iIntros "Ws".
      iDestruct (raw_split _ (kv + dlen k) with "R") as "[R1 R2]"; [unfold dlen; lia|].
      iApply (wp_store_bytes_b with "R1"); [done|done|]. iIntros "P1".
      iApply (wp_store_bytes_b with "R2"); [done|unfold dlen in *; lia|]. iIntros "P2".
      iDestruct (kv_value_back kv (k, new) with "P1 P2") as "Hkv".
      iApply (wp_store64 with "Wy"); [done|]. iIntros "Wy".
      iApply (wp_h_count with "Wc"); [unfold is_u64; lia|]. iIntros "Wc".
      iApply wp_ret. iDestruct "W" as "[W _]". destruct (Hput new) as [Hil Hpwf].
      iApply ("W" $! s1 _ new with "[] [H]"); [| |
        iApply (h_close hsh _ _ _ _ _ _ (false, [(0, kv, (k, new))]) with "HO [Wc] [Ws Wy Hkv]"); [done| |cbn [slot_at]; iFrame]].
      + iPureIntro. split; [done|]. change (ext c (room (dlen k + 8) + room 24 + room 24) False s s1).
        eapply ext_weaken; [exact Hext1|unfold room; lia|done].
      + unfold slot_blocks, node_blocks, pair_size. simpl. rewrite Hnl'. iExact "H".
      + change (slot_put k new (slot_abs (false, []))) with (slot_abs (false, [(0, kv, (k, new))])) in Hil.
        rewrite Hil Nat2Z.inj_add. done.
    - (* direct *)
      destruct ns as [|? ?]; [|iDestruct "Hs" as "[]"].
      iDestruct "Hs" as "(Ws & Wy & Hk0)".
      destruct (node_in_blocks false [(a, kv0, x)] (a, kv0, x)) as [Hkvb _]; [by left|].
      destruct (Hf _ _ Hkvb) as (Hk01 & Hk08 & Hx0 & Hx2). cbn [fst snd] in Hk01, Hk08, Hx0, Hx2.
      destruct (odd_tag kv0 Hk08) as (_ & Hodd & _ & _).
      iApply (wp_load64 with "Ws"). iIntros "Ws".
      rewrite bool_decide_eq_false_2; [|lia]. rewrite Hodd. cbn [negb].
      iApply (wp_load64 with "Wy"). iIntros "Wy".
      iApply (wp_h_match with "Hk0"). iIntros "Hk0". destruct x as [kx vx]. cbn [fst snd].
      case_bool_decide as Hkk.
      + subst kx. assert (get_key k (slot_abs (false, [(a, kv0, (k, vx))])).2 = Some vx) as E2.
        { cbn. by rewrite bool_decide_eq_true_2. }
        rewrite E2. iApply (wp_block_size with "H"); [by left|]. iIntros "H".
        unfold pair_size in *. cbn [fst snd] in *.
        replace (dlen k + dlen vx - dlen k) with (dlen vx) by lia.
        rewrite (u64_small (dlen vx)); [|unfold dlen in *; lia]. unfold h_update.
        destruct (u (dlen vx)) as [f|] eqn:Ef.
        2:{ iApply wp_throw. iDestruct "W" as "[_ [W _]]".
            iApply ("W" with "[//] [H] [Ws Wy Hk0 Wc HO]").
            - iApply (ainv_perm with "H"). by rewrite HB app_assoc.
            - iApply ("Hback" with "[//] [Ws Wy Hk0] Wc HO"). cbn [slot_at]. iFrame. }
        destruct (Hu _ _ vx Ef eq_refl) as [Hfok Hfl].
        iDestruct (kv_value with "Hk0") as "[Hkk Hv]". cbn [fst snd].
        iApply (wp_load_bytes_b with "Hv"); [unfold dlen; lia|]. iIntros "Hv".
        iApply (wp_store_bytes_b _ (kv0 + dlen k + dlen vx) with "[Hv]"); [done|unfold dlen in *; lia| |].
        { iApply (pts_raw with "Hv"). unfold dlen. lia. }
        iIntros "Hv". iApply bind_ret_r. iApply (wp_load_bytes_b with "Hv"); [unfold dlen in *; lia|]. iIntros "Hv".
        iDestruct (kv_value_back kv0 (k, f vx) with "Hkk Hv") as "Hk0".
        iApply wp_ret. iDestruct "W" as "[W _]". destruct (Hput (f vx)) as [Hil Hpwf].
        assert (slot_put k (f vx) (slot_abs (false, [(a, kv0, (k, vx))])) = slot_abs (false, [(a, kv0, (k, f vx))])) as E.
        { apply (slot_put_found k (f vx) false [] vx []). apply not_elem_of_nil. }
        rewrite E ?E2 in Hil, Hpwf.
        iApply ("W" $! s _ (f vx) with "[] [H]"); [| |rewrite E;
          iApply (h_close hsh _ _ _ _ _ _ (false, [(a, kv0, (k, f vx))]) with "HO [Wc] [Ws Wy Hk0]"); [done| |cbn [slot_at]; iFrame]].
        * iPureIntro. split; [done|]. apply ext_refl.
        * unfold slot_blocks, node_blocks, pair_size. simpl. rewrite Hfl. iExact "H".
        * by rewrite Hil Nat.add_0_r.
      + assert (get_key k (slot_abs (false, [(a, kv0, (kx, vx))])).2 = None) as E2.
        { cbn. by rewrite bool_decide_eq_false_2. }
        rewrite E2 in Habs |- *. destruct (Habs eq_refl) as (Hs8 & Hs8l & H24 & Hsteady).
        assert (is_u64 (len k)) as Hku by (unfold is_u64, dlen in *; lia).
        iApply (wp_allocate with "H"); [done|]. iSplit.
        2:{ iIntros (Hg) "H". iDestruct "W" as "[_ [_ W]]".
            iApply ("W" $! s [] with "[] [H] [Ws Wy Hk0 Wc HO] []"); [| | |by rewrite /raws].
            - iPureIntro. split; [done|]. split; [eapply ext_weaken; [apply ext_refl|unfold room, dlen; lia|done]|].
              intros Hg'. apply Hg. eapply grow_allowed_mono; [|exact Hg']. unfold room, dlen; lia.
            - iApply (ainv_perm with "H"). simpl. by rewrite HB.
            - iApply ("Hback" with "[//] [Ws Wy Hk0] Wc HO"). cbn [slot_at]. iFrame. }
        iIntros (ex s1 (Hext1 & Hex1 & Hex8 & Hex2)) "H Rex".
        destruct (steady_ext _ _ _ _ Hsteady Hext1) as [Hm1 He1].
        iApply (wp_allocate with "H"); [done|]. iSplit.
        2:{ iIntros (Hg) "H". iDestruct "W" as "[_ [_ W]]".
            iApply ("W" $! s1 [(ex, 24)] with "[] [H] [Ws Wy Hk0 Wc HO] [Rex]").
            - iPureIntro. split; [done|]. split; [eapply ext_weaken; [exact Hext1|unfold room, dlen; lia|done]|].
              intros Hg'. apply Hg. eapply grow_allowed_mono; [|exact Hg']. unfold room, dlen; lia.
            - iApply (ainv_perm with "H"). simpl. by rewrite HB.
            - iApply ("Hback" with "[//] [Ws Wy Hk0] Wc HO"). cbn [slot_at]. iFrame.
            - unfold raws. simpl. by iFrame "Rex". }
        iIntros (cr s2 (Hext2 & Hcr1 & Hcr8 & Hcr2)) "H Rcr".
        rewrite -Hm1 in Hsteady. destruct (steady_ext _ _ _ _ Hsteady Hext2) as [Hm2 He2].
        iApply (wp_epoch with "H"). iIntros "H".
        iDestruct (raw_words1 with "Rcr") as "[[%c0 C0] Rcr]"; [lia|].
        iApply (wp_store64 with "C0"); [done|]. iIntros "C0".
        rewrite (u64_small (len k + 8)); [|unfold dlen in *; lia]. change (len k + 8) with (dlen k + 8).
        iApply (wp_allocate with "H"); [done|]. iSplit.
        2:{ iIntros (Hg) "H". iDestruct "W" as "[_ [_ W]]".
            iApply ("W" $! s2 [(cr, 24); (ex, 24)] with "[] [H] [Ws Wy Hk0 Wc HO] [Rex Rcr C0]").
            - iPureIntro. split; [done|].
              split; [eapply ext_weaken; [exact (ext_trans _ _ _ _ _ _ _ _ Hext1 Hext2)|unfold room, dlen; lia|tauto]|].
              intros Hg'. apply Hg. eapply grow_allowed_mono; [|exact Hg']. unfold room, dlen; lia.
            - iApply (ainv_perm with "H"). simpl. by rewrite HB.
            - iApply ("Hback" with "[//] [Ws Wy Hk0] Wc HO"). cbn [slot_at]. iFrame.
            - unfold raws. simpl. iFrame "Rex". iApply (words_raw1 with "C0 Rcr"). lia. }
        iIntros (kv s3 (Hext3 & Hkv1 & Hkv8 & Hkv2)) "H R".
        rewrite -Hm2 in Hsteady. destruct (steady_ext _ _ _ _ Hsteady Hext3) as [_ He3].
        assert (is_u64 kv) as Hkvu by (unfold is_u64, dlen in *; lia).
        unfold h_same_mapping. wpn. iApply (wp_epoch with "H"). iIntros "H". rewrite He3 bool_decide_eq_true_2; [|done]. wpn.
        iDestruct (raw_words1 with "Rcr") as "[[%c8 C8] Rcr]"; [lia|].
        iDestruct (raw_word with "Rcr") as "[%c16 C16]"; [lia|].
        iDestruct (raw_words1 with "Rex") as "[[%e0 E0] Rex]"; [lia|].
        iDestruct (raw_words1 with "Rex") as "[[%e8 E8] Rex]"; [lia|].
        iDestruct (raw_word with "Rex") as "[%e16 E16]"; [lia|].
        replace (cr + 8 + 8) with (cr + 16) by lia. replace (ex + 8 + 8) with (ex + 16) by lia.
        assert (is_u64 ex) as Hexu by (unfold is_u64; lia). assert (is_u64 cr) as Hcru by (unfold is_u64; lia).
        iApply (wp_store64 with "C8"); [done|]. iIntros "C8".
        iDestruct (raw_split _ (kv + dlen k) with "R") as "[R1 R2]"; [unfold dlen; lia|].
        iApply (wp_store_bytes_b with "R1"); [done|done|]. iIntros "P1".
        iApply (wp_store_bytes_b with "R2"); [done|unfold dlen in *; lia|]. iIntros "P2".
        iDestruct (kv_value_back kv (k, new) with "P1 P2") as "Hkv".
        iApply (wp_store64 with "C16"); [done|]. iIntros "C16".
        iApply (wp_store64 with "E0"); [done|]. iIntros "E0".
        iApply (wp_load64 with "Ws"). iIntros "Ws".
        iApply (wp_store64 with "E8"); [unfold is_u64; lia|]. iIntros "E8".
        iApply (wp_load64 with "Wy"). iIntros "Wy".
        iApply (wp_store64 with "E16"); [unfold is_u64, pair_size, dlen in *; simpl in *; lia|]. iIntros "E16".
        destruct (odd_tag ex Hex8) as (_ & _ & _ & ->).
        iApply (wp_store64 with "Ws"); [unfold is_u64; lia|]. iIntros "Ws".
        iApply (wp_store64 with "Wy"); [done|]. iIntros "Wy".
        iApply (wp_h_count with "Wc"); [unfold is_u64; lia|]. iIntros "Wc".
        iApply wp_ret. iDestruct "W" as "[W _]". destruct (Hput new) as [Hil Hpwf].
        assert (slot_put k new (slot_abs (false, [(a, kv0, (kx, vx))])) =
          slot_abs (true, [(ex, kv0, (kx, vx)); (cr, kv, (k, new))])) as E.
        { apply (slot_put_absent k new false [(kx, vx)]); [|done]. cbn. by apply not_elem_of_cons; split; [|apply not_elem_of_nil]. }
        rewrite E ?E2 in Hil, Hpwf.
        iApply ("W" $! s3 _ new with "[] [H]"); [| |rewrite E;
          iApply (h_close hsh _ _ _ _ _ _ (true, [(ex, kv0, (kx, vx)); (cr, kv, (k, new))]) with "HO [Wc] [-]");
            [done| |cbn [slot_at hseg nfirst]; unfold hnode_at; iFrame; by iExists 0]].
        * iPureIntro. split; [done|].
          eapply ext_weaken; [exact (ext_trans _ _ _ _ _ _ _ _ (ext_trans _ _ _ _ _ _ _ _ Hext1 Hext2) Hext3)|unfold room; lia|tauto].
        * iApply (ainv_perm with "H"). unfold slot_blocks, node_blocks, pair_size. simpl. rewrite Hnl'.
          (* kv cr ex kv0 = kv0 ex kv cr *)
          rewrite (Permutation_swap (kv0, _) (ex, _)).
          rewrite (Permutation_swap (kv0, _) (cr, _)).
          rewrite (Permutation_swap (kv0, _) (kv, _)). constructor.
          rewrite (Permutation_swap (ex, _) (cr, _)).
          rewrite (Permutation_swap (ex, _) (kv, _)). constructor. done.
        * by rewrite Hil Nat2Z.inj_add.
  Qed.
End hash.
