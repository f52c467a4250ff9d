(** * LogarithmicAllocator provides what the data structures need, for requests of 1 to
    4088 bytes and pools of at most 2^56 bytes. *)
From Verif Require Export LogAllocOps StructProof.
From iris.proofmode Require Import tactics.
From iris.prelude Require Import options.
Open Scope Z_scope.
Open Scope prog_scope.
Local Arguments Z.pow : simpl never.
Local Arguments Z.mul : simpl never.
Local Arguments Z.add : simpl never.

Definition shift8 (L : blocks) : blocks := map (λ x, (x.1 + 8, x.2)) L.
Definition la_RB (B K : blocks) (bo m : Z) : hPropI :=
  (∃ L fl, ⌜K = [] ∧ m <= 2 ^ 56 ∧ shift8 (used L) ≡ₚ B⌝ ∗ la_R L fl bo m)%I.

Lemma sum_sz_shift8 L : sum_sz (shift8 L) = sum_sz L.
Proof. induction L as [|[b n] L IH]; [done|]. unfold sum_sz in *. cbn [shift8 map foldr fst snd] in *. unfold shift8 in IH. lia. Qed.
Lemma shift8_fst L : (shift8 L).*1 = (λ x, x + 8) <$> L.*1.
Proof. unfold shift8. change (map ?f L) with (f <$> L). by rewrite -!list_fmap_compose. Qed.
Lemma used_nodup s L e : tiles s L e → NoDup ((used L).*1).
Proof.
  revert s. induction L as [|[[o k] a] L IH]; intros s; [by constructor|].
  intros (Hs & Hok & Ht). cbn [fst snd] in *. subst o. pose proof (tile_pos _ Hok) as Hp. cbn [fst snd] in Hp.
  specialize (IH _ Ht). destruct a as [n|]; [|done]. change (used ((s, k, Some n) :: L)) with ((s, n) :: used L).
  rewrite fmap_cons. constructor; [|done]. cbn [fst]. intros [[o n'] [-> Hin]]%elem_of_list_fmap.
  apply used_in in Hin as [k' Hin]. pose proof (tiles_in _ _ _ _ Ht Hin) as (_ & Hle & _). cbn [fst snd] in Hle. lia.
Qed.
Lemma tile_mod16 o k a : tile_ok (o, k, a) → o mod 16 = 0.
Proof. intros (Hk & Hm & _). change 16 with (2 ^ 4). eapply mod_dvd_trans; [|exact Hm]. lia. Qed.
Lemma add8_mod16 o : o mod 16 = 0 → (o + 8) mod 16 = 8.
Proof. intros H. rewrite Z.add_mod // H //. Qed.
Lemma shift8_in L o n : (o, n) ∈ shift8 (used L) ↔ ∃ k, (o - 8, k, Some n) ∈ L.
Proof.
  unfold shift8. rewrite elem_of_list_fmap. split.
  - intros ([b n'] & [= -> ->] & Hin). apply used_in in Hin as [k Hin]. exists k. cbn [fst snd]. by replace (b + 8 - 8) with b by lia.
  - intros [k Hin]. exists (o - 8, n). cbn [fst snd]. split; [f_equal; lia|]. apply used_in. eauto.
Qed.
Lemma tiles_blocks_ok L m : tiles la_start L m → blocks_ok (shift8 (used L)) m.
Proof.
  intros Ht. assert (la_start = 1168) as Hst by reflexivity. split; [|split].
  - intros o n [k Hin]%shift8_in. pose proof (tiles_in _ _ _ _ Ht Hin) as (Hok & H1 & H2). cbn [fst snd] in *.
    pose proof (tile_mod16 _ _ _ Hok) as H16. destruct Hok as (_ & _ & Hn & _ & Hn').
    split; [lia|]. split; [|lia].
    pose proof (Z.div_mod (o - 8) 16 ltac:(lia)). replace o with (0 + (1 + 2 * ((o - 8) / 16)) * 8) by lia.
    by rewrite Z.mod_add.
  - rewrite shift8_fst. apply NoDup_fmap_2; [intros ??; lia|]. by eapply used_nodup.
  - rewrite sum_sz_shift8. unfold shift8. rewrite map_length.
    pose proof (used_bounds _ _ _ Ht ltac:(lia)) as (?&?&?). lia.
Qed.
Lemma la_R_tiles L fl bo m : la_R L fl bo m ⊢ ⌜tiles la_start L m⌝.
Proof. iIntros "(_ & _ & _ & %H & _)". done. Qed.
Lemma used_split L o n R : shift8 (used L) ≡ₚ (o, n) :: R →
  ∃ L1 k L2, L = L1 ++ (o - 8, k, Some n) :: L2 ∧ shift8 (used (L1 ++ L2)) ≡ₚ R.
Proof.
  intros HP. assert ((o, n) ∈ shift8 (used L)) as Hin by (rewrite HP; by left).
  apply shift8_in in Hin as [k Hin]. apply elem_of_list_split in Hin as (L1 & L2 & ->).
  exists L1, k, L2. split; [done|]. apply (Permutation_cons_inv (a := (o, n))). rewrite -HP.
  unfold shift8. rewrite (used_mid L1 (o - 8) k n L2). cbn [map fst snd]. by replace (o - 8 + 8) with o by lia.
Qed.

Definition log_limits : alloc_limits := AllocLimits 1 4088 (-1) true.

Section log.
  Context (F : nat).

  Program Definition log_spec : alloc_spec (log_allocator F) := {|
    as_R := la_RB; as_size_ok n := 1 <= n <= 4088; as_cfg c := c_lim c <= 2 ^ 56; as_leaky _ := False; as_odd8 := true; as_base_ok _ := True |}.
  Next Obligation.
    iIntros (B B' K bo m HP) "(%L & %fl & (%HK & %Hm & %HL) & H)". iExists L, fl. iFrame. iPureIntro. split; [done|]. split; [done|]. by rewrite -HP.
  Qed.
  Next Obligation.
    iIntros (B K bo m) "(%L & %fl & (-> & %Hm & %HL) & H)". iDestruct (la_R_tiles with "H") as %Ht. iPureIntro.
    rewrite app_nil_r. eapply blocks_ok_perm; [exact HL|]. by apply tiles_blocks_ok.
  Qed.
  Next Obligation.
    iIntros (c B K bo m e n Φ Ψ Hn Hc) "[Hp (%L & %fl & (-> & %Hm & %HL) & HR)] W". simpl in *.
    iApply (wp_la_allocate with "Hp HR"); [done|done|done|]. iSplit.
    - iIntros (o k L1 L2 fl' m' e' (HU & _ & He & Hm')) "Hp HR U". iDestruct "W" as "[W _]".
      iApply ("W" $! (o + 8) m' e' with "[] [$Hp HR] U").
      + iPureIntro. unfold room. destruct Hm' as [->|(-> & Hg & _)]; (split; [lia|]); (split; [done|]); [by left|by right].
      + iExists _, _. iFrame "HR". iPureIntro. split; [done|]. split.
        * destruct Hm' as [->|(-> & Hg & _)]; [done|]. unfold grow_allowed in Hg. lia.
        * unfold shift8 in *. rewrite (used_mid L1 o k n L2) HU. cbn [map fst snd]. by rewrite HL.
    - iIntros ([Hg _]) "Hp HR". iDestruct "W" as "[_ W]". iApply ("W" with "[] [$Hp HR]").
      + iPureIntro. intros Hg'. apply Hg. eapply grow_allowed_mono; [|exact Hg']. unfold room. lia.
      + iExists _, _. iFrame "HR". done.
  Qed.
  Next Obligation.
    iIntros (c B K bo m e o n Φ Ψ) "[Hp (%L & %fl & (-> & %Hm & %HL) & HR)] Hraw W". simpl in *.
    apply used_split in HL as (L1 & k & L2 & -> & HL).
    iAssert (wp (la_free (o - 8 + 8)) Φ Ψ) with "[-]" as "H"; [|by replace (o - 8 + 8) with o by lia].
    iApply (wp_la_free with "Hp HR [Hraw]"); [done| |].
    { by replace (o - 8 + 8) with o by lia. }
    iIntros (L' fl' w (HU & _ & _)) "Hp Hw HR". iApply ("W" $! [] with "[] [$Hp Hw HR]"); [by iLeft|].
    iExists L', fl'. iSplit; [|by iApply "HR"]. iPureIntro. split; [done|]. split; [done|]. by rewrite HU.
  Qed.
  Next Obligation.
    iIntros (c B K bo m e o n Φ Ψ Hin) "[Hp (%L & %fl & (-> & %Hm & %HL) & HR)] W". simpl in *.
    rewrite -HL in Hin. apply shift8_in in Hin as [k Hin].
    iAssert (wp (la_block_size (o - 8 + 8)) Φ Ψ) with "[-]" as "H"; [|by replace (o - 8 + 8) with o by lia].
    iApply (wp_la_block_size with "Hp HR"); [exact Hin|done|].
    iIntros "Hp HR". iApply "W". iFrame "Hp". iExists _, _. iFrame "HR". done.
  Qed.
  Next Obligation.
    iIntros (c B K bo m e Φ Ψ) "[Hp (%L & %fl & (-> & %Hm & %HL) & (Ri & Rb & Ra & Rc) & HR)] W".
    iApply bind_ret_r. iApply (wp_load64 with "Rb"). iIntros "Rb". iApply wp_ret. iApply "W". iFrame "Hp".
    iExists _, _. iSplit; [|iFrame]. done.
  Qed.
  Next Obligation.
    iIntros (c B K bo m e v Φ Ψ Hv _) "[Hp (%L & %fl & (-> & %Hm & %HL) & (Ri & Rb & Ra & Rc) & HR)] W".
    iApply bind_ret_r. iApply (wp_store64 with "Rb"); [done|]. iIntros "Rb". iApply wp_ret. iApply "W". iFrame "Hp".
    iExists _, _. iSplit; [|iFrame]. done.
  Qed.
  Next Obligation.
    iIntros (c B K bo m e Φ Ψ) "[Hp (%L & %fl & (-> & %Hm & %HL) & (Ri & Rb & Ra & Rc) & HR)] W".
    iApply bind_ret_r. iApply (wp_load64 with "Ra"). iIntros "Ra". iApply wp_ret.
    rewrite -(sum_sz_perm _ _ HL) sum_sz_shift8. change (sum_sz []) with 0. rewrite Z.add_0_r. iApply "W". iFrame "Hp".
    iExists _, _. iSplit; [|iFrame]. done.
  Qed.
  Next Obligation. eexists. reflexivity. Qed.
  Next Obligation.
    iIntros (B K bo m _) "(%L & %fl & (-> & %Hm & %HL) & HR)". iDestruct (la_R_tiles with "HR") as %Ht. iPureIntro.
    intros o n Hin. rewrite -HL in Hin. apply shift8_in in Hin as [k Hin].
    pose proof (tiles_in _ _ _ _ Ht Hin) as (Hok & _). apply tile_mod16 in Hok.
    apply add8_mod16 in Hok. by replace (o - 8 + 8) with o in Hok by lia.
  Qed.
  Global Instance log_base_free : BaseFree log_spec.
  Proof. done. Qed.
  Global Instance log_visible : Visible log_spec.
  Proof.
    iIntros (B K bo m) "(%L & %fl & _ & ((%i & Hi & %Hne) & _) & HR)". iExists i. by iFrame.
  Qed.
End log.
