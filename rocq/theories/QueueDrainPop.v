(** * Emptying a queue after a crash: crashes in pop_back and pop_front, and the theorem. *)
From Verif Require Export QueueDrain.
From iris.proofmode Require Import tactics.
From iris.prelude Require Import options.
Open Scope Z_scope.
Open Scope prog_scope.

Local Arguments Z.pow : simpl never.
Local Arguments Z.mul : simpl never.
Local Arguments Z.add : simpl never.
Local Arguments u64 : simpl never.

Section crashes.
  Context (F : nat) (HF : 2 ^ 62 <= Z.of_nat F) (c : cfg).
  Notation al := (simple_allocator F).
  Notation S := (simple_spec F HF).
  Notation ainv := (ainv S c).
  Notation Cq := (Cq c).

  Lemma crash_q_pop d f o l B Bf s :
    (f = true → d = false) →
    ainv (B ++ Bf) s -∗ q_rep o l B -∗
    crash (Cq d o l (if f then tail l else removelast l) Bf (s_bo s)) (q_pop al o f).
  Proof using.
    iIntros (Hd) "H (%ns & [-> %HB] & Hq)".
    iDestruct (q_bounds S c with "H") as %(Ho1 & Ho2 & Hsum & Hns); [done|].
    set (l2 := if f then _ else _). set (C := Cq d o (map snd ns) l2 Bf (s_bo s)).
    set (vc := Z.of_nat (length ns)). set (vt := q_total (map snd ns)).
    assert (B ++ Bf ≡ₚ q_blocks o ns ++ Bf) as HB2 by by rewrite HB.
    set (P := (ainv (B ++ Bf) s ∗ qst o ns vc vt)%I).
    assert (P ⊢ C) as HP.
    { iIntros "(H & Q)". iApply (qst_old c d o ns vc vt l2 (B ++ Bf)); [done|]. iFrame "Q". iApply (ainv_acr F HF c with "H"). }
    iAssert P with "[$H $Hq]" as "P".
    destruct f; unfold q_pop, q_pop_front, q_pop_back, q_front, q_back.
    - rewrite (Hd eq_refl) in C P HP |- *. clear Hd.
      destruct ns as [|[a x] ns].
      { iApply (crash_load64 C P (o + 16 + 8) (o + 32) with "P"); [done| |].
        { iIntros "(_ & _ & _ & _ & _ & Q)". cbn [q_seg]. iDestruct "Q" as "[$ _]". }
        iIntros "P". replace (o + 32 + 8) with (o + 40) by lia.
        iApply (crash_load64 C P (o + 40) 0 with "P"); [done| |].
        { iIntros "(_ & _ & _ & _ & $ & _)". }
        iIntros "P". rewrite (bool_decide_eq_true_2 (0 = 0)) //. iApply crash_throw. by iApply HP. }
      iApply (crash_load64 C P (o + 16 + 8) a with "P"); [done| |].
      { iIntros "(_ & _ & _ & _ & _ & Q)". cbn [q_seg]. iDestruct "Q" as "[$ _]". }
      iIntros "P". set (q := q_first ns (o + 32)).
      iApply (crash_load64 C P (a + 8) q with "P"); [done| |].
      { iIntros "(_ & _ & _ & _ & _ & Q)". cbn [q_seg]. iDestruct "Q" as "(_ & _ & _ & Q)".
        destruct (q_seg_first ns (o + 32)) as [X HX]. iDestruct (HX with "Q") as "[$ _]". }
      iIntros "P".
      assert (q ≠ 0) as Hq0.
      { unfold q. destruct ns as [|[b e] ns]; simpl; [lia|]. destruct (Hns b e) as (?&_); [right; by left|]. lia. }
      rewrite (bool_decide_eq_false_2 (q = 0)) //.
      iDestruct "P" as "(H & Hc & Ht & H16 & H40 & Hseg)". destruct (Hns a x) as (Ha1 & Ha2 & _); [by left|].
      rewrite (q_d_seg false). cbn [ordn rev]. rewrite x_seg_app. cbn [x_seg].
      iDestruct "Hseg" as "(S & Hx & [Wa P8])".
      destruct (chain_far false (nr false o) (rev ns)) as [X HX].
      assert (q_last (nr false o) (rev ns) = q) as HL by (apply q_last_rev). rewrite HL in HX.
      destruct (HX a) as [HX1 _]. rewrite HX1. iDestruct "S" as "(Q & W8 & HX)".
      assert (acr c ((a, 16 + dlen x) :: q_blocks o ns ++ Bf) (s_bo s) ∗ anyw o ∗ anyw (o + 8) ∗ word a (o + 16) ∗ word (a + 8) q ∗ pts (a + 16) x ∗
        anyw (o + 16 + 8) ∗ word q a ∗ (word (o + 16) 0 ∗ X) ⊢ C) as H0.
      { iIntros "(H & Hc & Ht & Wa & W8 & Hx & P8 & Q & H16 & HX)".
        iApply (Cq_mk c false o ((a, x) :: ns) (map snd ((a, x) :: ns)) l2 ((a, 16 + dlen x) :: q_blocks o ns ++ Bf) with "[-]"); [by left| |].
        { by rewrite (q_blocks_perm o [] (a, x) ns). }
        iFrame "H Hc Ht". unfold nr, fr in HX1 |- *. cbn [ordn rev]. iSplitL "H16". { unfold fw. by rewrite Z.add_0_r. }
        iApply chain_snoc. rewrite HX1. unfold fw, bw. rewrite !Z.add_0_r. iFrame. }
      assert (acr c (q_blocks o ns ++ Bf) (s_bo s) ∗ anyw o ∗ anyw (o + 8) ∗ anyw (o + 16 + 8) ∗ word q (o + 16) ∗ (word (o + 16) 0 ∗ X) ⊢ C) as H2.
      { iIntros "(H & Hc & Ht & P8 & Q & H16 & HX)".
        iApply (Cq_mk c false o ns (map snd ((a, x) :: ns)) l2 (q_blocks o ns ++ Bf) with "[-]"); [by right|done|].
        iFrame "H Hc Ht". iSplitL "H16". { unfold fr, fw. by rewrite Z.add_0_r. }
        destruct (HX (fr false o)) as [_ HX2]. iApply HX2. unfold fr, fw, bw. rewrite !Z.add_0_r. iFrame. }
      unfold nr, fr, fw, bw. rewrite !Z.add_0_r.
      iApply (crash_q_take F HF c C (word (o + 16) 0 ∗ X) (q_blocks o ns ++ Bf) s o a x (o + 16) q with "[H] [Hc] [Ht] Wa W8 Hx P8 Q [$H16 $HX]");
        [| | |done|done| |by iExists _|by iExists _].
      + rewrite -H0. iIntros "($ & $ & $ & $ & $ & $ & P8 & $ & $)". by iExists _.
      + rewrite -H0. iIntros "($ & $ & $ & $ & $ & $ & P8 & $ & $)". by iExists _.
      + rewrite -H2. iIntros "($ & $ & $ & P8 & $ & $)". by iExists _.
      + iApply (ainv_perm with "H"). rewrite HB2. by rewrite (q_blocks_perm o [] (a, x) ns).
    - clear Hd. destruct ns as [|[a x] ns _] using rev_ind.
      { iApply (crash_load64 C P (o + 32) (o + 16) with "P"); [done| |].
        { iIntros "(_ & _ & _ & _ & _ & Q)". cbn [q_seg]. iDestruct "Q" as "[_ $]". }
        iIntros "P".
        iApply (crash_load64 C P (o + 16) 0 with "P"); [done| |].
        { iIntros "(_ & _ & _ & $ & _)". }
        iIntros "P". rewrite (bool_decide_eq_true_2 (0 = 0)) //. iApply crash_throw. by iApply HP. }
      iApply (crash_load64 C P (o + 32) a with "P"); [done| |].
      { iIntros "(_ & _ & _ & _ & _ & Q)". rewrite q_seg_app. cbn [q_seg]. iDestruct "Q" as "(_ & _ & _ & $)". }
      iIntros "P". set (p := q_last (o + 16) ns).
      iApply (crash_load64 C P a p with "P"); [done| |].
      { iIntros "(_ & _ & _ & _ & _ & Q)". rewrite q_seg_app. iDestruct "Q" as "(Q & _)".
        destruct (q_seg_last (o + 16) ns) as [X HX]. iDestruct (HX with "Q") as "(_ & $ & _)". }
      iIntros "P".
      assert (p ≠ 0) as Hp0.
      { unfold p. destruct ns as [|[b e] ns _] using rev_ind; unfold q_last; [simpl; lia|]. rewrite last_snoc.
        destruct (Hns b e) as (?&_); [|lia]. apply elem_of_app. left. apply elem_of_app. right. by left. }
      rewrite (bool_decide_eq_false_2 (p = 0)) //.
      assert (l2 = map snd ns) as Hl2 by (unfold l2; rewrite map_app; apply removelast_last).
      iDestruct "P" as "(H & Hc & Ht & H16 & H40 & Hseg)". destruct (Hns a x) as (Ha1 & Ha2 & _); [apply elem_of_app; right; by left|].
      rewrite (q_d_seg d).
      assert ((a, 16 + dlen x) :: q_blocks o ns ++ Bf ≡ₚ q_blocks o (ns ++ [(a, x)]) ++ Bf) as HB3.
      { rewrite (q_blocks_perm o ns (a, x) []) app_nil_r. done. }
      destruct d.
      + cbn [ordn]. rewrite x_seg_app. cbn [x_seg]. iDestruct "Hseg" as "(S & Hx & [W8 Q])".
        destruct (chain_far true (nr true o) ns) as [X HX]. change (q_last (nr true o) ns) with p in HX.
        destruct (HX a) as [HX1 _]. rewrite HX1. iDestruct "S" as "(P8 & Wa & HX)".
        assert (acr c ((a, 16 + dlen x) :: q_blocks o ns ++ Bf) (s_bo s) ∗ anyw o ∗ anyw (o + 8) ∗ word a p ∗ word (a + 8) (o + 32) ∗ pts (a + 16) x ∗
          word (p + 8) a ∗ anyw (o + 32) ∗ (word (o + 40) 0 ∗ X) ⊢ C) as H0.
        { iIntros "(H & Hc & Ht & Wa & W8 & Hx & P8 & Q & H40 & HX)".
          iApply (Cq_mk c true o (ns ++ [(a, x)]) (map snd (ns ++ [(a, x)])) l2 ((a, 16 + dlen x) :: q_blocks o ns ++ Bf) with "[-]"); [by left|done|].
          iFrame "H Hc Ht". unfold nr, fr in HX1 |- *. cbn [ordn]. iSplitL "H40". { unfold fw. by replace (o + 32 + 8) with (o + 40) by lia. }
          iApply chain_snoc. rewrite HX1. unfold fw, bw. rewrite !Z.add_0_r. iFrame. }
        assert (acr c (q_blocks o ns ++ Bf) (s_bo s) ∗ anyw o ∗ anyw (o + 8) ∗ word (p + 8) (o + 32) ∗ anyw (o + 32) ∗ (word (o + 40) 0 ∗ X) ⊢ C) as H2.
        { iIntros "(H & Hc & Ht & P8 & Q & H40 & HX)".
          iApply (Cq_mk c true o ns (map snd (ns ++ [(a, x)])) l2 (q_blocks o ns ++ Bf) with "[-]"); [by right|done|].
          iFrame "H Hc Ht". iSplitL "H40". { unfold fr, fw. by replace (o + 32 + 8) with (o + 40) by lia. }
          destruct (HX (fr true o)) as [_ HX2]. iApply HX2. unfold fr, fw, bw. rewrite !Z.add_0_r. iFrame. }
        unfold nr, fr, fw, bw. rewrite !Z.add_0_r.
        iApply (crash_q_take F HF c C (word (o + 40) 0 ∗ X) (q_blocks o ns ++ Bf) s o a x p (o + 32) with "[H] [Hc] [Ht] Wa W8 Hx P8 Q [$H40 $HX]");
          [| | |done|done| |by iExists _|by iExists _].
        * rewrite -H0. iIntros "($ & $ & $ & $ & $ & $ & $ & Q & $)". by iExists _.
        * rewrite -H2. iIntros "(H & $ & $ & _ & _ & _ & $ & Q & $)". iSplitL "H"; [by iApply (acr_leak with "H")|by iExists _].
        * rewrite -H2. iIntros "($ & $ & $ & $ & Q & $)". by iExists _.
        * iApply (ainv_perm with "H"). by rewrite HB2.
      + cbn [ordn]. rewrite rev_app_distr. cbn [rev app x_seg]. iDestruct "Hseg" as "(Q & W8 & Hx & S)".
        destruct (chain_near false (rev ns) (fr false o)) as [X HX].
        assert (q_first (rev ns) (fr false o) = p) as HL by (apply q_first_rev). rewrite HL in HX.
        destruct (HX a) as [HX1 HX2]. rewrite HX1. iDestruct "S" as "(Wa & P8 & HX)".
        assert (acr c ((a, 16 + dlen x) :: q_blocks o ns ++ Bf) (s_bo s) ∗ anyw o ∗ anyw (o + 8) ∗ word a p ∗ word (a + 8) (o + 32) ∗ pts (a + 16) x ∗
          anyw (p + 8) ∗ word (o + 32) a ∗ (word (o + 16) 0 ∗ X) ⊢ C) as H0.
        { iIntros "(H & Hc & Ht & Wa & W8 & Hx & P8 & Q & H16 & HX)".
          iApply (Cq_mk c false o (ns ++ [(a, x)]) (map snd (ns ++ [(a, x)])) l2 ((a, 16 + dlen x) :: q_blocks o ns ++ Bf) with "[-]"); [by left|done|].
          iFrame "H Hc Ht". cbn [ordn]. rewrite rev_app_distr. cbn [rev app d_chain].
          iSplitL "H16". { unfold fr, fw. by rewrite Z.add_0_r. }
          iSplitL "Q". { unfold nr, fw. by rewrite Z.add_0_r. } iFrame "Hx". iSplitL "W8"; [done|].
          iApply HX2. unfold fw, bw. rewrite !Z.add_0_r. iFrame. }
        assert (acr c (q_blocks o ns ++ Bf) (s_bo s) ∗ anyw o ∗ anyw (o + 8) ∗ word (p + 8) (o + 32) ∗ word (o + 32) p ∗ (word (o + 16) 0 ∗ X) ⊢ C) as H2.
        { iIntros "(H & Hc & Ht & P8 & Q & H16 & HX)".
          iApply (Cq_mk c false o ns (map snd (ns ++ [(a, x)])) l2 (q_blocks o ns ++ Bf) with "[-]"); [by right|done|].
          iFrame "H Hc Ht". iSplitL "H16". { unfold fr, fw. by rewrite Z.add_0_r. }
          iApply x_chain. cbn [ordn]. destruct (HX (nr false o)) as [HX3 _]. rewrite HX3. unfold nr, fw, bw. rewrite !Z.add_0_r. iFrame. }
        clear HX HX1 HX2. unfold nr, fw, bw. rewrite !Z.add_0_r.
        iApply (crash_q_take F HF c C (word (o + 16) 0 ∗ X) (q_blocks o ns ++ Bf) s o a x p (o + 32) with "[H] [Hc] [Ht] Wa W8 Hx P8 Q [$H16 $HX]");
          [| | |done|done| |by iExists _|by iExists _].
        * rewrite -H0. iIntros "($ & $ & $ & $ & $ & $ & P8 & $ & $)". by iExists _.
        * rewrite -H0. iIntros "($ & $ & $ & $ & $ & $ & P8 & $ & $)". by iExists _.
        * rewrite -H2. iIntros "($ & $ & $ & $ & $ & $)".
        * iApply (ainv_perm with "H"). by rewrite HB2.
  Qed.
End crashes.

Section hash_function.
Context {hash : HashFn}.
Section game.
  Context (F : nat) (HF : 2 ^ 62 <= Z.of_nat F).
  Notation al := (simple_allocator F).
  Notation S := (simple_spec F HF).

  Lemma blocks3 (B X K : blocks) : (B ++ X) ++ K ≡ₚ X ++ (B ++ K).
  Proof using. clear. rewrite -(assoc_L app). apply Permutation_app_swap_app. Qed.
  (** ** The world after the crash *)
  Definition Rq (d : bool) (o : Z) (l1 l2 : list bytes) (xs : list obj) (J : blocks) (bo m : Z) : hPropI :=
    (∃ l' B' K', ⌜l' = l1 ∨ l' = l2⌝ ∗ pool_dirty xs J (B' ++ K') bo m ∗ d_rep d o (from_end d l') B')%I.
  Lemma Rq_grow d o l1 l2 xs J bo : growable (Rq d o l1 l2 xs J bo).
  Proof using.
    intros m w Hw. iIntros "[(%l' & %B' & %K' & %Hl & H & D) G]". iExists l', B', K'. iSplit; [done|]. iFrame "D".
    iApply (pool_dirty_grow with "[H G]"); [done|]. iFrame.
  Qed.
  Lemma Cq_Rq c d o l1 l2 xs J bo :
    Cq c d o l1 l2 (objs_blocks xs ++ J) bo ∗ reps xs ∗ raws J ⊢ ∃ m w e, pool_gen c m w e ∗ Rq d o l1 l2 xs J bo m.
  Proof using.
    clear F HF. iIntros "((%l' & %B' & %Hl & (%K & %L & %HL & H) & D) & R & RJ)". rewrite sa_R_crash. iDestruct "H" as (m w e) "[Hp H]".
    iExists m, w, e. iFrame "Hp". iExists l', B', K. iSplit; [done|]. iFrame "D R RJ". iExists L. iFrame "H".
    iPureIntro. rewrite HL. apply blocks3.
  Qed.
  Lemma sensible_push f x l : sensible simple_limits (VQueue l) (QPush f x) → bytes_ok x ∧ dlen x <= 2 ^ 61.
  Proof using.
    clear F HF. intros (Hb & Hr & _). split; [exact Hb|]. cbn [requests] in Hr. inversion Hr as [|? ? Hr' _]; subst.
    unfold request_ok in Hr'. cbn [max_request simple_limits] in Hr'. lia.
  Qed.
  Lemma crash_queue d xs1 o l B xs2 J K bo m c e x : sensible simple_limits (VQueue l) x → can_empty_from x d →
    ainv S c (objs_blocks (xs1 ++ (o, VQueue l, B) :: xs2) ++ J) (Ast K bo m e) ∗
      reps (xs1 ++ (o, VQueue l, B) :: xs2) ∗ raws J ⊢
    crash (∃ m w e, pool_gen c m w e ∗ Rq d o l (queue_after x l) (xs1 ++ xs2) J bo m) (op_prog al F o x).
  Proof using.
    iIntros (Hs Hd) "(H & R & RJ)".
    iDestruct (pool_focus S simple_limits (simple_limits_ok F HF) F HF _ xs1 (o, VQueue l, B) xs2 J with "H R") as "(H & Hv & R)". cbn [fst snd vrep].
    iCombine "R RJ" as "X".
    iApply (crash_mono (Cq c d o l (queue_after x l) (objs_blocks (xs1 ++ xs2) ++ J) bo ∗ (reps (xs1 ++ xs2) ∗ raws J))); [apply Cq_Rq|].
    destruct x as [f x|f| | | |dd| | | |k dd|k n| |k w ck|k ck|k|k| | | |k dl|k fadd dl|y]; try done; cbn [op_prog]; rewrite -crash_map.
    - apply sensible_push in Hs as [Hb Hl].
      iDestruct (crash_q_push F HF c d f o l x B with "H Hv") as "H"; [intros ->; done|done|done|].
      iDestruct (crash_frame with "H X") as "H". iApply (crash_mono with "H"). destruct f; done.
    - iDestruct (crash_q_pop F HF c d f o l B with "H Hv") as "H"; [intros ->; done|].
      iDestruct (crash_frame with "H X") as "H". iApply (crash_mono with "H"). destruct f; done.
  Qed.

  (** ** Emptying it *)
  Definition Rd1 (d : bool) (o : Z) (l : list bytes) (xs : list obj) (J : blocks) (m : Z) : hPropI :=
    (∃ B K bo, pool_is S xs J (B ++ K) bo m ∗ d_rep d o l B)%I.
  Definition Rd0 (d : bool) (o : Z) (l : list bytes) (xs : list obj) (J : blocks) (m : Z) : hPropI :=
    (∃ B K bo, pool_dirty xs J (B ++ K) bo m ∗ d_rep d o l B)%I.
  Lemma run_d_pop d o l xs J W j pr :
    file_holds (Rd1 d o l xs J) W → wok S W → w_procs W !! j = Some pr →
    match run_by W j (sa_lock ;; q_pop al o d) with
    | WDone x W' => ∃ l', l = x :: l' ∧ file_holds (Rd1 d o l' xs J) W' ∧ wok S W'
    | WExn e W' => l = [] ∧ e = OutOfRange
    | WBad | WNoProc => False
    end.
  Proof using.
    intros HR [Hok Hcfg] Hj.
    pose proof (run_by_lock_wp (Rd1 d o l xs J) (λ x m, ∃ l', ⌜l = x :: l'⌝ ∗ Rd1 d o l' xs J m)%I (λ e m, ⌜l = [] ∧ e = OutOfRange⌝)%I W j pr (q_pop al o d) HR Hok Hj) as H.
    feed specialize H.
    { intros e. iIntros "(Hp & %B & %K & %bo & ((%L & %HL & H) & R & RJ) & D)".
      iApply (wp_d_pop S _ d o l B (objs_blocks xs ++ J) (Ast K bo (w_size W) e) with "[Hp H] D").
      { iSplit; [iPureIntro; apply Hcfg|]. iSplitL "Hp"; [iExact "Hp"|]. iExists L. iSplit; [|iExact "H"]. iPureIntro. cbn [s_K].
        rewrite HL. symmetry. apply blocks3. }
      destruct l as [|x l].
      - iIntros "(_ & Hp & _) _". iExists (w_size W), e. iSplitL "Hp"; [iExact "Hp"|done].
      - iIntros (B' s') "(_ & Hp & (%L' & %HL' & H)) D". iExists (s_m s'), (s_e s'). iSplitL "Hp"; [iExact "Hp"|].
        iExists l. iSplit; [done|]. iExists B', (s_K s'), (s_bo s'). iFrame "R RJ D". iExists L'. iFrame "H". iPureIntro.
        rewrite HL'. apply blocks3. }
    destruct (run_by _ _ _) as [x W'|e W'| |]; try done; destruct H as [H (Hl & Hok' & _)].
    - apply file_holds_exist in H as [l' H]. apply file_holds_pure in H as [-> H]. exists l'. split; [done|]. split; [exact H|].
      split; [done|]. by rewrite Hl.
    - destruct H as [m H]. eapply (holds_pure (l = [] ∧ e = OutOfRange)). eapply holds_mono; [|exact H]. iIntros "[_ $]".
  Qed.
  Lemma drains_on d o l xs J W : file_holds (Rd1 d o l xs J) W → wok S W → drains F W false d o l.
  Proof using.
    revert W. induction l as [|x l IH]; intros W HR Hok; cbn [drains]; intros j [pr Hj];
      pose proof (run_d_pop d o _ xs J W j pr HR Hok Hj) as H;
      change (under_lock false (sa_repair F) (q_pop al o d)) with (sa_lock ;; q_pop al o d)%prog;
      destruct (run_by _ _ _) as [y W'|e W'| |]; try done.
    - destruct H as (l' & H & _). done.
    - destruct H as [_ ->]. by exists W'.
    - destruct H as (l' & [= -> ->] & HR' & Hok'). exists W'. split; [done|]. by apply IH.
    - destruct H as [H _]. done.
  Qed.
  Lemma repair_d d o l xs J W j pr :
    file_holds (Rd0 d o l xs J) W → wok S W → w_procs W !! j = Some pr →
    match run_by W j (under_lock true (sa_repair F) (Ret tt)) with
    | WDone _ W' => wok S W' ∧ file_holds (Rd1 d o l xs J) W' ∧ is_Some (w_procs W' !! j) ∧
        ∀ A (p : prog A), run_by W j (under_lock true (sa_repair F) p) = run_by W' j (sa_lock ;; p)%prog
    | WExn _ _ | WBad | WNoProc => False
    end.
  Proof using.
    intros HR Hok0 Hj. pose proof Hok0 as [Hok Hcfg].
    unfold Rd0 in HR. apply file_holds_exist in HR as [B HR]. apply file_holds_exist in HR as [K HR]. apply file_holds_exist in HR as [bo HR].
    assert (file_holds (pool_dirty xs J (B ++ K) bo) W) as HR0.
    { eapply file_holds_mono; [|exact HR]. intros m. iIntros "[$ _]". }
    destruct (run_by_lock (λ m, pool_dirty xs J (B ++ K) bo m ∗ d_rep d o l B)%I (λ _ : unit, Rd1 d o l xs J) (λ _ _, False)%I (λ _, True)%I W j pr
      (sa_repair F ;; Ret tt)%prog HR Hok Hj) as [H1 _].
    { intros m w Hw. auto. }
    { intros e. iIntros "(Hp & H & D)". iDestruct (wpc_repair F HF xs J (B ++ K) bo with "[$Hp $H]") as "W".
      iApply (wpc_strong_mono with "W"). iSplit; [|iSplit].
      - iIntros (u) "(%m' & %e' & Hp & H)". iExists m', e'. iFrame "Hp". iExists B, K, bo. iFrame.
      - iIntros (x) "(%m' & %e' & Hp & [])".
      - iIntros "(%m' & %w & %e' & Hp & _)". iExists m', w, e'. by iFrame "Hp". }
    change (under_lock true (sa_repair F) (Ret tt)) with (sa_lock ;; (sa_repair F ;; Ret tt))%prog.
    pose proof (takeover_same F HF xs J (B ++ K) bo W j pr) as Hsame.
    change (under_lock true (sa_repair F) (Ret tt)) with (sa_lock ;; (sa_repair F ;; Ret tt))%prog in Hsame.
    destruct (run_by _ _ _) as [[] W'|e W'| |]; try done.
    - destruct H1 as [H1 (Hl & Hok' & (m' & e' & Hpr))]. split; [split; [done|]; by rewrite Hl|]. split; [exact H1|].
      split; [rewrite Hpr lookup_insert; eauto|]. intros A p. by apply (Hsame W' HR0 Hok0 Hj eq_refl).
    - destruct H1 as [[m H1] _]. eapply (holds_pure False). eapply holds_mono; [|exact H1]. iIntros "[_ []]".
  Qed.
  Lemma drains_from d o l xs J W : file_holds (Rd0 d o l xs J) W → wok S W → drains F W true d o l.
  Proof using.
    intros HR Hok. destruct l as [|x l]; cbn [drains]; intros j [pr Hj].
    - pose proof (repair_d d o _ xs J W j pr HR Hok Hj) as H. destruct (run_by _ _ _) as [[] W1|e W1| |]; try done.
      destruct H as (Hok1 & HR1 & Hj1 & ->). pose proof (drains_on _ _ _ _ _ _ HR1 Hok1) as Hd. cbn [drains] in Hd. by apply (Hd j).
    - pose proof (repair_d d o _ xs J W j pr HR Hok Hj) as H. destruct (run_by _ _ _) as [[] W1|e W1| |]; try done.
      destruct H as (Hok1 & HR1 & Hj1 & ->). pose proof (drains_on _ _ _ _ _ _ HR1 Hok1) as Hd. cbn [drains] in Hd. by apply (Hd j).
  Qed.

  Lemma q_rep_d d o l B : q_rep o l B ⊢ d_rep d o (from_end d l) B.
  Proof using.
    clear F HF. iIntros "(%ns & [-> %HB] & Hc & Ht & H16 & H40 & Hs)". iExists (ordn d ns). iSplit.
    { iPureIntro. split; [by rewrite map_ordn|]. by rewrite q_blocks_ordn. }
    iSplitL "Hc"; [by iExists _|]. iSplitL "Ht"; [by iExists _|]. iApply (q_rep_links d o). iFrame "H16 H40".
    rewrite (q_d_seg d). by iApply x_chain.
  Qed.
  Lemma queues_drain_ok st : GInv S st → queues_drain F st.
  Proof using.
    intros (Hok & Hbo & xs & J & K & Hobjs & _ & HR) i o l x d W' Ho Hs Hx Hd. destruct st as [W objs bo tidy]. cbn [g_w g_objs g_base] in *. subst objs.
    destruct (objs_split S simple_limits (simple_limits_ok F HF) F HF xs J K bo W o _ HR Ho) as (xs1 & B & xs2 & -> & Hnd).
    assert (is_Some (w_procs W !! i)) as [pr Hi].
    { destruct Hd as (pr & s & Hi & _). by exists pr. }
    destruct Hok as [Hok Hcfg].
    assert (∀ W', file_holds (Rq d o l (queue_after x l) (xs1 ++ xs2) J bo) W' → wok S W' →
      drains F W' true d o (from_end d l) ∨ drains F W' true d o (from_end d (queue_after x l))) as Hfin.
    { intros W1 Hf Hok1. unfold Rq in Hf. apply file_holds_exist in Hf as [l' Hf]. apply file_holds_exist in Hf as [B' Hf].
      apply file_holds_exist in Hf as [K' Hf]. apply file_holds_pure in Hf as [Hl Hf].
      assert (drains F W1 true d o (from_end d l')) as H.
      { apply (drains_from d o _ (xs1 ++ xs2) J); [|done]. eapply file_holds_mono; [|exact Hf]. intros m. iIntros "H". by iExists B', K', bo. }
      destruct Hl as [->| ->]; [by left|by right]. }
    destruct (dies_by_lock _ (Rq d o l (queue_after x l) (xs1 ++ xs2) J bo) W i pr (op_prog al F o x) HR Hok Hi (Rq_grow _ _ _ _ _ _ _)) with (W' := W')
      as ([Hf|Hf] & Hok' & Hlim & _); [|done| |].
    - intros e. rewrite -(crash_queue d xs1 o l B xs2 J K bo (w_size W) _ e x Hs Hx).
      iIntros "(Hp & H & R & RJ)". iFrame "R RJ". iSplit; [done|]. cbn [s_K s_bo s_m s_e]. iFrame.
    - apply Hfin; [|split; [done|]; by rewrite Hlim]. eapply file_holds_mono; [|exact Hf]. intros m. rewrite pool_is_dirty.
      iIntros "H". iExists l, B, K. iSplit; [by iLeft|].
      iDestruct "H" as "((%L & %HL & H) & R & RJ)". rewrite reps_mid. iDestruct "R" as "[V R]". cbn [fst snd vrep].
      iDestruct (q_rep_d d with "V") as "V". iFrame "V R RJ". iExists L. iFrame "H". iPureIntro. rewrite HL.
      rewrite objs_blocks_mid. cbn [snd]. rewrite -blocks3. by rewrite !(assoc_L app).
    - apply Hfin; [done|]. split; [done|]. by rewrite Hlim.
  Qed.
End game.
End hash_function.
