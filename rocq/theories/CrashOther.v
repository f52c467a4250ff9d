(** * Crashes in any operation: what is left of the other objects.

    The functional rules of the operations (StructProof.v) are proved for any
    representation of the pool.  Used with the one of Locked.v, in which the allocator's
    part of the pool satisfies [others] between any two steps, they say that a crash leaves
    the allocator's blocks, and all that the operation does not own, as they were. *)
From Verif Require Export CrashStep LockedAlloc.
From iris.proofmode Require Import tactics.
From iris.prelude Require Import options.
Open Scope Z_scope.

Local Arguments Z.pow : simpl never.
Local Arguments Z.mul : simpl never.
Local Arguments Z.add : simpl never.
Local Arguments u64 : simpl never.

(** ** Operations that only read *)
Ltac qs_step :=
  match goal with
  | H : _ |- WPCrash.quiet _ => solve [apply H]
  | |- WPCrash.quiet (bind _ _) => apply q_bind; [|intros ?]
  | |- WPCrash.quiet (load _ _) => apply q_load
  | |- WPCrash.quiet (load64 _) => apply q_load
  | |- WPCrash.quiet (load8 _) => apply q_load
  | |- WPCrash.quiet (load_bytes _ _) => apply q_load_bytes
  | |- WPCrash.quiet (Ret _) => constructor
  | |- WPCrash.quiet (Throw _) => constructor
  | |- WPCrash.quiet Undef => constructor
  | |- WPCrash.quiet NoFuel => constructor
  | |- WPCrash.quiet (Op _ _) => constructor; [done|intros ?]
  | |- WPCrash.quiet (if ?b then _ else _) => destruct b
  | |- WPCrash.quiet (match ?x with _ => _ end) => destruct x
  | |- WPCrash.quiet (let '(_, _) := ?x in _) => destruct x
  end.
Ltac qs := repeat qs_step.

Section reads.
  Context {hash : HashFn}.
  Context (al : allocator) (Hal : ∀ o, WPCrash.quiet (al_block_size al o)) (F : nat).
  Set Default Proof Using "All".

  Lemma q_q_verify base : WPCrash.quiet (q_verify al F base).
  Proof.
    unfold q_verify. apply q_bind; [|intros [[? ?] ?]; qs].
    generalize (q_front base) at 1. generalize 0 at 1. generalize (u64 (-2)). generalize 0.
    induction F as [|G IH]; intros c b p cur; cbn [q_verify_loop]; qs.
  Qed.
  Lemma q_h_walk G prev cur k : WPCrash.quiet (h_walk G prev cur k).
  Proof. revert prev cur. induction G as [|G IH]; intros prev cur; cbn [h_walk]; unfold h_match; qs. Qed.
  Lemma q_h_find base k : WPCrash.quiet (h_find al F hash base k).
  Proof. unfold h_find, h_slot, h_match. qs. apply q_h_walk. Qed.
  Lemma q_h_chain G cur : WPCrash.quiet (h_read_chain al G cur).
  Proof. revert cur. induction G as [|G IH]; intros cur; cbn [h_read_chain]; unfold h_read_pair; qs. Qed.
  Lemma q_h_slot_contents base i : WPCrash.quiet (h_slot_contents al F base i).
  Proof. unfold h_slot_contents, h_read_pair. qs; apply q_h_chain. Qed.
  Lemma q_h_advance G base it : WPCrash.quiet (h_advance al F G base it).
  Proof.
    revert it. induction G as [|G IH]; intros it; cbn [h_advance]; unfold h_bits; qs.
    all: try apply q_h_slot_contents.
  Qed.
  Lemma q_h_iterate base : WPCrash.quiet (h_iterate al F base).
  Proof.
    unfold h_iterate. apply q_bind.
    { unfold h_begin, h_bits. qs; [apply q_h_slot_contents|apply q_h_advance]. }
    enough (∀ G it, WPCrash.quiet (h_iterate_from al F G base it)) as H by (intros; apply H).
    induction G as [|G IH]; intros it; cbn [h_iterate_from]; unfold h_is_end, h_next, h_bits; qs.
    apply q_h_advance.
  Qed.
  Lemma q_reads o x : op_only_reads x = true → (∀ y, x = OTree y → WPCrash.quiet (tree_prog al F o y)) → WPCrash.quiet (op_prog al F o x).
  Proof.
    intros Hw Ht. destruct x as [| | | | | | | | | | | | | | | | | | | | |y]; try discriminate Hw; cbn [op_prog].
    all: apply q_bind; [|intros ?; constructor].
    all: try (unfold q_size, q_bytes, pq_size, h_size; solve [qs]).
    - apply q_q_verify.
    - unfold h_exists. apply q_bind; [apply q_h_find|intros []; qs].
    - unfold h_at. apply q_bind; [apply q_h_find|intros []; qs].
    - apply q_h_iterate.
    - by apply Ht.
  Qed.
End reads.

(** ** Operations that write *)
Section hash_function.
Context {hash : HashFn}.
Section game.
  Context (F : nat) (HF : 2 ^ 62 <= Z.of_nat F).
  Notation al := (simple_allocator F).
  Notation S := (simple_spec F HF).

  Lemma locked_limits_ok c Bf Pb : limits_ok (locked_spec F HF c Bf Pb) simple_limits.
  Proof using. split; simpl; unfold request_ok; simpl; try lia. Qed.

  Lemma crash_locked {A} (p : prog A) c B Bf K bo m e (V : hPropI) (Pb : Z → Prop) : Pb bo →
    (ainv (locked_spec F HF c Bf Pb) c B (Ast (Bf ++ K) bo m e) ∗ V ⊢
       wpc (RR := RL c Bf Pb) True p (λ _, True) (λ _, True)) →
    ainv S c (B ++ Bf) (Ast K bo m e) ∗ V ⊢ crash (others c Bf Pb) p.
  Proof using.
    intros Hb Hw. iIntros "[(_ & Hp & H) V]".
    iApply (locked_crash (others c Bf Pb) (pool_inv c m e ∗ sa_RB (B ++ Bf) K bo m) V p (λ _, True)%I (λ _, True)%I with "[Hp H V]").
    - by apply (l_others F HF).
    - rewrite -Hw. iIntros "[H V]". iDestruct (LK_sep with "H") as "[Hp H]". iSplitR "V"; [|iExact "V"].
      iSplit; [done|]. iSplitL "Hp"; [iSplit; [done|]; iExact "Hp"|]. iExists K. iSplit; [done|]. iExact "H".
    - iSplitR "V"; [|iExact "V"]. iSplitL "Hp"; [iExact "Hp"|iExact "H"].
  Qed.

  (** The pool after a crash: the base object is one of [Pb]. *)
  Definition Rd (Pb : Z → Prop) xs J (m : Z) : hPropI := (∃ bo K, ⌜Pb bo⌝ ∗ pool_dirty xs J K bo m)%I.
  Lemma Rd_grow Pb xs J : growable (Rd Pb xs J).
  Proof using.
    intros m w Hw. iIntros "[(%bo & %K & %Hl & H) G]". iExists bo, K. iSplit; [done|].
    iApply (pool_dirty_grow with "[H G]"); [done|]. iFrame.
  Qed.
  Lemma others_Rd c Pb xs J : others c (objs_blocks xs ++ J) Pb ∗ reps xs ∗ raws J ⊢
    ∃ m w e, pool_gen c m w e ∗ Rd Pb xs J m.
  Proof using.
    iIntros "((%bo & %Hb & (%K & %L & %HL & H)) & R & RJ)". rewrite sa_R_crash. iDestruct "H" as (m w e) "[Hp H]".
    iExists m, w, e. iFrame "Hp". iExists bo, K. iSplit; [done|]. iFrame "R RJ". iExists L. by iFrame.
  Qed.
  Lemma pool_is_Rd (Pb : Z → Prop) xs J K bo m : Pb bo → pool_is S xs J K bo m ⊢ Rd Pb xs J m.
  Proof using. iIntros (Hb) "H". iExists bo, K. iSplit; [done|]. by iApply pool_is_dirty. Qed.
  Lemma pool_dirty_drop xs1 x xs2 J K bo m :
    pool_dirty (xs1 ++ x :: xs2) J K bo m ⊢ pool_dirty (xs1 ++ xs2) J (x.2 ++ K) bo m.
  Proof using.
    iIntros "((%L & %HL & H) & R & $)". rewrite reps_mid. iDestruct "R" as "[_ $]". iExists L. iFrame "H".
    iPureIntro. rewrite HL objs_blocks_mid -!(assoc_L app). rewrite (Permutation_app_swap_app x.2). f_equiv.
    apply Permutation_app_swap_app.
  Qed.

  Lemma crash_any {A} (p : prog A) c B xs J K bo m e (V : hPropI) (Pb : Z → Prop) : Pb bo →
    (∀ Bf, ainv (locked_spec F HF c Bf Pb) c B (Ast (Bf ++ K) bo m e) ∗ V ⊢
       wpc (RR := RL c Bf Pb) True p (λ _, True) (λ _, True)) →
    ainv S c (B ++ (objs_blocks xs ++ J)) (Ast K bo m e) ∗ V ∗ reps xs ∗ raws J ⊢
    crash (∃ m w e, pool_gen c m w e ∗ Rd Pb xs J m) p.
  Proof using.
    intros Hb Hw. iIntros "(H & V & R)". iCombine "H V" as "H". iDestruct (crash_locked with "H") as "H"; [done|apply Hw|].
    iDestruct (crash_frame with "H R") as "H". iApply (crash_mono with "H"). apply others_Rd.
  Qed.

  Lemma dies_Rd {A} (p : prog A) xs xs' J K bo W i (Pb : Z → Prop) W' :
    file_holds (pool_is S xs J K bo) W → wok S W → (∀ m, pool_is S xs J K bo m ⊢ Rd Pb xs' J m) →
    (∀ pr e, w_procs W !! i = Some pr →
       ainv S (Cfg (p_max pr) (w_lim W)) (objs_blocks xs ++ J) (Ast K bo (w_size W) e) ∗ reps xs ∗ raws J ⊢
       crash (∃ m w e, pool_gen (Cfg (p_max pr) (w_lim W)) m w e ∗ Rd Pb xs' J m) p) →
    dies_in W i (sa_lock ;; p)%prog W' →
    wok S W' ∧ ∃ bo' K', Pb bo' ∧ file_holds (pool_dirty xs' J K' bo') W'.
  Proof using.
    intros HR [Hok Hcfg] H0 Hp Hd.
    assert (is_Some (w_procs W !! i)) as [pr Hi].
    { destruct Hd as (pr & s & Hi & _). by exists pr. }
    assert (∀ W', file_holds (Rd Pb xs' J) W' → ∃ bo' K', Pb bo' ∧ file_holds (pool_dirty xs' J K' bo') W') as Hout.
    { intros W0 H. unfold Rd in H. apply file_holds_exist in H as [bo' H]. apply file_holds_exist in H as [K' H].
      apply file_holds_pure in H as [Hb H]. by exists bo', K'. }
    destruct (dies_by_lock _ (Rd Pb xs' J) W i pr p HR Hok Hi (Rd_grow _ _ _)) with (W' := W')
      as (Hf & Hok' & Hlim & _); [|done|].
    - intros e. rewrite -(Hp pr e Hi). iIntros "(Hpo & H & R & RJ)". iFrame "R RJ". iSplit; [done|].
      cbn [s_K s_bo s_m s_e]. iSplitL "Hpo"; [iExact "Hpo"|iExact "H"].
    - split; [split; [done|]; by rewrite Hlim|]. apply Hout. destruct Hf as [Hf|Hf]; [|done].
      eapply file_holds_mono; [|exact Hf]. exact H0.
  Qed.

  Lemma crash_op xs1 o v B xs2 J K bo W i x W' :
    file_holds (pool_is S (xs1 ++ (o, v, B) :: xs2) J K bo) W → wok S W →
    ideal v x ≠ None → sensible simple_limits v x →
    (∀ pr, w_procs W !! i = Some pr → needs_steady_pool v x = true → ¬ may_grow pr W (w_size W + 1)) →
    dies_in W i (sa_lock ;; op_prog al F o x)%prog W' →
    wok S W' ∧ ∃ K', file_holds (pool_dirty (xs1 ++ xs2) J K' bo) W'.
  Proof using.
    intros HR Hok Hid Hse Hst Hd.
    destruct (dies_Rd (op_prog al F o x) _ (xs1 ++ xs2) _ _ _ _ i (λ b, b = bo) W' HR Hok) as (Hok' & bo' & K' & -> & Hf).
    - intros m. rewrite pool_is_dirty pool_dirty_drop. iIntros "H". iExists bo, _. iSplit; [done|]. iExact "H".
    - intros pr e Hi. rewrite -(crash_any _ _ B (xs1 ++ xs2) J K bo (w_size W) e (vrep o v B) (λ b, b = bo) eq_refl).
      + iIntros "(H & R & RJ)".
        iDestruct (pool_focus S simple_limits (simple_limits_ok F HF) F HF _ xs1 (o, v, B) xs2 J with "H R") as "(H & Hv & R)".
        cbn [fst snd]. iFrame "H Hv R RJ".
      + intros Bf. iIntros "[H V]".
        iApply (wp_op (locked_spec F HF _ Bf _) simple_limits (locked_limits_ok _ Bf _) (Cfg (p_max pr) (w_lim W)) F HF o v x B [] (Ast (Bf ++ K) bo (w_size W) e) with "[H] V"); [done|done| | |].
        * intros Hn. exact (Hst pr Hi Hn).
        * rewrite app_nil_r. iExact "H".
        * iSplit; auto.
    - exact Hd.
    - split; [done|]. by exists K'.
  Qed.
  Lemma crash_create xs J K bo W i k W' :
    file_holds (pool_is S xs J K bo) W → wok S W → sensible_kind simple_limits k →
    dies_in W i (sa_lock ;; create_prog al k)%prog W' →
    wok S W' ∧ ∃ K', file_holds (pool_dirty xs J K' bo) W'.
  Proof using.
    intros HR Hok Hk Hd.
    destruct (dies_Rd (create_prog al k) _ xs _ _ _ _ i (λ b, b = bo) W' HR Hok) as (Hok' & bo' & K' & -> & Hf).
    - intros m. by apply pool_is_Rd.
    - intros pr e Hi. rewrite -(crash_any _ _ [] xs J K bo (w_size W) e True%I (λ b, b = bo) eq_refl).
      + iIntros "(H & R & RJ)". iFrame "H R RJ".
      + intros Bf. iIntros "[H _]".
        iApply (wp_create (locked_spec F HF _ Bf _) simple_limits (locked_limits_ok _ Bf _) _ F HF k with "H"); [done|].
        iSplit; auto.
    - exact Hd.
    - split; [done|]. by exists K'.
  Qed.

  Lemma crash_free_blob xs1 o b B xs2 J K bo W i W' :
    file_holds (pool_is S (xs1 ++ (o, VBlob b, B) :: xs2) J K bo) W → wok S W →
    dies_in W i (sa_lock ;; al_free al o)%prog W' →
    wok S W' ∧ ∃ K', file_holds (pool_dirty (xs1 ++ xs2) J K' bo) W'.
  Proof using.
    intros HR Hok Hd.
    destruct (dies_Rd (al_free al o) _ (xs1 ++ xs2) _ _ _ _ i (λ b, b = bo) W' HR Hok) as (Hok' & bo' & K' & -> & Hf).
    - intros m. rewrite pool_is_dirty pool_dirty_drop. iIntros "H". iExists bo, _. iSplit; [done|]. iExact "H".
    - intros pr e Hi. rewrite -(crash_any _ _ B (xs1 ++ xs2) J K bo (w_size W) e (vrep o (VBlob b) B) (λ b, b = bo) eq_refl).
      + iIntros "(H & R & RJ)".
        iDestruct (pool_focus S simple_limits (simple_limits_ok F HF) F HF _ xs1 (o, VBlob b, B) xs2 J with "H R") as "(H & Hv & R)".
        cbn [fst snd]. iFrame "H Hv R RJ".
      + intros Bf. iIntros "[H V]".
        iApply (wp_free_blob (locked_spec F HF _ Bf _) simple_limits (locked_limits_ok _ Bf _) (Cfg (p_max pr) (w_lim W)) F HF o b B [] with "[H] V"); [rewrite app_nil_r; iExact "H"|].
        auto.
    - exact Hd.
    - split; [done|]. by exists K'.
  Qed.

  Lemma crash_set_base xs J K bo W i v W' :
    file_holds (pool_is S xs J K bo) W → wok S W → is_u64 v →
    dies_in W i (sa_lock ;; al_set_base al v)%prog W' →
    wok S W' ∧ ∃ bo' K', (bo' = bo ∨ bo' = v) ∧ file_holds (pool_dirty xs J K' bo') W'.
  Proof using.
    intros HR Hok Hv Hd.
    refine (dies_Rd (al_set_base al v) _ xs _ _ _ _ i (λ b, b = bo ∨ b = v) W' HR Hok _ _ Hd).
    - intros m. apply pool_is_Rd. by left.
    - intros pr e Hi. rewrite -(crash_any _ _ [] xs J K bo (w_size W) e True%I (λ b, b = bo ∨ b = v) (or_introl eq_refl)).
      + iIntros "(H & R & RJ)". iFrame "H R RJ".
      + intros Bf. iIntros "[H _]". iApply (bind_ret_r (RR := RL _ Bf _)).
        iApply (wp_set_base (locked_spec F HF _ Bf _) with "H"); [done|by right|].
        iIntros "_". by iApply (wp_ret (RR := RL _ Bf _)).
  Qed.

  Lemma pool_dirty_facts xs J K bo m : pool_dirty xs J K bo m ⊢ ⌜is_u64 bo ∧ NoDup (map o_key xs)⌝.
  Proof using.
    iIntros "((%L & %HL & (%ba & %bc & Hr & _ & _ & %Hl)) & R & _)".
    iDestruct "Hr" as "(_ & Hb & _)". iDestruct (word_u64 with "Hb") as %Hb.
    iDestruct (reps_nodup with "R") as %Hnd; [|done].
    apply layout_blocks_ok in Hl. eapply blocks_ok_perm in Hl; [|exact HL]. destruct Hl as (_ & Hnd & _).
    rewrite !fmap_app in Hnd. apply NoDup_app in Hnd as (Hnd & _). by apply NoDup_app in Hnd as (Hnd & _).
  Qed.
  Lemma dirty_facts xs J K bo W : file_holds (pool_dirty xs J K bo) W → is_u64 bo ∧ NoDup (map o_key xs).
  Proof using.
    intros H. assert (file_holds (λ m, ⌜is_u64 bo ∧ NoDup (map o_key xs)⌝ ∗ pool_dirty xs J K bo m)%I W) as H2.
    { eapply file_holds_mono; [|exact H]. intros m. iIntros "H".
      iDestruct (pool_dirty_facts with "H") as %?. by iFrame. }
    by apply file_holds_pure in H2 as [? _].
  Qed.

  (** Writing to a raw block. *)
  Definition kept (b : bytes) (k : Z) (d : bytes) (b' : bytes) : Prop :=
    length b' = length b ∧ ∀ i, Z.of_nat i < k ∨ k + dlen d <= Z.of_nat i → b' !! i = b !! i.
  Definition Rb xs1 o b k d B xs2 J bo (m : Z) : hPropI :=
    (∃ b' K', ⌜kept b k d b'⌝ ∗ pool_dirty (xs1 ++ (o, VBlob b', B) :: xs2) J K' bo m)%I.
  Lemma Rb_grow xs1 o b k d B xs2 J bo : growable (Rb xs1 o b k d B xs2 J bo).
  Proof using.
    intros m w Hw. iIntros "[(%b' & %K' & %Hl & H) G]". iExists b', K'. iSplit; [done|].
    iApply (pool_dirty_grow with "[H G]"); [done|]. iFrame.
  Qed.
  Lemma crash_write_pool xs1 o b k d B xs2 J K bo m c e : 0 <= k → k + dlen d <= dlen b → bytes_ok d →
    ainv S c (objs_blocks (xs1 ++ (o, VBlob b, B) :: xs2) ++ J) (Ast K bo m e) ∗
      reps (xs1 ++ (o, VBlob b, B) :: xs2) ∗ raws J ⊢
    crash (∃ m w e, pool_gen c m w e ∗ Rb xs1 o b k d B xs2 J bo m) (op_prog al F o (BWrite k d)).
  Proof using.
    iIntros (H1 H2 Hd) "(H & R & RJ)". cbn [op_prog]. rewrite reps_mid. cbn [fst snd vrep].
    iDestruct "R" as "[[%HB Hb] R]".
    destruct (pts_cut o b k (dlen d)) as [Hcut Hlen]; [unfold dlen in *; lia|]. rewrite Hcut. iDestruct "Hb" as "(P1 & P2 & P3)".
    iAssert (raw (o + k) (o + k + dlen d)) with "[P2]" as "P2".
    { iApply (pts_raw with "P2"). rewrite Hlen. done. }
    set (D := (ainv S c (objs_blocks (xs1 ++ (o, VBlob b, B) :: xs2) ++ J) (Ast K bo m e) ∗ reps (xs1 ++ xs2) ∗ raws J ∗
      pts o (take (Z.to_nat k) b) ∗ pts (o + k + dlen d) (drop (Z.to_nat k + Z.to_nat (dlen d)) b))%I).
    assert (D ∗ raw (o + k) (o + k + dlen d) ⊢ ∃ m w e, pool_gen c m w e ∗ Rb xs1 o b k d B xs2 J bo m) as HC.
    { iIntros "((H & R & RJ & P1 & P3) & (%bs & %Hbs & P2))".
      iDestruct (ainv_acr F HF c with "H") as (K' L HL) "H". rewrite sa_R_crash. iDestruct "H" as (m' w' e') "[Hp H]".
      iExists m', w', e'. iFrame "Hp". set (b' := take (Z.to_nat k) b ++ bs ++ drop (Z.to_nat k + Z.to_nat (dlen d)) b).
      assert (length b' = length b) as Hl'.
      { unfold b'. rewrite !app_length take_length drop_length. unfold dlen in *. lia. }
      iExists b', K'. iSplit.
      { iPureIntro. split; [done|]. intros i Hi. unfold b'. unfold dlen in *. destruct Hi as [Hi|Hi].
        - rewrite lookup_app_l; [|rewrite take_length; lia]. rewrite lookup_take //. lia.
        - rewrite lookup_app_r; [|rewrite take_length; lia]. rewrite take_length.
          rewrite lookup_app_r; [|lia]. rewrite lookup_drop. f_equal. lia. }
      iSplitL "H"; [|iFrame "RJ"].
      + iExists L. iFrame "H". iPureIntro. rewrite HL. by rewrite !objs_blocks_mid.
      + rewrite reps_mid. iFrame "R". cbn [fst snd vrep]. iSplit; [iPureIntro; rewrite HB; unfold dlen; by rewrite Hl'|].
        unfold b'. rewrite !pts_app take_length. iFrame "P1".
        replace (o + Z.of_nat (Z.to_nat k `min` length b)) with (o + k) by (unfold dlen in *; lia). iFrame "P2".
        replace (o + k + Z.of_nat (length bs)) with (o + k + dlen d) by lia. done. }
    iApply (crash_local _ D (o + k) (o + k + dlen d) with "[$H $R $RJ $P1 $P2 $P3]").
    - apply si_store_bytes; unfold dlen; lia.
    - exact HC.
    - iIntros "(HD & (%bs & %Hbs & P2))". iApply (wp_store_bytes with "P2"); [unfold dlen in *; lia|done|].
      iIntros "P2". iApply crash_ret. iApply HC. iFrame "HD". iApply (pts_raw with "P2"). unfold dlen; lia.
  Qed.
  Lemma crash_write xs1 o b k d B xs2 J K bo W i W' :
    file_holds (pool_is S (xs1 ++ (o, VBlob b, B) :: xs2) J K bo) W → wok S W →
    0 <= k → k + dlen d <= dlen b → bytes_ok d →
    dies_in W i (sa_lock ;; op_prog al F o (BWrite k d))%prog W' →
    wok S W' ∧ ∃ b' K', kept b k d b' ∧ file_holds (pool_dirty (xs1 ++ (o, VBlob b', B) :: xs2) J K' bo) W'.
  Proof using.
    intros HR [Hok Hcfg] H1 H2 Hb Hd.
    assert (is_Some (w_procs W !! i)) as [pr Hi].
    { destruct Hd as (pr & s & Hi & _). by exists pr. }
    destruct (dies_by_lock _ (Rb xs1 o b k d B xs2 J bo) W i pr (op_prog al F o (BWrite k d)) HR Hok Hi (Rb_grow _ _ _ _ _ _ _ _ _)) with (W' := W')
      as ([Hf|Hf] & Hok' & Hlim & _); [|done| |].
    - intros e. rewrite -(crash_write_pool xs1 o b k d B xs2 J K bo (w_size W) _ e H1 H2 Hb).
      iIntros "(Hp & H & R & RJ)". iFrame "R RJ". iSplit; [done|]. cbn [s_K s_bo s_m s_e]. iFrame.
    - split; [split; [done|]; by rewrite Hlim|]. exists b, K. split; [by split|].
      eapply file_holds_mono; [|exact Hf]. intros m. apply pool_is_dirty.
    - split; [split; [done|]; by rewrite Hlim|]. unfold Rb in Hf.
      apply file_holds_exist in Hf as [b' Hf]. apply file_holds_exist in Hf as [K' Hf].
      apply file_holds_pure in Hf as [Hl Hf]. by exists b', K'.
  Qed.

  (** Opening the base object. *)
  Lemma q_get_base : WPCrash.quiet (al_get_base al).
  Proof using. apply q_load. Qed.
  Lemma crash_get_base {A} c xs J K bo m e C (k : Z → prog A) :
    (∀ m, pool_is S xs J K bo m ⊢ C m) →
    ainv S c (objs_blocks xs ++ J) (Ast K bo m e) ∗ reps xs ∗ raws J -∗
    (ainv S c (objs_blocks xs ++ J) (Ast K bo m e) ∗ reps xs ∗ raws J -∗ crash (∃ m w e, pool_gen c m w e ∗ C m) (k bo)) -∗
    crash (∃ m w e, pool_gen c m w e ∗ C m) (x <- al_get_base al ;; k x)%prog.
  Proof using.
    intros HC. iIntros "H W".
    iApply (crash_quiet _ (ainv S c (objs_blocks xs ++ J) (Ast K bo m e) ∗ reps xs ∗ raws J) (al_get_base al) (λ x, x = bo) with "H").
    - apply q_get_base.
    - iIntros "((_ & Hp & H) & R)".
      iExists m, m, e. iSplitL "Hp"; [iExact "Hp"|]. iApply HC. iSplitL "H"; [iExact "H"|iExact "R"].
    - iIntros "[H _]". iApply bind_ret_r. iApply (wp_get_base with "H"). iIntros "_". by iApply wp_ret.
    - iIntros (x ->) "H". by iApply "W".
  Qed.
  Definition Ro k xs J (bo m : Z) : hPropI :=
    ((∃ K, pool_dirty xs J K bo m) ∨
     ∃ o v B K, ⌜bo = 0 ∧ is_new k v⌝ ∗ pool_dirty ((o, v, B) :: xs) J K o m)%I.
  Lemma Ro_grow k xs J bo : growable (Ro k xs J bo).
  Proof using.
    intros m w Hw. iIntros "[[(%K & H)|(%o & %v & %B & %K & %Hl & H)] G]".
    - iLeft. iExists K. iApply (pool_dirty_grow with "[H G]"); [done|]. iFrame.
    - iRight. iExists o, v, B, K. iSplit; [done|]. iApply (pool_dirty_grow with "[H G]"); [done|]. iFrame.
  Qed.
  Lemma crash_new_base k c xs J K m e : sensible_kind simple_limits k →
    ainv S c (objs_blocks xs ++ J) (Ast K 0 m e) ∗ reps xs ∗ raws J ⊢
    crash (∃ m w e, pool_gen c m w e ∗ Ro k xs J 0 m) (base <- create_prog al k ;; al_set_base al base ;; Ret base)%prog.
  Proof using.
    iIntros (Hk) "(H & R)". iApply crash_seq. iSplit.
    - iApply (crash_mono (∃ m w e, pool_gen c m w e ∗ Rd (λ b, b = 0) xs J m)).
      { iIntros "(%m' & %w & %e' & Hp & (%bo & %K' & -> & H))". iExists m', w, e'. iFrame "Hp". iLeft. iExists K'. iExact "H". }
      iApply (crash_any _ _ [] xs J K 0 m e True%I (λ b, b = 0) eq_refl).
      + intros Bf. iIntros "[H _]".
        iApply (wp_create (locked_spec F HF _ Bf _) simple_limits (locked_limits_ok _ Bf _) _ F HF k with "H"); [done|].
        iSplit; auto.
      + iFrame "H R".
    - iApply (wp_create S simple_limits (simple_limits_ok F HF) _ F HF k with "H"); [done|]. iSplit; [|auto].
      iIntros (o v B' [K' bo' m' e'] (Hext & Ho & Hn)) "(_ & Hp & (%L & %HL & HR)) V". cbn [s_K s_bo s_m s_e] in *.
      destruct Hext as (_ & Hb & _). cbn [s_bo] in Hb. subst bo'.
      iDestruct (sa_R_inv1 with "Hp HR") as "Hinv".
      iDestruct "Hinv" as "(Hp & (Hi & Hbo & Hba & Hbc) & Hc & %Hl)".
      iApply (crash_store64 _ sa_base o (λ _, Ret o)); [unfold is_u64; lia|].
      assert (∀ x, (if bool_decide (x = 0) then True else x = o) → sa_inv c L m' e' x ∗ vrep o v B' ∗ reps xs ∗ raws J ⊢ ∃ m w e, pool_gen c m w e ∗ Ro k xs J 0 m) as Hx.
      { iIntros (x Hx) "(H & V & R & RJ)". iDestruct (sa_R_inv2 with "H") as "[Hp HR]".
        iExists m', m', e'. iSplitL "Hp"; [iExact "Hp"|].
        iDestruct (sa_R_weaken with "HR") as "HR". case_bool_decide as Hx0.
        - subst x. iLeft. iExists (B' ++ K'). iFrame "R RJ". iExists L. iFrame "HR". iPureIntro.
          rewrite HL. rewrite -!(assoc_L app). rewrite (Permutation_app_swap_app B'). f_equiv. apply Permutation_app_swap_app.
        - subst x. iRight. iExists o, v, B', K'. iSplit; [done|]. iFrame "R RJ V". iExists L. iFrame "HR".
          iPureIntro. rewrite HL. change (objs_blocks ((o, v, B') :: xs)) with (B' ++ objs_blocks xs). by rewrite -!(assoc_L app). }
      iExists 0. iFrame "Hbo". iSplit.
      + iIntros "Hbo". iApply (Hx 0); [done|]. iFrame "V R". by iFrame.
      + iIntros "Hbo". iApply crash_ret. iApply (Hx o); [by case_bool_decide|]. iFrame "V R". by iFrame.
  Qed.

  Lemma crash_open_base xs J K bo W i k p W' :
    file_holds (pool_is S xs J K bo) W → wok S W → sensible_kind simple_limits k → is_u64 bo → open_base_prog al k = Some p →
    dies_in W i (sa_lock ;; p)%prog W' →
    wok S W' ∧ ((∃ K', file_holds (pool_dirty xs J K' bo) W') ∨ bo = 0 ∧
      match k with
      | KQueue => ∃ bo' K', file_holds (pool_dirty xs J K' bo') W'
      | _ => ∃ o v B K', is_new k v ∧ file_holds (pool_dirty ((o, v, B) :: xs) J K' o) W'
      end).
  Proof using.
    intros HR Hok Hk Hbo Hp Hd. destruct (decide (bo = 0)) as [->|Hne].
    2:{ destruct (dies_Rd p xs xs J K bo W i (λ b, b = bo) W' HR Hok) as (Hok' & bo' & K' & -> & Hf).
        - intros m. by apply pool_is_Rd.
        - intros pr e Hi. iIntros "H".
          assert (∃ (r : prog Z), p = (b <- al_get_base al ;; if bool_decide (b = 0) then r else Ret b)%prog) as [r ->].
          { destruct k; simpl in Hp; simplify_eq; eexists; reflexivity. }
          iApply (crash_get_base _ xs J K bo (w_size W) e with "H"); [intros m; by apply pool_is_Rd|].
          iIntros "((_ & Hpo & H) & R)". rewrite (bool_decide_eq_false_2 (bo = 0)); [|done]. iApply crash_ret.
          iExists _, _, _. iSplitL "Hpo"; [iExact "Hpo"|]. iApply (pool_is_Rd _ _ _ K bo); [done|]. iSplitL "H"; [iExact "H"|iExact "R"].
        - done.
        - split; [done|]. left. by exists K'. }
    assert (k = KQueue ∨ k ≠ KQueue) as [->|Hnq] by (destruct k; by [left|right]).
    - destruct (dies_Rd p xs xs J K 0 W i (λ b, True) W' HR Hok) as (Hok' & bo' & K' & _ & Hf).
      + intros m. by apply pool_is_Rd.
      + intros pr e Hi. rewrite -(crash_any _ _ [] xs J K 0 (w_size W) e True%I (λ b, True) I).
        * iIntros "(H & R & RJ)". iFrame "H R RJ".
        * intros Bf. iIntros "[H _]". assert (BaseFree (locked_spec F HF (Cfg (p_max pr) (w_lim W)) Bf (λ _, True))) as HBF by by intros ?.
          iApply (wp_open_base (locked_spec F HF _ Bf _) simple_limits (locked_limits_ok _ Bf _) _ F HF KQueue p with "H"); [done|done|done|].
          iSplit; [auto|iSplit; auto].
      + done.
      + split; [done|]. right. split; [done|]. by exists bo', K'.
    - assert (p = (b <- al_get_base al ;; if bool_decide (b = 0) then (base <- create_prog al k ;; al_set_base al base ;; Ret base) else Ret b)%prog) as ->.
      { destruct k; simpl in Hp; simplify_eq; reflexivity. }
      destruct Hok as [Hok Hcfg].
      assert (is_Some (w_procs W !! i)) as [pr Hi].
      { destruct Hd as (pr & s & Hi & _). by exists pr. }
      assert (∀ m, pool_is S xs J K 0 m ⊢ Ro k xs J 0 m) as H0.
      { intros m. rewrite pool_is_dirty. iIntros "H". iLeft. iExists K. iExact "H". }
      assert (∀ W', file_holds (Ro k xs J 0) W' → (∃ K', file_holds (pool_dirty xs J K' 0) W') ∨ ∃ o v B K', is_new k v ∧ file_holds (pool_dirty ((o, v, B) :: xs) J K' o) W') as Hout.
      { intros W0 H. unfold Ro in H. apply file_holds_or in H as [H|H].
        - left. by apply file_holds_exist in H as [K' H]; exists K'.
        - right. apply file_holds_exist in H as [o H]. apply file_holds_exist in H as [v H]. apply file_holds_exist in H as [B H].
          apply file_holds_exist in H as [K' H]. apply file_holds_pure in H as [[_ Hn] H]. by exists o, v, B, K'. }
      destruct (fun Hwp => dies_by_lock _ (Ro k xs J 0) W i pr _ HR Hok Hi (Ro_grow k xs J 0) Hwp W' Hd)
        as (Hf & Hok' & Hlim & _).
      + intros e. iIntros "(Hpo & H & R)".
        iApply (crash_get_base _ xs J K 0 (w_size W) e with "[Hpo H R]"); [done| |].
        * iFrame "R". iSplit; [done|]. iSplitL "Hpo"; [iExact "Hpo"|iExact "H"].
        * iIntros "H". rewrite (bool_decide_eq_true_2 (0 = 0)); [|done]. iApply (crash_new_base with "H"). done.
      + split; [split; [done|]; by rewrite Hlim|].
        assert (file_holds (Ro k xs J 0) W') as Hf'.
        { destruct Hf as [Hf|Hf]; [|done]. eapply file_holds_mono; [|exact Hf]. exact H0. }
        apply Hout in Hf' as [Hf'|Hf']; [by left|right]. split; [done|]. by destruct k.
  Qed.
End game.
End hash_function.
