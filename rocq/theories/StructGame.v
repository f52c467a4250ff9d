(** * Histories over many objects: the invariant and its preservation. *)
From Verif Require Export StructProof SimpleMain.
From iris.proofmode Require Import tactics.
From iris.prelude Require Import options.
Open Scope Z_scope.
Set Default Proof Using "All".

Lemma raws_app J1 J2 : raws (J1 ++ J2) ⊣⊢ raws J1 ∗ raws J2.
Proof. unfold raws. apply big_sepL_app. Qed.

Section hash_function.
Context {hash : HashFn}.

Notation obj := (Z * value * blocks)%type.
Definition o_key (x : obj) : Z := x.1.1.
Definition objs_blocks (xs : list obj) : blocks := concat (map snd xs).
Definition objs_map (xs : list obj) : gmap Z value := list_to_map (map fst xs).
Definition reps (xs : list obj) : hPropI := ([∗ list] x ∈ xs, vrep x.1.1 x.1.2 x.2)%I.

Lemma objs_blocks_mid xs1 x xs2 : objs_blocks (xs1 ++ x :: xs2) ≡ₚ x.2 ++ objs_blocks (xs1 ++ xs2).
Proof.
  unfold objs_blocks. rewrite !map_app !concat_app /=. by rewrite app_assoc (Permutation_app_comm _ x.2) -app_assoc.
Qed.
Lemma reps_mid xs1 x xs2 : reps (xs1 ++ x :: xs2) ⊣⊢ vrep x.1.1 x.1.2 x.2 ∗ reps (xs1 ++ xs2).
Proof. unfold reps. rewrite !big_sepL_app /=. iSplit; iIntros "($ & $ & $)". Qed.

Lemma reps_keys xs : reps xs ⊢ ⌜∀ x, x ∈ xs → o_key x ∈ (objs_blocks xs).*1⌝.
Proof.
  iIntros "H" (x Hin). apply elem_of_list_split in Hin as (xs1 & xs2 & ->).
  iDestruct (reps_mid with "H") as "[H _]". iDestruct (vrep_base with "H") as %[n Hn]. iPureIntro.
  apply elem_of_list_fmap. exists (o_key x, n). split; [done|]. rewrite objs_blocks_mid. by apply in_app_l.
Qed.
Lemma reps_nodup xs : NoDup ((objs_blocks xs).*1) → reps xs ⊢ ⌜NoDup (map o_key xs)⌝.
Proof.
  induction xs as [|x xs IH]; intros Hnd; [iIntros "_"; iPureIntro; constructor|].
  change (objs_blocks (x :: xs)) with (x.2 ++ objs_blocks xs) in Hnd.
  rewrite fmap_app in Hnd. apply NoDup_app in Hnd as (Hnd1 & Hnd2 & Hnd3).
  iIntros "[Hx H]". iDestruct (reps_keys with "H") as %Hk. iDestruct (IH with "H") as %Hnd'; [done|].
  iDestruct (vrep_base with "Hx") as %[n Hn]. iPureIntro. simpl. constructor; [|done].
  intros Hin. apply elem_of_list_fmap in Hin as [y [Hy Hin]].
  apply (Hnd2 (o_key x)); [|rewrite Hy; by apply Hk].
  apply elem_of_list_fmap. by exists (x.1.1, n).
Qed.

Lemma objs_fst xs : (map fst xs).*1 = map o_key xs.
Proof. unfold o_key. rewrite -list_fmap_compose. done. Qed.
Lemma objs_map_lookup xs o v : NoDup (map o_key xs) →
  objs_map xs !! o = Some v ↔ ∃ B, (o, v, B) ∈ xs.
Proof.
  intros Hnd. unfold objs_map. rewrite -elem_of_list_to_map; [|by rewrite objs_fst].
  rewrite elem_of_list_fmap. split.
  - intros [[[o' v'] B] [[= -> ->] Hin]]. by exists B.
  - intros [B Hin]. exists (o, v, B). done.
Qed.
Lemma objs_map_mid xs1 o v B xs2 : NoDup (map o_key (xs1 ++ (o, v, B) :: xs2)) →
  objs_map (xs1 ++ xs2) !! o = None ∧
  ∀ v' B', objs_map (xs1 ++ (o, v', B') :: xs2) = <[o := v']> (objs_map (xs1 ++ xs2)).
Proof.
  intros Hnd. rewrite map_app /= in Hnd. split.
  - unfold objs_map. apply not_elem_of_list_to_map. rewrite objs_fst map_app.
    apply NoDup_app in Hnd as (Hnd1 & Hnd2 & Hnd3). apply NoDup_cons in Hnd3 as [Hni Hnd3].
    intros Hin. apply elem_of_app in Hin as [Hin|Hin]; [|done]. apply (Hnd2 _ Hin). by left.
  - intros v' B'. unfold objs_map. rewrite !map_app /=.
    apply NoDup_app in Hnd as (Hnd1 & Hnd2 & Hnd3). apply NoDup_cons in Hnd3 as [Hni Hnd3].
    rewrite !list_to_map_app /=. rewrite insert_union_r; [done|].
    apply not_elem_of_list_to_map. rewrite objs_fst. intros Hin. apply (Hnd2 _ Hin). by left.
Qed.

Lemma opt_add_comm x y z : opt_add x (opt_add y z) = opt_add y (opt_add x z).
Proof. destruct x, y, z; simpl; try done. f_equal. lia. Qed.
Lemma total_footprint_insert objs o v : objs !! o = None →
  total_footprint (<[o := v]> objs) = opt_add (footprint v) (total_footprint objs).
Proof.
  intros Ho. unfold total_footprint. rewrite map_fold_insert_L; [done| |done].
  intros. apply opt_add_comm.
Qed.
Lemma reps_footprint xs : NoDup (map o_key xs) → ∀ n, total_footprint (objs_map xs) = Some n →
  reps xs ⊢ ⌜sum_sz (objs_blocks xs) = n⌝.
Proof.
  induction xs as [|[[o v] B] xs IH]; intros Hnd n Hn.
  - unfold objs_map in Hn. simpl in Hn. unfold total_footprint in Hn. rewrite map_fold_empty in Hn.
    simplify_eq. iIntros "_". done.
  - destruct (objs_map_mid [] o v B xs) as [Hno Hi]; [done|]. simpl in *. rewrite (Hi v B) in Hn.
    apply NoDup_cons in Hnd as [_ Hnd]. rewrite total_footprint_insert // in Hn.
    destruct (footprint v) as [a|] eqn:Ea; [|done]. destruct (total_footprint (objs_map xs)) as [b|] eqn:Eb; [|done].
    simpl in Hn. simplify_eq. iIntros "[Hv H]". simpl. iDestruct (vrep_footprint _ _ _ _ Ea with "Hv") as %<-.
    iDestruct (IH Hnd _ eq_refl with "H") as %<-.
    change (objs_blocks ((o, v, B) :: xs)) with (B ++ objs_blocks xs). by rewrite sum_sz_app.
Qed.

Section game.
  Context {al : allocator} (S : alloc_spec al) `{!BaseFree S, !Visible S} (lm : alloc_limits) (HL : limits_ok S lm).
  Context (F : nat) (HF : 2 ^ 62 <= Z.of_nat F).

  Definition wok (W : world) : Prop := world_ok W ∧ ∀ mx, as_cfg S (Cfg mx (w_lim W)).
  Lemma wok_env W W' : wok W → w_lim W' = w_lim W → world_ok W' → wok W'.
  Proof. intros [_ H] Hl Hok. split; [done|]. by rewrite Hl. Qed.

  Definition pool_is (xs : list obj) (J K : blocks) (bo m : Z) : hPropI :=
    (as_R S (objs_blocks xs ++ J) K bo m ∗ reps xs ∗ raws J)%I.

  Definition GInv (st : gstate) : Prop :=
    wok (g_w st) ∧ is_u64 (g_base st) ∧
    ∃ xs J K, g_objs st = objs_map xs ∧ (g_tidy st = true → J = [] ∧ K = []) ∧
      file_holds (pool_is xs J K (g_base st)) (g_w st).

  Lemma pool_is_nodup xs J K bo m : pool_is xs J K bo m ⊢ ⌜NoDup (map o_key xs)⌝.
  Proof.
    iIntros "(H & R & _)". iDestruct (as_facts with "H") as %(_ & Hnd & _).
    iApply (reps_nodup with "R"). rewrite !fmap_app in Hnd.
    apply NoDup_app in Hnd as (Hnd & _). by apply NoDup_app in Hnd as (Hnd & _).
  Qed.
  Lemma file_nodup xs J K bo W : file_holds (pool_is xs J K bo) W → NoDup (map o_key xs).
  Proof.
    intros H. assert (file_holds (λ m, ⌜NoDup (map o_key xs)⌝ ∗ pool_is xs J K bo m)%I W) as H2.
    { eapply file_holds_mono; [|exact H]. intros m. iIntros "H".
      iDestruct (pool_is_nodup with "H") as %?. by iFrame. }
    by apply file_holds_pure in H2 as [? _].
  Qed.

  (** Any program under the lock, given its rule in terms of [ainv]. *)
  Lemma run_pool {A} xs J K bo W i pr (p : prog A) (Q : A → list obj → blocks → ast → Prop)
      (Qx : exn → list obj → blocks → ast → Prop) :
    file_holds (pool_is xs J K bo) W → wok W → w_procs W !! i = Some pr →
    (∀ e, ainv S (Cfg (p_max pr) (w_lim W)) (objs_blocks xs ++ J) (Ast K bo (w_size W) e) ∗ reps xs ∗ raws J ⊢
       wp p (λ a, ∃ xs' J' s', ⌜Q a xs' J' s'⌝ ∗ ainv S (Cfg (p_max pr) (w_lim W)) (objs_blocks xs' ++ J') s' ∗ reps xs' ∗ raws J')
            (λ x, ∃ xs' J' s', ⌜Qx x xs' J' s'⌝ ∗ ainv S (Cfg (p_max pr) (w_lim W)) (objs_blocks xs' ++ J') s' ∗ reps xs' ∗ raws J')) →
    match run_by W i (sa_lock ;; p)%prog with
    | WDone a W' => same_env W i pr W' ∧ ∃ xs' J' s', Q a xs' J' s' ∧ s_m s' = w_size W' ∧
        file_holds (pool_is xs' J' (s_K s') (s_bo s')) W'
    | WExn x W' => same_env W i pr W' ∧ ∃ xs' J' s', Qx x xs' J' s' ∧ s_m s' = w_size W' ∧
        file_holds (pool_is xs' J' (s_K s') (s_bo s')) W'
    | WBad | WNoProc => False
    end.
  Proof.
    intros HR [Hok Hcfg] Hi Hwp.
    set (RR := λ (Q : list obj → blocks → ast → Prop) (m : Z), (∃ xs' J' s', ⌜Q xs' J' s' ∧ s_m s' = m⌝ ∗ pool_is xs' J' (s_K s') (s_bo s') m)%I).
    assert (∀ Q W', file_holds (RR Q) W' → ∃ xs' J' s', Q xs' J' s' ∧ s_m s' = w_size W' ∧ file_holds (pool_is xs' J' (s_K s') (s_bo s')) W') as Hout.
    { intros Q0 W' H0. unfold RR in H0. apply file_holds_exist in H0 as [xs' H1]. apply file_holds_exist in H1 as [J' H2].
      apply file_holds_exist in H2 as [s' H3]. apply file_holds_pure_m in H3 as [[? ?] H4]. eauto 10. }
    pose proof (run_by_lock_wp (pool_is xs J K bo) (λ a, RR (Q a)) (λ a, RR (Qx a)) W i pr p HR Hok Hi) as H.
    feed specialize H.
    { intros e. iIntros "(Hp & H & R & RJ)".
      iApply (wpc_strong_mono with "[-]").
      { iApply (Hwp e). unfold ainv. simpl. iFrame. iPureIntro. apply Hcfg. }
      iSplit; [|iSplit; [|auto]]; iIntros (a) "(%xs' & %J' & %s' & %Hq & (_ & Hp & H) & R & RJ)"; iExists (s_m s'), (s_e s'); iFrame "Hp"; iExists xs', J', s'; by iFrame. }
    destruct (run_by _ _ _) as [a W'|x W'| |]; try done; destruct H as [H He]; (split; [done|by apply Hout]).
  Qed.

  Definition grown (c : cfg) (r : Z) (P : Prop) (K : blocks) (bo m : Z) (s' : ast) : Prop :=
    m <= s_m s' <= m + r ∧ s_bo s' = bo ∧ (s_K s' = K ∨ P) ∧ (s_m s' = m ∨ grow_allowed c (s_m s')).
  Lemma ext_grown c r P K bo m e s' : ext c r P (Ast K bo m e) s' → grown c r P K bo m s'.
  Proof. intros (?&?&?&?&?). split; [done|]. split; [done|]. by split. Qed.

  Lemma objs_split xs J K bo W o v : file_holds (pool_is xs J K bo) W → objs_map xs !! o = Some v →
    ∃ xs1 B xs2, xs = xs1 ++ (o, v, B) :: xs2 ∧ NoDup (map o_key xs).
  Proof.
    intros H Ho. apply file_nodup in H. apply objs_map_lookup in Ho as [B Hin]; [|done].
    apply elem_of_list_split in Hin as (xs1 & xs2 & ->). eauto.
  Qed.

  Lemma pool_focus c xs1 x xs2 J s :
    ainv S c (objs_blocks (xs1 ++ x :: xs2) ++ J) s -∗ reps (xs1 ++ x :: xs2) -∗
    ainv S c (x.2 ++ (objs_blocks (xs1 ++ xs2) ++ J)) s ∗ vrep x.1.1 x.1.2 x.2 ∗ reps (xs1 ++ xs2).
  Proof.
    rewrite reps_mid. iIntros "H [$ $]". iApply (ainv_perm with "H").
    rewrite app_assoc -objs_blocks_mid; done.
  Qed.
  Lemma pool_unfocus c xs1 x xs2 J s :
    ainv S c (x.2 ++ (objs_blocks (xs1 ++ xs2) ++ J)) s -∗ vrep x.1.1 x.1.2 x.2 -∗ reps (xs1 ++ xs2) -∗
    ainv S c (objs_blocks (xs1 ++ x :: xs2) ++ J) s ∗ reps (xs1 ++ x :: xs2).
  Proof.
    rewrite reps_mid. iIntros "H $ $". iApply (ainv_perm with "H").
    rewrite app_assoc -objs_blocks_mid; done.
  Qed.

  Lemma step_op xs1 o v B xs2 J K bo W i pr x :
    file_holds (pool_is (xs1 ++ (o, v, B) :: xs2) J K bo) W → wok W → w_procs W !! i = Some pr →
    ideal v x ≠ None → sensible lm v x → (needs_steady_pool v x = true → ¬ may_grow pr W (w_size W + 1)) →
    match run_by W i (sa_lock ;; op_prog al F o x)%prog with
    | WDone r W' => same_env W i pr W' ∧ ∃ v' B' s', ideal v x = Some (Return r v') ∧
        grown (Cfg (p_max pr) (w_lim W)) (space (requests v x)) (leaks lm (frees v x)) K bo (w_size W) s' ∧
        s_m s' = w_size W' ∧ file_holds (pool_is (xs1 ++ (o, v', B') :: xs2) J (s_K s') bo) W'
    | WExn e W' => same_env W i pr W' ∧ ∃ v' B' J' s',
        (ideal v x = Some (Raise e) ∨ out_of_space pr W (requests v x) e) ∧ (may_lose lm v x e = false → J' = []) ∧
        left_by v x e v' ∧
        grown (Cfg (p_max pr) (w_lim W)) (space (requests v x)) (may_lose lm v x e = true) K bo (w_size W) s' ∧
        s_m s' = w_size W' ∧ file_holds (pool_is (xs1 ++ (o, v', B') :: xs2) (J' ++ J) (s_K s') bo) W'
    | WBad | WNoProc => False
    end.
  Proof.
    intros HR Hok Hi Hid Hse Hst.
    pose proof (run_pool _ _ _ _ _ _ _ (op_prog al F o x)
      (λ r xs' J' s', ∃ v' B', xs' = xs1 ++ (o, v', B') :: xs2 ∧ J' = J ∧ ideal v x = Some (Return r v') ∧
        grown (Cfg (p_max pr) (w_lim W)) (space (requests v x)) (leaks lm (frees v x)) K bo (w_size W) s')
      (λ e xs' J' s', ∃ v' B' J0, xs' = xs1 ++ (o, v', B') :: xs2 ∧ J' = J0 ++ J ∧ (may_lose lm v x e = false → J0 = []) ∧
        (ideal v x = Some (Raise e) ∨ out_of_space pr W (requests v x) e) ∧ left_by v x e v' ∧
        grown (Cfg (p_max pr) (w_lim W)) (space (requests v x)) (may_lose lm v x e = true) K bo (w_size W) s') HR Hok Hi) as H.
    feed specialize H.
    { intros e. iIntros "(H & R & RJ)".
      iDestruct (pool_focus _ xs1 (o, v, B) xs2 J with "H R") as "(H & Hv & R)". simpl.
      iApply (wp_op with "H Hv"); [done|done|done|done|done|]. iSplit.
      - iIntros (r v' B' s' [Hr Hext]) "H Hv". iDestruct (pool_unfocus _ xs1 (o, v', B') xs2 J with "H Hv R") as "[H R]".
        iExists (xs1 ++ (o, v', B') :: xs2), J, s'. iFrame. iPureIntro. exists v', B'.
        split; [done|]. split; [done|]. split; [done|]. by eapply ext_grown.
      - iIntros (x0 v' B' J0 s' (Hr & Hleft & Hext & HJ0)) "H Hv HJ".
        iDestruct (pool_unfocus _ xs1 (o, v', B') xs2 (J0 ++ J) with "[H] Hv R") as "[H R]".
        { iApply (ainv_perm with "H"). cbn [snd]. rewrite (assoc_L app B') (Permutation_app_swap_app J0). by rewrite -(assoc_L app B'). }
        iExists (xs1 ++ (o, v', B') :: xs2), (J0 ++ J), s'. iFrame "H R". iSplit; [|rewrite raws_app; iFrame].
        iPureIntro. exists v', B', J0.
        split; [done|]. split; [done|]. split; [done|]. split; [|split; [done|by eapply ext_grown]].
        destruct Hr as [?|(?&?&?)]; [by left|right]. by split. }
    destruct (run_by _ _ _) as [r W'|e W'| |]; try done.
    - destruct H as [He (xs' & J' & s' & (v' & B' & -> & -> & Hr & Hg) & Hm & HR')]. split; [done|].
      exists v', B', s'. pose proof Hg as (_ & <- & _). done.
    - destruct H as [He (xs' & J' & s' & (v' & B' & J0 & -> & -> & HJ0 & Hr & Hleft & Hg) & Hm & HR')]. split; [done|].
      exists v', B', J0, s'. pose proof Hg as (_ & <- & _). done.
  Qed.

  (** Contents of raw blocks. *)
  Lemma pool_blob xs J K bo W o b : file_holds (pool_is xs J K bo) W → objs_map xs !! o = Some (VBlob b) →
    w_read W o (length b) = b.
  Proof.
    intros HR Ho. destruct (objs_split _ _ _ _ _ _ _ HR Ho) as (xs1 & B & xs2 & -> & _).
    eapply (file_holds_pts (λ _, True)%I). eapply file_holds_mono; [|exact HR].
    intros m. iIntros "(_ & R & _)". iDestruct (reps_mid with "R") as "[[_ $] _]".
  Qed.
  Lemma objs_map_cons x xs : objs_map (x :: xs) = <[x.1.1 := x.1.2]> (objs_map xs).
  Proof. unfold objs_map. destruct x as [[o v] B]. done. Qed.
  Lemma is_new_value k v o B xs J K bo W : is_new k v → file_holds (pool_is ((o, v, B) :: xs) J K bo) W →
    new_value k W o = v ∧ objs_map xs !! o = None.
  Proof.
    intros Hn HR. split.
    - destruct k as [| |n|bits|]; simpl in *; [done|done| |done|done]. destruct Hn as (b & -> & Hb).
      f_equal. replace (Z.to_nat n) with (length b) by (unfold dlen in Hb; lia).
      apply (pool_blob _ _ _ _ W o b HR). rewrite objs_map_cons. apply lookup_insert.
    - apply file_nodup in HR. by destruct (objs_map_mid [] o v B xs HR) as [? _].
  Qed.

  Lemma step_create xs J K bo W i pr k :
    file_holds (pool_is xs J K bo) W → wok W → w_procs W !! i = Some pr → sensible_kind lm k →
    match run_by W i (sa_lock ;; create_prog al k)%prog with
    | WDone o W' => same_env W i pr W' ∧ ∃ B s', objs_map xs !! o = None ∧
        grown (Cfg (p_max pr) (w_lim W)) (space (create_requests k)) False K bo (w_size W) s' ∧
        s_m s' = w_size W' ∧ file_holds (pool_is ((o, new_value k W' o, B) :: xs) J (s_K s') bo) W'
    | WExn e W' => same_env W i pr W' ∧ ∃ J' s',
        out_of_space pr W (create_requests k) e ∧ (creation_may_lose k = false → J' = []) ∧
        grown (Cfg (p_max pr) (w_lim W)) (space (create_requests k)) False K bo (w_size W) s' ∧
        s_m s' = w_size W' ∧ file_holds (pool_is xs (J' ++ J) (s_K s') bo) W'
    | WBad | WNoProc => False
    end.
  Proof.
    intros HR Hok Hi Hk.
    pose proof (run_pool _ _ _ _ _ _ _ (create_prog al k)
      (λ o xs' J' s', ∃ v B, is_new k v ∧ xs' = (o, v, B) :: xs ∧ J' = J ∧
        grown (Cfg (p_max pr) (w_lim W)) (space (create_requests k)) False K bo (w_size W) s')
      (λ e xs' J' s', ∃ J0, xs' = xs ∧ J' = J0 ++ J ∧ (creation_may_lose k = false → J0 = []) ∧ out_of_space pr W (create_requests k) e ∧
        grown (Cfg (p_max pr) (w_lim W)) (space (create_requests k)) False K bo (w_size W) s') HR Hok Hi) as H.
    feed specialize H.
    { intros e. iIntros "(H & R & RJ)". iApply (wp_create S lm HL _ F HF with "H"); [done|]. iSplit.
      - iIntros (o v B' s' (Hext & Ho & Hn)) "H Hv". iExists ((o, v, B') :: xs), J, s'. iFrame "R RJ Hv".
        iSplit; [|by rewrite app_assoc]. iPureIntro. exists v, B'. split; [done|]. split; [done|].
        split; [done|by eapply ext_grown].
      - iIntros (s' J0 (Hg & Hext & HJ0)) "H HJ". iExists xs, (J0 ++ J), s'. iFrame "R".
        iSplit; [|iSplitL "H"; [iApply (ainv_perm with "H"); by rewrite Permutation_app_swap_app|rewrite raws_app; iFrame]].
        iPureIntro. exists J0. split; [done|]. split; [done|]. split; [done|].
        split; [|by eapply ext_grown]. split; [done|]. split; [by destruct k|done]. }
    destruct (run_by _ _ _) as [r W'|e W'| |]; try done.
    - destruct H as [He (xs' & J' & s' & (v' & B' & Hn & -> & -> & Hg) & Hm & HR')]. split; [done|].
      exists B', s'. pose proof Hg as (_ & Hbo & _). rewrite Hbo in HR'. destruct (is_new_value _ _ _ _ _ _ _ _ _ Hn HR') as [-> ?].
      done.
    - destruct H as [He (xs' & J' & s' & (J0 & -> & -> & HJ0 & Hr & Hg) & Hm & HR')]. split; [done|].
      exists J0, s'. pose proof Hg as (_ & <- & _). done.
  Qed.

  Lemma step_open_base xs J K bo W i pr k p :
    file_holds (pool_is xs J K bo) W → wok W → w_procs W !! i = Some pr → sensible_kind lm k →
    is_u64 bo → open_base_prog al k = Some p →
    match run_by W i (sa_lock ;; p)%prog with
    | WDone o W' => same_env W i pr W' ∧
       if bool_decide (bo = 0) then ∃ B s', objs_map xs !! o = None ∧ is_u64 o ∧
          grown (Cfg (p_max pr) (w_lim W)) (space (create_requests k)) False K o (w_size W) s' ∧
          s_m s' = w_size W' ∧ file_holds (pool_is ((o, new_value k W' o, B) :: xs) J (s_K s') o) W'
       else o = bo ∧ w_size W' = w_size W ∧ file_holds (pool_is xs J K bo) W'
    | WExn e W' => same_env W i pr W' ∧ bo = 0 ∧ ∃ J' s',
        out_of_space pr W (create_requests k) e ∧ (creation_may_lose k = false → J' = []) ∧
        grown (Cfg (p_max pr) (w_lim W)) (space (create_requests k)) False K bo (w_size W) s' ∧
        s_m s' = w_size W' ∧ file_holds (pool_is xs (J' ++ J) (s_K s') bo) W'
    | WBad | WNoProc => False
    end.
  Proof.
    intros HR Hok Hi Hk Hbo Hp.
    pose proof (run_pool _ _ _ _ _ _ _ p
      (λ o xs' J' s', J' = J ∧ if bool_decide (bo = 0) then ∃ v B, is_new k v ∧ xs' = (o, v, B) :: xs ∧ is_u64 o ∧
        grown (Cfg (p_max pr) (w_lim W)) (space (create_requests k)) False K o (w_size W) s'
        else o = bo ∧ xs' = xs ∧ s_K s' = K ∧ s_bo s' = bo ∧ s_m s' = w_size W)
      (λ e xs' J' s', bo = 0 ∧ ∃ J0, xs' = xs ∧ J' = J0 ++ J ∧ (creation_may_lose k = false → J0 = []) ∧ out_of_space pr W (create_requests k) e ∧
        grown (Cfg (p_max pr) (w_lim W)) (space (create_requests k)) False K bo (w_size W) s') HR Hok Hi) as H.
    feed specialize H.
    { intros e. iIntros "(H & R & RJ)". iApply (wp_open_base S lm HL _ F HF with "H"); [done|done|done|]. simpl. iSplit; [|iSplit].
      - iIntros (Hb) "H". iExists xs, J, _. iFrame. iPureIntro. rewrite bool_decide_eq_false_2 //.
      - iIntros (o v B' s' (Hb & Hb' & Hext & Ho & Hn)) "H Hv". iExists ((o, v, B') :: xs), J, s'. iFrame "R RJ Hv".
        iSplit; [|by rewrite app_assoc]. iPureIntro. split; [done|]. rewrite bool_decide_eq_true_2 //.
        exists v, B'. split; [done|]. split; [done|]. split; [unfold is_u64; lia|].
        destruct Hext as (?&?&?&?&?). simpl in *. split; [done|]. split; [done|]. by split.
      - iIntros (s' J0 (Hb & Hg & Hext & HJ0)) "H HJ". iExists xs, (J0 ++ J), s'. iFrame "R".
        iSplit; [|iSplitL "H"; [iApply (ainv_perm with "H"); by rewrite Permutation_app_swap_app|rewrite raws_app; iFrame]].
        iPureIntro. split; [done|]. exists J0. split; [done|]. split; [done|]. split; [done|].
        split; [|by eapply ext_grown]. split; [done|]. split; [by destruct k|done]. }
    destruct (run_by _ _ _) as [r W'|e W'| |]; try done.
    - destruct H as [He (xs' & J' & s' & (-> & H) & Hm & HR')]. split; [done|]. case_bool_decide.
      + destruct H as (v' & B' & Hn & -> & Hu & Hg).
        exists B', s'. pose proof Hg as (_ & Hbo' & _). rewrite Hbo' in HR'.
        destruct (is_new_value _ _ _ _ _ _ _ _ _ Hn HR') as [-> ?]. done.
      + destruct H as (-> & -> & <- & <- & Hm'). split; [done|]. split; [congruence|done].
    - destruct H as [He (xs' & J' & s' & (Hb & J0 & -> & -> & HJ0 & Hr & Hg) & Hm & HR')]. split; [done|]. split; [done|].
      exists J0, s'. pose proof Hg as (_ & <- & _). done.
  Qed.

  Lemma step_set_base xs J K bo W i pr v :
    file_holds (pool_is xs J K bo) W → wok W → w_procs W !! i = Some pr → is_u64 v →
    match run_by W i (sa_lock ;; al_set_base al v)%prog with
    | WDone _ W' => same_env W i pr W' ∧ w_size W' = w_size W ∧ file_holds (pool_is xs J K v) W'
    | WExn _ _ | WBad | WNoProc => False
    end.
  Proof.
    intros HR Hok Hi Hv.
    pose proof (run_pool _ _ _ _ _ _ _ (al_set_base al v)
      (λ o xs' J' s', J' = J ∧ xs' = xs ∧ s_K s' = K ∧ s_bo s' = v ∧ s_m s' = w_size W)
      (λ e xs' J' s', False) HR Hok Hi) as H.
    feed specialize H.
    { intros e. iIntros "(H & R & RJ)". iApply bind_ret_r. iApply (wp_set_base with "H"); [done|apply base_free|]. iIntros "H".
      iApply wp_ret. simpl. iExists xs, J, _. iFrame. done. }
    destruct (run_by _ _ _) as [r W'|e W'| |]; try done.
    - destruct H as [He (xs' & J' & s' & (-> & -> & HK & Hb & Hm') & Hm & HR')]. rewrite HK Hb in HR'.
      split; [done|]. split; [congruence|done].
    - destruct H as [_ (?&?&?&[]&_)].
  Qed.

  Lemma step_free xs1 o b B xs2 J K bo W i pr :
    file_holds (pool_is (xs1 ++ (o, VBlob b, B) :: xs2) J K bo) W → wok W → w_procs W !! i = Some pr →
    match run_by W i (sa_lock ;; al_free al o)%prog with
    | WDone r W' => same_env W i pr W' ∧ w_size W' = w_size W ∧
        ∃ K', (K' = K ∨ leaks lm [dlen b]) ∧ file_holds (pool_is (xs1 ++ xs2) J K' bo) W'
    | WExn _ _ | WBad | WNoProc => False
    end.
  Proof.
    intros HR Hok Hi.
    pose proof (run_pool _ _ _ _ _ _ _ (al_free al o)
      (λ r xs' J' s', xs' = xs1 ++ xs2 ∧ J' = J ∧ s_bo s' = bo ∧ s_m s' = w_size W ∧
         (s_K s' = K ∨ leaks lm [dlen b]))
      (λ e xs' J' s', False) HR Hok Hi) as H.
    feed specialize H.
    { intros e. iIntros "(H & R & RJ)".
      iDestruct (pool_focus _ xs1 (o, VBlob b, B) xs2 J with "H R") as "(H & Hv & R)". cbn [fst snd].
      iApply (wp_free_blob S lm HL _ F HF with "H Hv").
      iIntros (s' Hext) "H". iExists _, J, s'. iFrame. iPureIntro. split; [done|]. split; [done|].
      destruct Hext as (?&?&?&?&?). simpl in *. split; [done|]. split; [lia|done]. }
    destruct (run_by _ _ _) as [r W'|e W'| |]; try done.
    - destruct H as [He (xs' & J' & s' & (-> & -> & Hb & Hm' & HK) & Hm & HR')]. rewrite Hb in HR'.
      split; [done|]. split; [congruence|]. eauto.
    - destruct H as [_ (?&?&?&[]&_)].
  Qed.

  Lemma open_with_ok (R : Z → hPropI) W i mx :
    file_holds R W → (∀ m, R m ⊢ ∃ i, ⌜i ≠ 0⌝ ∗ word 8 i ∗ True) → world_ok W → 0 <= mx →
    ∃ pr, open_with al W i mx =
          WDone tt (World (w_mem W) (w_fsize W) (w_lim W) (<[i := pr]> (w_procs W))) ∧ proc_ok pr.
  Proof.
    intros HR Hinit Hok Hmx. pose proof (file_holds_facts _ _ HR) as ([Hs _] & Hf & _).
    set (pr := Proc (w_fsize W) mx (0 + 1)). exists pr.
    assert (proc_ok pr) as Hpr by (split; simpl; lia). split; [|done].
    set (W' := World (w_mem W) (w_fsize W) (w_lim W) (<[i := pr]> (w_procs W))).
    unfold open_with, open_by, pool_open, get_fsize. rewrite run_bind. cbn [run exec fsize].
    rewrite (bool_decide_eq_false_2 (w_fsize W = 0)); [|lia]. unfold remap. cbn [run exec].
    change (leave _ _ _) with W'.
    assert (w_procs W' !! i = Some pr) as Hi by apply lookup_insert.
    destruct (as_construct _ S) as [rest Hrest].
    unfold run_by. rewrite Hi Hrest run_bind.
    assert (world_ok W') as Hok'.
    { intros j q. simpl. destruct (decide (j = i)) as [->|Hne].
      - rewrite lookup_insert. by intros [= <-].
      - rewrite lookup_insert_ne //. apply Hok. }
    assert (file_holds (λ m, ∃ i, ⌜i ≠ 0⌝ ∗ word 8 i ∗ True)%I W') as HH.
    { apply (file_holds_same _ W); [done|done|done|].
      eapply file_holds_mono; [|exact HR]. intros m.
      apply Hinit. }
    apply file_holds_exist in HH as [ii HH]. apply file_holds_pure in HH as [Hne HH].
    erewrite (run_by_load64 _ _ _ _ _ _ HH Hok' Hi); [|lia].
    rewrite (bool_decide_eq_true_2 (ii ≠ 0)); [|done]. simpl run.
    f_equal. unfold leave, W'. simpl. f_equal. by rewrite insert_insert.
  Qed.

  Lemma step_open_with xs J K bo W i mx :
    file_holds (pool_is xs J K bo) W → wok W → 0 <= mx →
    ∃ pr, open_with al W i mx =
          WDone tt (World (w_mem W) (w_fsize W) (w_lim W) (<[i := pr]> (w_procs W))) ∧ proc_ok pr.
  Proof.
    intros HR [Hok _] Hmx. apply (open_with_ok _ _ _ _ HR); [|done|done].
    intros m. iIntros "(H & _)". by iApply (as_initialized with "H").
  Qed.

  (** ** The checks that hold in every state *)
  Lemma GInv_blobs st : GInv st → blobs_intact st.
  Proof.
    intros (Hok & Hbo & xs & J & K & Ho & Ht & HR) o b Hb. rewrite Ho in Hb. by eapply pool_blob.
  Qed.
  Lemma GInv_base st : GInv st → base_kept al st.
  Proof.
    intros (Hok & Hbo & xs & J & K & Ho & Ht & HR) i [pr Hi].
    pose proof (run_pool _ _ _ _ _ _ _ (al_get_base al) (λ o xs' J' s', o = g_base st) (λ e xs' J' s', False) HR Hok Hi) as H.
    feed specialize H.
    { intros e. iIntros "(H & R & RJ)". iApply bind_ret_r. iApply (wp_get_base with "H"). iIntros "H".
      iApply wp_ret. simpl. iExists xs, J, _. iFrame. done. }
    destruct (run_by _ _ _) as [r W'|e W'| |]; try done.
    - by destruct H as [He (xs' & J' & s' & -> & _)].
    - destruct H as [_ (?&?&?&[]&_)].
  Qed.
  Lemma GInv_no_leak st : GInv st → no_leak al st.
  Proof.
    intros (Hok & Hbo & xs & J & K & Ho & Ht & HR) Htidy n Hn i [pr Hi].
    destruct (Ht Htidy) as [-> ->]. rewrite Ho in Hn. pose proof (file_nodup _ _ _ _ _ HR) as Hnd.
    pose proof (run_pool _ _ _ _ _ _ _ (al_bytes_allocated al) (λ v xs' J' s', v = n) (λ e xs' J' s', False) HR Hok Hi) as H.
    feed specialize H.
    { intros e. iIntros "((%Hc & Hp & H) & R & RJ)". iDestruct (reps_footprint xs Hnd n Hn with "R") as %Hs.
      iApply (as_bytes_allocated with "[$Hp $H]"). iIntros "[Hp H]". simpl.
      iExists xs, [], (Ast [] (g_base st) (w_size (g_w st)) e). iFrame. iPureIntro.
      rewrite app_nil_r Hs. split; [unfold sum_sz; simpl; lia|done]. }
    destruct (run_by _ _ _) as [r W'|e W'| |]; try done.
    - by destruct H as [He (xs' & J' & s' & -> & _)].
    - destruct H as [_ (?&?&?&[]&_)].
  Qed.

  (** ** Every history *)
  Definition gct (st : gstate) (ob : gobs) (st' : gstate) : Prop :=
    ideal_results st ob st' ∧ grows_within st ob st' ∧
    match ob with
    | GOReturned _ o v x _ => (g_objs st !! o = Some v ∧ sensible lm v x) ∧ g_objs st' = <[o := after_op v x]> (g_objs st)
    | GORaised _ o v x e => (g_objs st !! o = Some v ∧ sensible lm v x) ∧
        match v with
        | VTree _ _ => ∃ v', left_by v x e v' ∧ g_objs st' = <[o := v']> (g_objs st)
        | _ => g_objs st' = g_objs st
        end
    | GOCreated _ (KHash bits) o => g_objs st' = <[o := VHash (h_new bits)]> (g_objs st) ∧ 2 <= bits
    | GOCreated _ KTree o => g_objs st' = <[o := VTree t_new true]> (g_objs st)
    | _ => True
    end.

  Lemma sgame_inv evs st : GInv st → sgame al lm F GInv gct evs st.
  Proof.
    revert st. induction evs as [|ev evs IH]; intros [W objs bo tidy] HI; (split; [done|]); [done|].
    pose proof HI as (Hok & Hbo & xs & J & K & Ho & Ht & HR). cbn [g_w g_objs g_base g_tidy] in *. subst objs.
    destruct ev as [i k|i k|i v|i o x|i o|i mx|i].
    - intros Hk. destruct (w_procs W !! i) as [pr|] eqn:Hi; [|done].
      pose proof (step_create _ _ _ _ _ _ _ _ HR Hok Hi Hk) as H.
      destruct (run_by _ _ _) as [o W'|e W'| |]; try done.
      + destruct H as ((Hl & Hok' & _) & B & s' & Hno & Hg & Hm & HR'). split; [done|].
        destruct Hg as (Hg1 & Hg2 & [Hg3|[]] & Hg4). rewrite Hm in Hg1, Hg4.
        split; [split; [done|split; [by split|]]; destruct k; try done; destruct Hk as [_ Hk]; by split; [|apply Hk]|].
        apply IH. split; [by apply (wok_env _ _ Hok Hl Hok')|]. split; [done|]. exists ((o, new_value k W' o, B) :: xs), J, (s_K s').
        rewrite objs_map_cons. split; [done|]. split; [by rewrite Hg3|done].
      + destruct H as ((Hl & Hok' & _) & J0 & s' & Hos & HJ0 & Hg & Hm & HR').
        destruct Hg as (Hg1 & Hg2 & [Hg3|[]] & Hg4). rewrite Hm in Hg1, Hg4. split; [by split|].
        apply IH. split; [by apply (wok_env _ _ Hok Hl Hok')|]. split; [done|]. exists xs, (J0 ++ J), (s_K s').
        split; [done|]. split; [|done]. intros [Ht1 Ht2%negb_true_iff]%andb_true_iff.
        destruct (Ht Ht1) as [-> ->]. by rewrite (HJ0 Ht2) Hg3.
    - intros Hk. destruct (w_procs W !! i) as [pr|] eqn:Hi; [|done].
      destruct (open_base_prog al k) as [p|] eqn:Hp; [|done].
      pose proof (step_open_base _ _ _ _ _ _ _ _ _ HR Hok Hi Hk Hbo Hp) as H.
      destruct (run_by _ _ _) as [o W'|e W'| |]; try done.
      + destruct H as ((Hl & Hok' & _) & H). case_bool_decide as Hb.
        * destruct H as (B & s' & Hno & Hu & Hg & Hm & HR'). split; [done|].
          destruct Hg as (Hg1 & Hg2 & [Hg3|[]] & Hg4). rewrite Hm in Hg1, Hg4.
          split; [split; [done|split; [by split|]]; destruct k; try done; destruct Hk as [_ Hk]; by split; [|apply Hk]|].
          apply IH. split; [by apply (wok_env _ _ Hok Hl Hok')|]. split; [done|]. exists ((o, new_value k W' o, B) :: xs), J, (s_K s').
          rewrite objs_map_cons. split; [done|]. split; [by rewrite Hg3|done].
        * destruct H as (-> & Hm & HR'). split; [by split|].
          apply IH. split; [by apply (wok_env _ _ Hok Hl Hok')|]. split; [done|]. by exists xs, J, K.
      + destruct H as ((Hl & Hok' & _) & _ & J0 & s' & Hos & HJ0 & Hg & Hm & HR').
        destruct Hg as (Hg1 & Hg2 & [Hg3|[]] & Hg4). rewrite Hm in Hg1, Hg4. split; [by split|].
        apply IH. split; [by apply (wok_env _ _ Hok Hl Hok')|]. split; [done|]. exists xs, (J0 ++ J), (s_K s').
        split; [done|]. split; [|done]. intros [Ht1 Ht2%negb_true_iff]%andb_true_iff.
        destruct (Ht Ht1) as [-> ->]. by rewrite (HJ0 Ht2) Hg3.
    - intros Hv. destruct (w_procs W !! i) as [pr|] eqn:Hi; [|done].
      pose proof (step_set_base _ _ _ _ _ _ _ _ HR Hok Hi Hv) as H.
      destruct (run_by _ _ _) as [o W'|e W'| |]; try done.
      destruct H as ((Hl & Hok' & _) & Hm & HR'). split; [by split|].
      apply IH. split; [by apply (wok_env _ _ Hok Hl Hok')|]. split; [done|]. by exists xs, J, K.
    - destruct (objs_map xs !! o) as [v|] eqn:Hov; [|done]. destruct (w_procs W !! i) as [pr|] eqn:Hi; [|done].
      intros Hid Hse Hst. destruct (objs_split _ _ _ _ _ _ _ HR Hov) as (xs1 & B & xs2 & -> & Hnd).
      destruct (objs_map_mid _ _ _ _ _ Hnd) as [Hno Hins].
      pose proof (step_op _ _ _ _ _ _ _ _ _ _ _ _ HR Hok Hi Hid Hse Hst) as H.
      destruct (run_by _ _ _) as [r W'|e W'| |]; try done.
      + destruct H as ((Hl & Hok' & _) & v' & B' & s' & Hr & Hg & Hm & HR').
        assert (after_op v x = v') as Haft by (unfold after_op; by rewrite Hr).
        destruct Hg as (Hg1 & Hg2 & Hg3 & Hg4). rewrite Hm in Hg1, Hg4.
        split. { split; [by exists v'|]. split; [by split|]. done. }
        apply IH. split; [by apply (wok_env _ _ Hok Hl Hok')|]. split; [done|]. exists (xs1 ++ (o, v', B') :: xs2), J, (s_K s'). cbn [g_objs g_tidy g_base].
        rewrite Haft (Hins v B) (Hins v' B') insert_insert. split; [done|]. split; [|done].
        intros [Ht1 Ht2]%andb_true_iff. destruct (Ht Ht1) as [-> ->].
        destruct Hg3 as [->|Hlk]; [done|]. unfold leaks in Hlk. congruence.
      + destruct H as ((Hl & Hok' & _) & v' & B' & J0 & s' & Hr & HJ0 & Hleft & Hg & Hm & HR').
        destruct Hg as (Hg1 & Hg2 & Hg3 & Hg4). rewrite Hm in Hg1, Hg4. exists v'. split; [done|].
        split. { split; [done|]. split; [by split|]. split; [done|]. cbn [g_objs].
          destruct v as [| | | |t ok]; [cbn [left_by] in Hleft; subst v'; by rewrite insert_id..|]. by exists v'. }
        apply IH. split; [by apply (wok_env _ _ Hok Hl Hok')|]. split; [done|]. exists (xs1 ++ (o, v', B') :: xs2), (J0 ++ J), (s_K s'). cbn [g_objs g_tidy g_base].
        rewrite (Hins v B) (Hins v' B') insert_insert. split; [done|]. split; [|done].
        intros [Ht1 Ht2%negb_true_iff]%andb_true_iff. destruct (Ht Ht1) as [-> ->]. rewrite (HJ0 Ht2). destruct Hg3 as [->|Hg3]; [done|congruence].
    - destruct (objs_map xs !! o) as [v|] eqn:Hov; [|done]. destruct v as [l|l|b|t|t ok]; [done|done| |done|done].
      destruct (w_procs W !! i) as [pr|] eqn:Hi; [|done].
      destruct (objs_split _ _ _ _ _ _ _ HR Hov) as (xs1 & B & xs2 & -> & Hnd).
      destruct (objs_map_mid _ _ _ _ _ Hnd) as [Hno Hins].
      pose proof (step_free _ _ _ _ _ _ _ _ _ _ _ HR Hok Hi) as H.
      destruct (run_by _ _ _) as [r W'|e W'| |]; try done.
      destruct H as ((Hl & Hok' & _) & Hm & K' & HK & HR'). split; [by split|].
      apply IH. split; [by apply (wok_env _ _ Hok Hl Hok')|]. split; [done|]. exists (xs1 ++ xs2), J, K'. cbn [g_objs g_tidy g_base].
      rewrite (Hins _ B) delete_insert //. split; [done|]. split; [|done].
      intros [Ht1 Ht2]%andb_true_iff. destruct (Ht Ht1) as [-> ->].
      destruct HK as [->|Hlk]; [done|]. unfold leaks in Hlk. congruence.
    - intros Hmx Hi. destruct (step_open_with _ _ _ _ _ i mx HR Hok Hmx) as (pr & -> & Hpr). split; [by split|].
      apply IH. split; [|split; [done|]].
      + destruct Hok as [Hok Hcfg]. split; [|exact Hcfg]. intros j q. simpl. destruct (decide (j = i)) as [->|Hne].
        * rewrite lookup_insert. by intros [= <-].
        * rewrite lookup_insert_ne //. apply Hok.
      + exists xs, J, K. split; [done|]. split; [done|]. by apply (file_holds_same _ W).
    - split; [by split|]. apply IH. split; [|split; [done|]].
      + destruct Hok as [Hok Hcfg]. split; [|exact Hcfg]. intros j q. simpl. rewrite lookup_delete_Some. intros [_ Hj]. by eapply Hok.
      + exists xs, J, K. split; [done|]. split; [done|]. by apply (file_holds_same _ W).
  Qed.
End game.

Lemma sgame_mono al lm F (cs cs' : gstate → Prop) (ct ct' : gstate → gobs → gstate → Prop) :
  (∀ st, cs st → cs' st) → (∀ st ob st', cs st → ct st ob st' → cs st' → ct' st ob st') →
  ∀ evs st, sgame al lm F cs ct evs st → sgame al lm F cs' ct' evs st.
Proof.
  intros Hcs Hct evs. induction evs as [|ev evs IH]; intros [W objs bo tidy] [H1 H2]; (split; [by apply Hcs|]); [done|].
  assert (∀ ob st', ct (GS W objs bo tidy) ob st' ∧ sgame al lm F cs ct evs st' →
     ct' (GS W objs bo tidy) ob st' ∧ sgame al lm F cs' ct' evs st') as Hn.
  { intros ob st' [? Hg]. split; [|by apply IH]. apply Hct; [done|done|]. clear -Hg. destruct evs, st'; by destruct Hg. }
  destruct ev as [i k|i k|i v|i o x|i o|i mx|i]; cbn [sgame] in *.
  - intros Hk. specialize (H2 Hk). repeat case_match; try done; [|by apply Hn]. destruct H2 as [? H2]. split; [done|by apply Hn].
  - intros Hk. specialize (H2 Hk). repeat case_match; try done; first [by apply Hn|destruct H2 as [? H2]; split; [done|by apply Hn]].
  - intros Hk. specialize (H2 Hk). repeat case_match; try done; by apply Hn.
  - destruct (objs !! o) as [v|]; [|done]. destruct (w_procs W !! i) as [pr|]; [|done].
    intros Ha Hb Hc. specialize (H2 Ha Hb Hc). destruct (run_by _ _ _); [by apply Hn| |done|done].
    destruct H2 as (v' & Hl & H2). exists v'. split; [done|]. by apply Hn.
  - repeat case_match; try done; by apply Hn.
  - intros Ha Hb. specialize (H2 Ha Hb). repeat case_match; try done; by apply Hn.
  - by apply Hn.
Qed.
End hash_function.
Notation obj := (Z * value * blocks)%type.
