(** * Iterations while others work: proof. *)
From Verif Require Export IterSpec StructMain.
From iris.proofmode Require Import tactics.
From iris.prelude Require Import options.
Open Scope Z_scope.
Set Default Proof Using "All".

(** ** What has been read, abstractly *)
Section pure.
  Context {hash : HashFn} (n : nat).
  (** The slots that have been read, each at its own time. *)
  Definition was_read (seen : list value) (rs : htable) : Prop :=
    (length rs <= n)%nat ∧
    ∀ j s, rs !! j = Some s → ∃ t, VHash t ∈ seen ∧ h_wf hash t ∧ length t = n ∧ t !! j = Some s.
  Lemma was_read_more seen v rs : was_read seen rs → was_read (seen ++ [v]) rs.
  Proof.
    intros [H1 H]. split; [done|]. intros j s Hj. destruct (H j s Hj) as (t & Ht & ?). exists t. split; [|done].
    apply elem_of_app. by left.
  Qed.
  Lemma was_read_snoc seen rs t s : was_read seen rs → h_wf hash t → length t = n → t !! length rs = Some s →
    was_read (seen ++ [VHash t]) (rs ++ [s]).
  Proof.
    intros H Hw Hn Hs. destruct (was_read_more _ (VHash t) _ H) as [H1 H2]. split.
    - rewrite app_length /=. apply lookup_lt_Some in Hs. lia.
    - intros j x Hj. destruct (decide (j < length rs)%nat).
      + rewrite lookup_app_l in Hj; [|done]. by apply H2.
      + rewrite lookup_app_r in Hj; [|lia]. apply list_lookup_singleton_Some in Hj as [Hj ->].
        assert (j = length rs) as -> by lia. exists t. split; [|done]. apply elem_of_app. right. by apply elem_of_list_singleton.
  Qed.
  Definition padded (rs : htable) : htable := rs ++ repeat (false, []) (n - length rs).
  Lemma padded_len rs : (length rs <= n)%nat → length (padded rs) = n.
  Proof. intros H. unfold padded. rewrite app_length repeat_length. lia. Qed.
  Lemma padded_items rs : h_items (padded rs) = h_items rs.
  Proof. unfold padded, h_items. rewrite map_app concat_app. rewrite -/(h_items (repeat _ _)) h_repeat_items. by rewrite app_nil_r. Qed.
  Lemma was_read_wf seen rs : (0 < n)%nat → was_read seen rs → h_wf hash (padded rs).
  Proof.
    intros Hn [H1 H2]. split.
    - intros E. pose proof (padded_len rs H1) as H. rewrite E in H. simpl in H. lia.
    - intros j s Hj. destruct (decide (j < length rs)%nat).
      + unfold padded in Hj. rewrite lookup_app_l in Hj; [|done].
        destruct (H2 _ _ Hj) as (t & _ & [_ Hw] & Hl & Hjt). destruct (Hw _ _ Hjt) as (Ha & Hb & Hc).
        split; [done|]. split; [done|]. intros k Hk. rewrite -(Hc k Hk). apply h_index_len. rewrite Hl. by apply padded_len.
      + unfold padded in Hj. rewrite lookup_app_r in Hj; [|lia]. apply elem_of_list_lookup_2 in Hj.
        apply elem_of_list_In, repeat_spec in Hj. subst s. simpl. split; [lia|]. split; [by apply NoDup_nil|].
        intros k Hk. by apply elem_of_nil in Hk.
  Qed.
  Lemma h_map_in t k w : h_wf hash t → h_map t !! k = Some w ↔ (k, w) ∈ h_items t.
  Proof. intros Hw. unfold h_map. symmetry. apply elem_of_list_to_map. by apply (h_wf_nodup hash). Qed.
  Lemma was_read_nodup seen rs : (0 < n)%nat → was_read seen rs → NoDup (map fst (h_items rs)).
  Proof. intros Hn H. rewrite -padded_items. by apply (h_wf_nodup hash), (was_read_wf seen). Qed.
  Lemma was_read_sound seen rs k w : was_read seen rs → (k, w) ∈ h_items rs →
    ∃ t, VHash t ∈ seen ∧ h_map t !! k = Some w.
  Proof.
    intros [_ H] Hin. apply h_items_in in Hin as (i & s & Hi & Hs). destruct (H _ _ Hi) as (t & Ht & Hw & _ & Hit).
    exists t. split; [done|]. apply h_map_in; [done|]. apply h_items_in. by exists i, s.
  Qed.
  Lemma was_read_complete seen rs k : was_read seen rs → length rs = n → (0 < n)%nat →
    (∀ v, v ∈ seen → ∃ t, v = VHash t ∧ is_Some (h_map t !! k)) → k ∈ map fst (h_items rs).
  Proof.
    intros [_ H] Hl Hn Hk. assert (rs ≠ []) as Hne by (intros ->; simpl in Hl; lia).
    pose proof (h_slot_of_lookup hash rs k Hne) as Hs. set (i := h_index hash rs k) in *.
    destruct (H _ _ Hs) as (t & Ht & Hw & Htl & Hit). destruct (Hk _ Ht) as (t' & [= <-] & w & Hkw).
    apply h_map_in in Hkw; [|done]. apply h_items_in in Hkw as (j & s & Hj & Hin).
    destruct (proj2 Hw _ _ Hj) as (_ & _ & Hc).
    assert (j = i) as ->.
    { rewrite -(Hc k). - unfold i. apply h_index_len. by rewrite Hl. - apply elem_of_list_fmap. by exists (k, w). }
    rewrite Hit in Hj. injection Hj as <-. apply elem_of_list_fmap. exists (k, w). split; [done|].
    apply h_items_in. eauto.
  Qed.
  Lemma h_items_snoc rs s : h_items (rs ++ [s]) = h_items rs ++ s.2.
  Proof. unfold h_items. rewrite map_app concat_app. simpl. by rewrite app_nil_r. Qed.

  (** An iterator, and the pairs before it. *)
  Definition iter_in (seen : list value) (it : h_iter) (l : list (bytes * bytes)) : Prop :=
    (∃ rs b, was_read seen (rs ++ [(b, hi_items it)]) ∧ hi_slot it = Z.of_nat (length rs) ∧
       l = h_items rs ++ take (hi_index it) (hi_items it)).
  Definition iter_at (seen : list value) (it : h_iter) (l : list (bytes * bytes)) : Prop :=
    (∃ rs, was_read seen rs ∧ length rs = n ∧ l = h_items rs ∧
       hi_slot it = Z.of_nat n ∧ hi_index it = 0%nat ∧ hi_items it = []) ∨
    (iter_in seen it l ∧ (hi_index it < length (hi_items it))%nat).
  Lemma iter_in_more seen v it l : iter_in seen it l → iter_in (seen ++ [v]) it l.
  Proof. intros (rs & b & H & ?). exists rs, b. split; [by apply was_read_more|done]. Qed.
  Lemma iter_at_more seen v it l : iter_at seen it l → iter_at (seen ++ [v]) it l.
  Proof.
    intros [(rs & H & ?)|[H ?]]; [left; exists rs; split; [by apply was_read_more|done]|].
    right. split; [by apply iter_in_more|done].
  Qed.
  Lemma iter_at_done seen it l : (0 < n)%nat → iter_at seen it l →
    bool_decide (hi_slot it = Z.of_nat n ∧ (length (hi_items it) <= hi_index it)%nat) = true →
    visits_what_is_there (true, l) seen.
  Proof.
    intros Hn [(rs & H & Hl & -> & _)|[H Hi]] Hb; apply bool_decide_eq_true in Hb as [Hb1 Hb2]; [|lia].
    split; [by eapply was_read_nodup|]. split; [intros k w Hin; by eapply was_read_sound|].
    intros _ k Hk. by eapply was_read_complete.
  Qed.
  Lemma iter_at_prefix seen it l : (0 < n)%nat → iter_at seen it l → visits_what_is_there (false, l) seen.
  Proof.
    intros Hn H. assert (∃ rs l', was_read seen rs ∧ h_items rs = l ++ l') as (rs & l' & Hr & E).
    { destruct H as [(rs & H & Hl & -> & _)|[(rs & b & H & _ & ->) _]]; [exists rs, []; by rewrite app_nil_r|].
      exists (rs ++ [(b, hi_items it)]), (drop (hi_index it) (hi_items it)). split; [done|].
      rewrite h_items_snoc -app_assoc take_drop. done. }
    split; [|split; [|done]].
    - pose proof (was_read_nodup _ _ Hn Hr) as Hnd. rewrite E map_app in Hnd. by apply NoDup_app in Hnd as (? & _).
    - intros k w Hin. eapply was_read_sound; [done|]. rewrite E. apply elem_of_app. by left.
  Qed.
End pure.

Section main.
  Context {hash : HashFn}.
  Context {al : allocator} (S : alloc_spec al) `{!BaseFree S, !Visible S} (lm : alloc_limits) (HL : limits_ok S lm).
  Context (F : nat) (HF : 2 ^ 62 <= Z.of_nat F).
  Context (o : Z) (n : nat).
  Notation meanwhile := (meanwhile al F lm).

  (** The table stays, and keeps its number of slots. *)
  Definition IInv (st : gstate) : Prop :=
    GInv S st ∧ ∃ t, g_objs st !! o = Some (VHash t) ∧ length t = n.
  Lemma h_put_len t k v : length (h_put hash t k v) = length t.
  Proof. unfold h_put. apply insert_length. Qed.
  Lemma h_del_len t k : length (h_del hash t k) = length t.
  Proof. unfold h_del. apply insert_length. Qed.
  Lemma after_op_table t x : ∃ t', after_op (VHash t) x = VHash t' ∧ length t' = length t.
  Proof.
    unfold after_op, ideal. destruct x; repeat case_match; simplify_eq; eexists; (split; [done|]);
      rewrite ?h_put_len ?h_del_len; try done; unfold h_cleared; by rewrite map_length.
  Qed.

  Definition has_table (objs : gmap Z value) : Prop := ∃ t, objs !! o = Some (VHash t) ∧ length t = n.
  Lemma has_table_insert objs o' v : objs !! o' = None → has_table objs → has_table (<[o' := v]> objs).
  Proof. intros Hn (t & Ht & Hl). exists t. split; [|done]. rewrite lookup_insert_ne //. congruence. Qed.
  Lemma has_table_left objs o' v x e v' : objs !! o' = Some v → left_by v x e v' → has_table objs → has_table (<[o' := v']> objs).
  Proof.
    intros Hv Hl (t & Ht & Hlen). destruct (decide (o' = o)) as [->|Hne].
    - rewrite Ht in Hv. injection Hv as <-. simpl in Hl. subst v'. exists t. split; [apply lookup_insert|done].
    - exists t. split; [|done]. rewrite lookup_insert_ne //.
  Qed.
  Lemma sgame_table evs : ∀ st, sgame al lm F (GInv S) (λ _ _ _, True) evs st → has_table (g_objs st) →
    sgame al lm F IInv (λ _ _ _, True) evs st.
  Proof.
    induction evs as [|ev evs IH]; intros [W objs bo tidy] [H1 H2] Ht; cbn [g_objs] in Ht; (split; [by split|]); [done|].
    assert (∀ (ob : gobs) st', has_table (g_objs st') → (True ∧ sgame al lm F (GInv S) (λ _ _ _, True) evs st') →
       True ∧ sgame al lm F IInv (λ _ _ _, True) evs st') as Hn.
    { intros _ st' Ht' [_ H]. split; [done|]. by apply IH. }
    destruct ev as [i k|i k|i v|i o' x|i o'|i mx|i]; cbn [sgame] in *.
    - intros Hk. specialize (H2 Hk). repeat case_match; try done; [|by apply (Hn GOOther)].
      destruct H2 as [? H2]. split; [done|]. apply (Hn GOOther); [by apply has_table_insert|done].
    - intros Hk. specialize (H2 Hk). destruct (w_procs W !! i); [|done]. destruct (open_base_prog al k); [|done].
      destruct (run_by _ _ _); try done; [|by apply (Hn GOOther)].
      case_bool_decide; [|by apply (Hn GOOther)].
      destruct H2 as [? H2]. split; [done|]. apply (Hn GOOther); [by apply has_table_insert|done].
    - intros Hk. specialize (H2 Hk). repeat case_match; try done; by apply (Hn GOOther).
    - destruct (objs !! o') as [v|] eqn:Hv; [|done]. destruct (w_procs W !! i) as [pr|]; [|done].
      intros Ha Hb Hc. specialize (H2 Ha Hb Hc). destruct (run_by _ _ _); try done.
      + apply (Hn GOOther); [|done]. cbn [g_objs]. destruct Ht as (t & Ht & Hl). destruct (decide (o' = o)) as [->|Hne].
        * rewrite Ht in Hv. injection Hv as <-. destruct (after_op_table t x) as (t' & -> & Hl'). exists t'.
          split; [apply lookup_insert|lia].
        * exists t. split; [|done]. by rewrite lookup_insert_ne.
      + destruct H2 as (v' & Hl & H2). exists v'. split; [done|]. apply (Hn GOOther); [|done]. cbn [g_objs].
        by eapply has_table_left.
    - destruct (objs !! o') as [v|] eqn:Hv; [|done]. destruct v; try done. destruct (w_procs W !! i) as [pr|]; [|done].
      destruct (run_by _ _ _); try done. apply (Hn GOOther); [|done]. cbn [g_objs].
      destruct Ht as (t & Ht & Hl). exists t. split; [|done]. rewrite lookup_delete_ne //. congruence.
    - intros Ha Hb. specialize (H2 Ha Hb). repeat case_match; try done; by apply (Hn GOOther).
    - by apply (Hn GOOther).
  Qed.
  Lemma IInv_game st evs : IInv st → sgame al lm F IInv (λ _ _ _, True) evs st.
  Proof.
    intros [HI Ht]. apply sgame_table; [|done].
    eapply sgame_mono; [| |apply (sgame_inv S lm HL F HF); exact HI]; done.
  Qed.

  Lemma GInv_table st t : GInv S st → g_objs st !! o = Some (VHash t) → h_wf hash t.
  Proof.
    intros (Hok & Hbo & xs & J & K & Ho & Ht & HR) Hl. rewrite Ho in Hl.
    destruct (objs_split S lm HL F HF _ _ _ _ _ _ _ HR Hl) as (xs1 & B & xs2 & -> & _).
    assert (file_holds (λ m, ⌜h_wf hash t⌝ ∗ True)%I (g_w st)) as H.
    { eapply file_holds_mono; [|exact HR]. intros m. iIntros "(_ & R & _)".
      iDestruct (reps_mid with "R") as "[R _]". iDestruct (h_rep_wf with "R") as %?. done. }
    by apply file_holds_pure in H as [? _].
  Qed.
  (** One call that only reads the table. *)
  Lemma call_ok {A} (p : prog A) (R : A → htable → Prop) st i t :
    IInv st → g_objs st !! o = Some (VHash t) → is_Some (w_procs (g_w st) !! i) →
    (∀ c B Bf s Φ Ψ, ainv S c (B ++ Bf) s -∗ h_rep hash o t B -∗
       (∀ a, ⌜R a t⌝ -∗ ainv S c (B ++ Bf) s -∗ h_rep hash o t B -∗ Φ a) -∗ wp p Φ Ψ) →
    match run_by (g_w st) i (sa_lock ;; p)%prog with
    | WDone a W' => R a t ∧ IInv (GS W' (g_objs st) (g_base st) (g_tidy st))
    | _ => False
    end.
  Proof.
    intros [HI Htab] Hv [pr Hi] Hwp. pose proof HI as (Hok & Hbo & xs & J & K & Ho & Ht & HR).
    rewrite Ho in Hv. destruct (objs_split S lm HL F HF _ _ _ _ _ _ _ HR Hv) as (xs1 & B & xs2 & -> & Hnd).
    pose proof (run_pool S lm HL F HF _ _ _ _ _ _ _ p
      (λ a xs' J' s', R a t ∧ xs' = xs1 ++ (o, VHash t, B) :: xs2 ∧ J' = J ∧ s_K s' = K ∧ s_bo s' = g_base st)
      (λ e xs' J' s', False) HR Hok Hi) as H.
    feed specialize H.
    { intros e. iIntros "(H & R & RJ)".
      iDestruct (pool_focus S lm HL F HF _ xs1 (o, VHash t, B) xs2 J with "H R") as "(H & Hv & R)". simpl.
      iApply (Hwp with "H Hv"). iIntros (a Ha) "H Hv".
      iDestruct (pool_unfocus S lm HL F HF _ xs1 (o, VHash t, B) xs2 J with "H Hv R") as "[H R]".
      iExists _, J, _. iFrame. iPureIntro. done. }
    destruct (run_by _ _ _) as [a W'|e W'| |]; try done.
    2:{ by destruct H as [_ (? & ? & ? & [] & _)]. }
    destruct H as ((Hl & Hok' & _) & xs' & J' & s' & (Ha & -> & -> & HK & Hb) & Hm & HR').
    split; [done|]. split; [|done]. split; [by apply (wok_env S lm HL F HF _ _ Hok Hl Hok')|]. split; [done|].
    exists (xs1 ++ (o, VHash t, B) :: xs2), J, K. split; [done|]. split; [done|]. cbn [g_w g_base]. by rewrite -HK -Hb.
  Qed.
  Lemma call_bits st i t : IInv st → g_objs st !! o = Some (VHash t) → is_Some (w_procs (g_w st) !! i) →
    match run_by (g_w st) i (sa_lock ;; h_bits o)%prog with
    | WDone b W' => Z.shiftl 1 b = Z.of_nat n ∧ IInv (GS W' (g_objs st) (g_base st) (g_tidy st))
    | _ => False
    end.
  Proof.
    intros HI Hv Hi. destruct (HI) as [_ (t' & Ht' & Hn)]. rewrite Hv in Ht'. injection Ht' as <-.
    apply (call_ok (h_bits o) (λ b _, Z.shiftl 1 b = Z.of_nat n) st i t HI Hv Hi).
    iIntros (c B Bf s Φ Ψ) "H (%bits & %so & %P & %Hp & W0 & W8 & W16 & HS) W".
    destruct Hp as (Hpt & Hwf & Hb & Hlen & HB). iApply bind_ret_r.
    iApply (wp_h_bits S c hash F HF o bits so P with "[W0 W8 HS]"); [done|by iFrame|].
    iIntros "(W0 & W8 & HS)". iApply wp_ret. iApply ("W" with "[] H").
    - iPureIntro. rewrite Z.shiftl_1_l -Hlen -Hn Hpt map_length. done.
    - iExists bits, so, P. by iFrame.
  Qed.
  Lemma call_slot st i t j : IInv st → g_objs st !! o = Some (VHash t) → is_Some (w_procs (g_w st) !! i) → (j < n)%nat →
    match run_by (g_w st) i (sa_lock ;; h_slot_contents al F o (Z.of_nat j))%prog with
    | WDone l W' => (∃ b, t !! j = Some (b, l)) ∧ IInv (GS W' (g_objs st) (g_base st) (g_tidy st))
    | _ => False
    end.
  Proof.
    intros HI Hv Hi Hj. destruct (HI) as [_ (t' & Ht' & Hn)]. rewrite Hv in Ht'. injection Ht' as <-.
    apply (call_ok (h_slot_contents al F o (Z.of_nat j)) (λ l t, ∃ b, t !! j = Some (b, l)) st i t HI Hv Hi).
    iIntros (c B Bf s Φ Ψ) "H (%bits & %so & %P & %Hp & W0 & W8 & W16 & HS) W".
    destruct Hp as (Hpt & Hwf & Hb & Hlen & HB). iApply bind_ret_r.
    destruct (P !! j) as [p|] eqn:Hpj.
    2:{ apply lookup_ge_None in Hpj. rewrite -Hn Hpt map_length in Hj. lia. }
    iApply (wp_h_slot_contents S c hash F HF o bits so P B Bf s j p with "H [W0 W8 HS]"); [done|done|by iFrame|].
    iIntros "H (W0 & W8 & HS)". iApply wp_ret. iApply ("W" with "[] H").
    - iPureIntro. exists p.1. rewrite Hpt list_lookup_fmap Hpj. done.
    - iExists bits, so, P. by iFrame.
  Qed.

  (** *** The rules of [meanwhile] *)
  Definition IM {A} (c : client A) seen Q st : Prop := IInv st → meanwhile c o seen Q st.
  Lemma m_finish {A} (a : A) seen (Q : A → list value → Prop) st : Q a seen → IM (Finish a) seen Q st.
  Proof. intros HQ HI evs. eapply sgame_mono; [| |by apply IInv_game]; [done|done]. Qed.
  Lemma m_call {A B} (p : prog B) (k : B → client A) seen (Q : A → list value → Prop) st (R : B → htable → Prop) :
    (∀ st i t, IInv st → g_objs st !! o = Some (VHash t) → is_Some (w_procs (g_w st) !! i) →
       match run_by (g_w st) i (sa_lock ;; p)%prog with
       | WDone b W' => R b t ∧ IInv (GS W' (g_objs st) (g_base st) (g_tidy st))
       | _ => False
       end) →
    (∀ b t st', h_wf hash t → length t = n → R b t → IM (k b) (seen ++ [VHash t]) Q st') →
    IM (Call p k) seen Q st.
  Proof.
    intros Hp Hk HI evs. eapply sgame_mono; [| |by apply IInv_game]; [|done].
    intros st' HI' i v Hi Hv. pose proof HI' as [HG (t & Ht & Hn)]. rewrite Ht in Hv. injection Hv as <-.
    pose proof (Hp st' i t HI' Ht Hi) as H. destruct (run_by _ _ _); try done. destruct H as [HR HI2].
    apply (Hk _ t _); [by eapply GInv_table|done|done|done].
  Qed.

  Context (Hn : (0 < n)%nat).
  Lemma m_advance {A} (K : h_iter → client A) Q G : ∀ it seen l st,
    iter_in n seen it l → (hi_index it <= length (hi_items it))%nat → (Z.of_nat n - hi_slot it <= Z.of_nat G) →
    (∀ it' seen' st', iter_at n seen' it' l → IM (K it') seen' Q st') →
    IM (cbind (ih_advance al F G o it) K) seen Q st.
  Proof.
    induction G as [|G IH]; intros [sl ix its] seen l st Hin Hix HG HK; cbn [hi_slot hi_index hi_items] in *;
      pose proof Hin as (rs & b & [Hrl Hrd] & Hsl & Hl); cbn [hi_slot hi_index hi_items] in *;
      rewrite app_length /= in Hrl; [lia|].
    cbn [ih_advance hi_slot hi_index hi_items].
    destruct (bool_decide_reflect (length its <= ix)%nat) as [Hx|Hx]; [|cbn [cbind]; apply HK; right; split; [done|simpl; lia]].
    cbn [cbind]. eapply (m_call _ _ _ _ _ (λ b _, Z.shiftl 1 b = Z.of_nat n)); [intros s0 i0 t0 ???; by apply (call_bits s0 i0 t0)|].
    intros bits t st' Hw Ht ->. assert (l = h_items (rs ++ [(b, its)])) as El.
    { rewrite (h_items_snoc n). cbn [snd]. rewrite Hl take_ge; [done|lia]. }
    assert (was_read n seen (rs ++ [(b, its)])) as Hr by (split; [rewrite app_length /=; lia|done]).
    case_bool_decide as Hlt.
    - cbn [cbind]. eapply (m_call _ _ _ _ _ (λ l' t, ∃ b', t !! length (rs ++ [(b, its)]) = Some (b', l'))).
      + intros st2 i t2 HI2 Ht2 Hi2. replace (sl + 1) with (Z.of_nat (length (rs ++ [(b, its)]))) by (rewrite app_length /=; lia).
        apply (call_slot st2 i t2); [done|done|done|rewrite app_length /=; lia].
      + intros l' t2 st2 Hw2 Ht2 [b' Hb']. apply (IH _ _ l); [|simpl; lia|simpl; lia|done].
        exists (rs ++ [(b, its)]), b'. cbn [hi_slot hi_index hi_items]. split; [|split].
        * apply was_read_snoc; [by apply was_read_more|done|done|done].
        * rewrite app_length /=. lia.
        * by rewrite take_0 app_nil_r.
    - cbn [cbind]. apply HK. left. exists (rs ++ [(b, its)]). cbn [hi_slot hi_index hi_items].
      split; [by apply was_read_more|]. rewrite app_length /=. split; [lia|]. split; [done|]. split; [lia|done].
  Qed.
  Lemma m_loop G : ∀ it seen l st, iter_at n seen it l → Z.of_nat n <= Z.of_nat F →
    IM (ih_loop al F G o it l) seen visits_what_is_there st.
  Proof.
    induction G as [|G IH]; intros it seen l st Hit HF'; cbn [ih_loop ih_is_end cbind];
      (eapply (m_call _ _ _ _ _ (λ b _, Z.shiftl 1 b = Z.of_nat n)); [intros s0 i0 t0 ???; by apply (call_bits s0 i0 t0)|]);
      intros bits t st' Hw Ht ->; apply (iter_at_more n _ (VHash t)) in Hit; cbn [cbind];
      destruct (bool_decide _) eqn:Hb;
      try (apply m_finish; first [by eapply iter_at_done|by eapply iter_at_prefix]).
    destruct Hit as [(rs & _ & _ & _ & H1 & H2 & H3)|[Hin Hlt]].
    { apply bool_decide_eq_false in Hb. rewrite H1 H2 H3 in Hb. simpl in Hb. lia. }
    pose proof Hin as (rs & b & Hwr & Hsl & Hl). pose proof Hwr as [Hrl _]. rewrite app_length /= in Hrl.
    destruct (hi_items it !! hi_index it) as [x|] eqn:Hx; [|apply lookup_ge_None in Hx; lia].
    cbn [ih_next cbind]. eapply (m_call _ _ _ _ _ (λ b _, Z.shiftl 1 b = Z.of_nat n)); [intros s0 i0 t0 ???; by apply (call_bits s0 i0 t0)|].
    intros bits2 t2 st2 Hw2 Ht2 ->. rewrite bool_decide_eq_false_2; [|lia]. rewrite bool_decide_eq_true_2; [|done].
    apply (m_advance _ _ F _ _ (l ++ [x])); cbn [hi_slot hi_index hi_items]; [|lia|lia|].
    - exists rs, b. cbn [hi_slot hi_index hi_items]. split; [by apply was_read_more|].
      split; [done|]. rewrite Hl -app_assoc. f_equal. symmetry. by apply take_S_r.
    - intros it' seen' st3 Hit'. by apply IH.
  Qed.
  Lemma m_iterate G st : Z.of_nat n <= Z.of_nat F → IM (ih_iterate al F G o) [] visits_what_is_there st.
  Proof.
    intros HF'. unfold ih_iterate. cbn [ih_begin cbind].
    eapply (m_call _ _ _ _ _ (λ b _, Z.shiftl 1 b = Z.of_nat n)); [intros s0 i0 t0 ???; by apply (call_bits s0 i0 t0)|].
    intros bits t st' Hw Ht ->. rewrite bool_decide_eq_true_2; [|lia]. cbn [cbind].
    eapply (m_call _ _ _ _ _ (λ l' t, ∃ b', t !! 0%nat = Some (b', l'))).
    { intros st2 i t2 HI2 Ht2 Hi2. by apply (call_slot _ _ _ 0%nat). }
    intros l' t2 st2 Hw2 Ht2 [b' Hb']. apply (m_advance _ _ F _ _ []); cbn [hi_slot hi_index hi_items]; [|lia|lia|].
    - exists [], b'. cbn [hi_slot hi_index hi_items]. split; [|done].
      apply (was_read_snoc n _ [] t2); [|done|done|done]. split; [simpl; lia|done].
    - intros it' seen' st3 Hit'. by apply m_loop.
  Qed.
End main.

Section all.
  Context {hash : HashFn}.
  Context {al : allocator} (S : alloc_spec al) `{!BaseFree S, !Visible S} (lm : alloc_limits) (HL : limits_ok S lm).
  Context (F : nat) (HF : 2 ^ 62 <= Z.of_nat F).
  Lemma table_len st o t : GInv S st → g_objs st !! o = Some (VHash t) → (0 < length t)%nat ∧ Z.of_nat (length t) <= 2 ^ 30.
  Proof.
    intros (Hok & Hbo & xs & J & K & Ho & Ht & HR) Hl. rewrite Ho in Hl.
    destruct (objs_split S lm HL F HF _ _ _ _ _ _ _ HR Hl) as (xs1 & B & xs2 & -> & _).
    assert (file_holds (λ m, ⌜(0 < length t)%nat ∧ Z.of_nat (length t) <= 2 ^ 30⌝ ∗ True)%I (g_w st)) as H.
    { eapply file_holds_mono; [|exact HR]. intros m. iIntros "(_ & R & _)".
      iDestruct (reps_mid with "R") as "[(%bits & %so & %P & %Hp & _) _]". iSplit; [|done]. iPureIntro.
      destruct Hp as (-> & _ & Hb & Hlen & _). rewrite map_length.
      pose proof (Z.pow_pos_nonneg 2 bits ltac:(lia) ltac:(lia)).
      pose proof (Z.pow_le_mono_r 2 bits 30 ltac:(lia) ltac:(lia)). lia. }
    by apply file_holds_pure in H as [? _].
  Qed.
  Lemma main_iteration W evs : GInv S (GS W ∅ 0 true) →
    sgame al lm F (iteration_under_changes al lm F) (λ _ _ _, True) evs (GS W ∅ 0 true).
  Proof.
    intros HI. eapply sgame_mono; [| |apply (sgame_inv S lm HL F HF); exact HI]; [|done].
    intros st Hst o t G Ho. destruct (table_len _ _ _ Hst Ho) as [Hn HnF].
    apply (m_iterate S lm HL F HF o (length t) Hn G st); [lia|]. split; [done|]. by exists t.
  Qed.
End all.
