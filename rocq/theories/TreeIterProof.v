(** * Iterations over prefix trees while others work: proof. *)
From Verif Require Export TreeIterSpec TreeMain.
From Verif Require Import PrefixOrder.
From iris.proofmode Require Import tactics.
From iris.prelude Require Import options.
Open Scope Z_scope.
Set Default Proof Using "All".

(** ** What has been visited *)
Section pure.
  Definition always (k : bytes) (seen : list value) : Prop :=
    ∀ v, v ∈ seen → ∃ t ok, v = VTree t ok ∧ is_Some (t_map t !! k).
  (** The iterator is at [cur], after the items [l]. *)
  Definition walked (cur : option bytes) (l : list (bytes * pval)) (seen : list value) : Prop :=
    StronglySorted (λ x y, lex_lt (fst x) (fst y) = true) l ∧
    (∀ k w, (k, w) ∈ l → is_after cur k = false) ∧
    (∀ k w, (k, w) ∈ l → ∃ t ok, VTree t ok ∈ seen ∧ t_map t !! k = Some w) ∧
    (∀ k, always k seen → is_after cur k = false → k ∈ map fst l).
  Lemma always_app k seen v : always k (seen ++ [v]) → always k seen ∧ always k [v].
  Proof. intros H. split; intros w Hw; apply H, elem_of_app; auto. Qed.
  Lemma walked_start : walked None [] [].
  Proof.
    split; [constructor|]. split; [intros k w H; by apply elem_of_nil in H|].
    split; [intros k w H; by apply elem_of_nil in H|]. by intros k _ ?.
  Qed.
  Lemma walked_visits cur l seen : walked cur l seen → visits_in_order false l seen.
  Proof. intros (H1 & H2 & H3 & H4). split; [done|]. by split. Qed.
  Lemma walked_end cur l seen t ok : walked cur l seen → (∀ k, is_Some (t_map t !! k) → is_after cur k = false) →
    visits_in_order true l (seen ++ [VTree t ok]).
  Proof.
    intros (H1 & H2 & H3 & H4) He. split; [done|]. split.
    - intros k w Hin. destruct (H3 k w Hin) as (t' & ok' & ? & ?). exists t', ok'. split; [|done]. apply elem_of_app. by left.
    - intros _ k Hk. apply always_app in Hk as [Hk Hv]. apply H4; [done|].
      destruct (Hv (VTree t ok)) as (? & ? & [= <- <-] & Hs); [by apply elem_of_list_singleton|]. by apply He.
  Qed.
  Lemma sorted_snoc (l : list (bytes * pval)) x : StronglySorted (λ x y, lex_lt (fst x) (fst y) = true) l →
    (∀ y, y ∈ l → lex_lt (fst y) (fst x) = true) → StronglySorted (λ x y, lex_lt (fst x) (fst y) = true) (l ++ [x]).
  Proof.
    intros Hs. induction Hs as [|y l Hs IH Hy]; intros Hx; cbn [app]; [constructor; constructor|].
    constructor.
    - apply IH. intros z Hz. apply Hx. by right.
    - apply Forall_app. split; [done|]. constructor; [apply Hx; by left|constructor].
  Qed.
  Lemma walked_step cur l seen t ok k v : walked cur l seen → t_map t !! k = Some v → is_after cur k = true →
    (∀ k', is_Some (t_map t !! k') → is_after cur k' = true → lex_le k k') →
    walked (Some k) (l ++ [(k, v)]) (seen ++ [VTree t ok]).
  Proof.
    intros (H1 & H2 & H3 & H4) Hk Ha Hmin.
    assert (∀ y, y ∈ l → lex_lt y.1 k = true) as Hlt.
    { intros [k' w'] Hin. pose proof (H2 _ _ Hin) as H. cbn [fst]. destruct cur as [c|]; [|done]. cbn [is_after] in *.
      destruct (lex_lt k' c) eqn:E; [by eapply lex_trans|]. by rewrite (lex_trich _ _ E H). }
    split; [by apply sorted_snoc|]. split; [|split].
    - intros k' w' Hin. cbn [is_after]. apply elem_of_app in Hin as [Hin|Hin].
      + apply lex_asym. exact (Hlt _ Hin).
      + apply elem_of_list_singleton in Hin as [= -> ->]. apply lex_lt_irrefl.
    - intros k' w' Hin. apply elem_of_app in Hin as [Hin|Hin].
      + destruct (H3 _ _ Hin) as (t' & ok' & ? & ?). exists t', ok'. split; [|done]. apply elem_of_app. by left.
      + apply elem_of_list_singleton in Hin as [= -> ->]. exists t, ok. split; [|done]. apply elem_of_app. right. by apply elem_of_list_singleton.
    - intros k' Hal Haf. cbn [is_after] in Haf. rewrite map_app. apply elem_of_app. apply always_app in Hal as [Hal Hv].
      destruct (is_after cur k') eqn:E; [|left; by apply H4].
      destruct (Hv (VTree t ok)) as (? & ? & [= <- <-] & Hs); [by apply elem_of_list_singleton|].
      right. apply elem_of_list_singleton. cbn [fst]. pose proof (Hmin _ Hs E) as Hle. unfold lex_le in Hle.
      symmetry. by apply lex_trich.
  Qed.
End pure.

Section main.
  Context {hash : HashFn}.
  Context {al : allocator} (S : alloc_spec al) `{!BaseFree S, !Visible S} (lm : alloc_limits) (HL : limits_ok S lm).
  Context (F : nat) (HF : 2 ^ 62 <= Z.of_nat F).
  Context (Hord : ∀ st ob st', GInv S st → gct lm st ob st' → GInv S st' → tree_order st ob st').
  Context (o : Z).

  Definition has_tree (objs : gmap Z value) : Prop := ∃ t ok, objs !! o = Some (VTree t ok).
  Definition TInv (st : gstate) : Prop := GInv S st ∧ has_tree (g_objs st).
  Lemma has_tree_insert objs o' v : objs !! o' = None → has_tree objs → has_tree (<[o' := v]> objs).
  Proof. intros Hn (t & ok & Ht). exists t, ok. rewrite lookup_insert_ne //. congruence. Qed.
  Lemma has_tree_left objs o' v x e v' : objs !! o' = Some v → left_by v x e v' → has_tree objs → has_tree (<[o' := v']> objs).
  Proof.
    intros Hv Hl (t & ok & Ht). destruct (decide (o' = o)) as [->|Hne].
    - rewrite Ht in Hv. injection Hv as <-. destruct x; cbn [left_by] in Hl;
        first [subst v'; exists t, ok; apply lookup_insert|destruct Hl as (t' & -> & _); eexists _, _; apply lookup_insert].
    - exists t, ok. rewrite lookup_insert_ne //.
  Qed.
  Lemma after_op_tree t ok x : ∃ t' ok', after_op (VTree t ok) x = VTree t' ok'.
  Proof. unfold after_op, ideal. repeat case_match; simplify_eq; by eexists _, _. Qed.
  Lemma sgame_tree evs : ∀ st, sgame al lm F (GInv S) (λ _ _ _, True) evs st → has_tree (g_objs st) →
    sgame al lm F TInv (λ _ _ _, True) evs st.
  Proof.
    induction evs as [|ev evs IH]; intros [W objs bo tidy] [H1 H2] Ht; cbn [g_objs] in Ht; (split; [by split|]); [done|].
    assert (∀ (ob : gobs) st', has_tree (g_objs st') → (True ∧ sgame al lm F (GInv S) (λ _ _ _, True) evs st') →
       True ∧ sgame al lm F TInv (λ _ _ _, True) evs st') as Hn.
    { intros _ st' Ht' [_ H]. split; [done|]. by apply IH. }
    destruct ev as [i k|i k|i v|i o' x|i o'|i mx|i]; cbn [sgame] in *.
    - intros Hk. specialize (H2 Hk). repeat case_match; try done; [|by apply (Hn GOOther)].
      destruct H2 as [? H2]. split; [done|]. apply (Hn GOOther); [by apply has_tree_insert|done].
    - intros Hk. specialize (H2 Hk). destruct (w_procs W !! i); [|done]. destruct (open_base_prog al k); [|done].
      destruct (run_by _ _ _); try done; [|by apply (Hn GOOther)].
      case_bool_decide; [|by apply (Hn GOOther)].
      destruct H2 as [? H2]. split; [done|]. apply (Hn GOOther); [by apply has_tree_insert|done].
    - intros Hk. specialize (H2 Hk). repeat case_match; try done; by apply (Hn GOOther).
    - destruct (objs !! o') as [v|] eqn:Hv; [|done]. destruct (w_procs W !! i) as [pr|]; [|done].
      intros Ha Hb Hc. specialize (H2 Ha Hb Hc). destruct (run_by _ _ _); try done.
      + apply (Hn GOOther); [|done]. cbn [g_objs]. destruct Ht as (t & ok & Ht). destruct (decide (o' = o)) as [->|Hne].
        * rewrite Ht in Hv. injection Hv as <-. destruct (after_op_tree t ok x) as (t' & ok' & ->). exists t', ok'.
          apply lookup_insert.
        * exists t, ok. by rewrite lookup_insert_ne.
      + destruct H2 as (v' & Hl & H2). exists v'. split; [done|]. apply (Hn GOOther); [|done]. cbn [g_objs].
        by eapply has_tree_left.
    - destruct (objs !! o') as [v|] eqn:Hv; [|done]. destruct v; try done. destruct (w_procs W !! i) as [pr|]; [|done].
      destruct (run_by _ _ _); try done. apply (Hn GOOther); [|done]. cbn [g_objs].
      destruct Ht as (t & ok & Ht). exists t, ok. rewrite lookup_delete_ne //. congruence.
    - intros Ha Hb. specialize (H2 Ha Hb). repeat case_match; try done; by apply (Hn GOOther).
    - by apply (Hn GOOther).
  Qed.
  Lemma TInv_game st evs : TInv st → sgame al lm F TInv (λ _ _ _, True) evs st.
  Proof.
    intros [HI Ht]. apply sgame_tree; [|done].
    eapply sgame_mono; [| |apply (sgame_inv S lm HL F HF); exact HI]; done.
  Qed.

  (** One call of next_key_value(). *)
  Lemma next_ok st t ok i cur : TInv st → g_objs st !! o = Some (VTree t ok) → is_Some (w_procs (g_w st) !! i) →
    t_handled t (TNext cur) →
    match run_by (g_w st) i (sa_lock ;; op_prog al F o (OTree (TNext cur)))%prog with
    | WDone (RTree (TKeyVal k v)) W' => t_map t !! k = Some v ∧ is_after cur k = true ∧
        (∀ k', is_Some (t_map t !! k') → is_after cur k' = true → lex_le k k') ∧
        TInv (GS W' (g_objs st) (g_base st) (g_tidy st))
    | WExn OutOfRange W' => ∀ k, is_Some (t_map t !! k) → is_after cur k = false
    | _ => False
    end.
  Proof.
    intros [HI Htr] Ho [pr Hi] Hh.
    assert (sgame al lm F (GInv S) (λ st ob st', tree_order st ob st' ∧ GInv S st') [GOp i o (OTree (TNext cur))] st) as H.
    { eapply sgame_mono; [| |apply (sgame_inv S lm HL F HF); exact HI]; [done|]. intros ????? . split; [by eapply Hord|done]. }
    destruct st as [W objs bo tidy]. cbn [g_w g_objs g_base g_tidy] in *. cbn [sgame] in H. destruct H as [_ H].
    rewrite Ho Hi in H.
    assert (ideal (VTree t ok) (OTree (TNext cur)) ≠ None) as Hid.
    { cbn [ideal t_ideal]. destruct (t_next (t_map t) cur) as [[? ?]|]; done. }
    assert (after_op (VTree t ok) (OTree (TNext cur)) = VTree t ok) as Haf.
    { unfold after_op. cbn [ideal t_ideal]. destruct (t_next (t_map t) cur) as [[? ?]|]; done. }
    assert (requests (VTree t ok) (OTree (TNext cur)) = []) as Hreq by done.
    assert (sensible lm (VTree t ok) (OTree (TNext cur))) as Hsn.
    { split; [done|]. rewrite Hreq. by split; [constructor|]. }
    specialize (H Hid Hsn ltac:(done)).
    destruct (run_by _ _ _) as [r W'|e W'| |]; try done.
    - destruct H as [[H HI'] _]. rewrite Haf in HI'. cbn [tree_order] in H.
      destruct H as (m & k & v & (ok1 & t1 & E & <-) & -> & Hun & H1 & H2 & H3). cbn [g_objs] in *.
      rewrite Ho in E. injection E as <- <-. split; [done|]. split; [done|]. split; [done|].
      assert (<[o := VTree t ok]> objs = objs) as Eo by by apply insert_id.
      assert (given_back lm (frees (VTree t ok) (OTree (TNext cur))) = true) as Eg by done.
      rewrite Eo Eg andb_true_r in HI'. by split.
    - destruct H as (v' & _ & [H _] & _). cbn [tree_order] in H.
      destruct H as (m & (ok1 & t1 & E & <-) & -> & _ & H). cbn [g_objs] in *.
      rewrite Ho in E. injection E as <- <-. exact H.
  Qed.
  Lemma walk G : ∀ cur l seen st, TInv st → walked cur l seen → tree_walk al lm F G o cur l seen st.
  Proof.
    induction G as [|G IH]; intros cur l seen st HI Hw; (split; [by eapply walked_visits|]); [done|].
    intros history. eapply sgame_mono; [| |by apply TInv_game]; [|done].
    intros st' HI'. pose proof HI' as [_ (t & ok & Ht)]. exists t, ok. split; [done|]. intros i Hi Hh.
    pose proof (next_ok _ _ _ _ _ HI' Ht Hi Hh) as H. destruct (run_by _ _ _) as [r W'|e W'| |]; try done.
    - destruct r as [| | | | |x]; try done. destruct x as [| | | |k v| |]; try done.
      destruct H as (H1 & H2 & H3 & H4). apply IH; [exact H4|]. by eapply walked_step.
    - destruct e; try done. by eapply walked_end.
  Qed.
End main.

Section all.
  Context {hash : HashFn}.
  Context {al : allocator} (S : alloc_spec al) `{!BaseFree S, !Visible S} (lm : alloc_limits) (HL : limits_ok S lm).
  Context (F : nat) (HF : 2 ^ 62 <= Z.of_nat F).
  Lemma main_tree_iteration W evs : GInv S (GS W ∅ 0 true) →
    sgame al lm F (λ st, tree_iteration_under_changes al lm F st ∧ next_of_stored_is_handled st) (λ _ _ _, True)
      evs (GS W ∅ 0 true).
  Proof.
    intros HI. eapply sgame_mono; [| |apply (sgame_inv S lm HL F HF); exact HI]; [|done].
    intros st Hst. split; [|intros o t ok k Ho Hk; destruct (GInv_tree S lm HL F HF W evs HI _ _ _ _ Hst Ho) as [Hwf _]; by apply stored_no_hole].
    intros o t ok G Ho. apply (walk S lm HL F HF); [|by split; [|exists t, ok]|apply walked_start].
    exact (steps_tree_order S lm HL F HF W evs HI).
  Qed.
End all.
