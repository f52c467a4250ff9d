(** * lower_bound of a prefix tree while others work: proof. *)
From Verif Require Export TreeBoundSpec TreeIterProof.
From Verif Require Import PrefixOrder.
From iris.proofmode Require Import tactics.
From iris.prelude Require Import options.
Open Scope Z_scope.
Set Default Proof Using "All".

Section main.
  Context {hash : HashFn}.
  Context {al : allocator} (S : alloc_spec al) `{!BaseFree S, !Visible S} (lm : alloc_limits) (HL : limits_ok S lm).
  Context (F : nat) (HF : 2 ^ 62 <= Z.of_nat F).
  Context (Hord : ∀ st ob st', GInv S st → gct lm st ob st' → GInv S st' → tree_order st ob st').
  Context (Hmap : ∀ st ob st', GInv S st → gct lm st ob st' → GInv S st' → tree_is_a_map st ob st').
  Context (Hbnd : ∀ st ob st', GInv S st → gct lm st ob st' → GInv S st' → tree_bounds st ob st').
  Context (o : Z).

  Lemma at_ok st t ok i k : GInv S st → g_objs st !! o = Some (VTree t ok) → is_Some (w_procs (g_w st) !! i) →
    match run_by (g_w st) i (sa_lock ;; op_prog al F o (OTree (TAt k)))%prog with
    | WDone r W' => ∃ v, r = RTree (TVal v) ∧ t_map t !! k = Some v
    | WExn e W' => e = OutOfRange ∧ t_map t !! k = None ∧ GInv S (GS W' (g_objs st) (g_base st) (g_tidy st))
    | _ => False
    end.
  Proof.
    intros HI Ho [pr Hi].
    assert (sgame al lm F (GInv S) (λ st ob st', tree_is_a_map st ob st' ∧ GInv S st') [GOp i o (OTree (TAt k))] st) as H.
    { eapply sgame_mono; [| |apply (sgame_inv S lm HL F HF); exact HI]; [done|]. intros ????? . split; [by eapply Hmap|done]. }
    destruct st as [W objs bo tidy]. cbn [g_w g_objs g_base g_tidy] in *. cbn [sgame] in H. destruct H as [_ H].
    rewrite Ho Hi in H.
    assert (ideal (VTree t ok) (OTree (TAt k)) ≠ None) as Hid.
    { cbn [ideal t_ideal]. destruct (t_map t !! k); done. }
    assert (sensible lm (VTree t ok) (OTree (TAt k))) as Hsn.
    { split; [done|]. by split; [constructor|]. }
    specialize (H Hid Hsn ltac:(done)).
    destruct (run_by _ _ _) as [r W'|e W'| |]; try done.
    - destruct H as [[H _] _]. cbn [tree_is_a_map] in H.
      destruct H as (m & v & (ok1 & t1 & E & <-) & Hv & -> & _). cbn [g_objs] in *.
      rewrite Ho in E. injection E as <- <-. by exists v.
    - destruct H as (v' & Hl & [H HI'] & _). cbn [tree_is_a_map] in H.
      destruct H as (m & (ok1 & t1 & E & <-) & Hn & -> & Hun). cbn [g_objs] in *.
      rewrite Ho in E. injection E as <- <-. split; [done|]. split; [done|].
      rewrite Hun in HI'.
      assert (may_lose lm (VTree t ok) (OTree (TAt k)) OutOfRange = false) as Em by done.
      by rewrite Em andb_true_r in HI'.
  Qed.
  Lemma upper_ok st t ok i k : GInv S st → g_objs st !! o = Some (VTree t ok) → is_Some (w_procs (g_w st) !! i) →
    t_handled t (TUpper k) →
    match run_by (g_w st) i (sa_lock ;; op_prog al F o (OTree (TUpper k)))%prog with
    | WDone r W' => ∃ x, r = RTree (TItem x) ∧ first_item (t_map t) (λ k', lex_lt k k' = true) x
    | _ => False
    end.
  Proof.
    intros HI Ho [pr Hi] Hh.
    assert (sgame al lm F (GInv S) (λ st ob st', tree_bounds st ob st') [GOp i o (OTree (TUpper k))] st) as H.
    { eapply sgame_mono; [| |apply (sgame_inv S lm HL F HF); exact HI]; [done|]. intros ????? . by eapply Hbnd. }
    destruct st as [W objs bo tidy]. cbn [g_w g_objs g_base g_tidy] in *. cbn [sgame] in H. destruct H as [_ H].
    rewrite Ho Hi in H.
    assert (ideal (VTree t ok) (OTree (TUpper k)) ≠ None) as Hid by done.
    assert (sensible lm (VTree t ok) (OTree (TUpper k))) as Hsn.
    { split; [done|]. by split; [constructor|]. }
    specialize (H Hid Hsn ltac:(done)).
    destruct (run_by _ _ _) as [r W'|e W'| |]; try done.
    - destruct H as [H _]. cbn [tree_bounds] in H.
      destruct H as (m & x & (ok1 & t1 & E & <-) & -> & _ & Hx). cbn [g_objs] in *.
      rewrite Ho in E. injection E as <- <-. by exists x.
    - destruct H as (v' & _ & H & _). cbn [tree_bounds] in H. done.
  Qed.
  Lemma bound_found m1 m2 k x : m1 !! k = None → first_item m2 (λ k', lex_lt k k' = true) x → bound_between m1 m2 k x.
  Proof.
    intros Hk Hx. assert (∀ k'', is_Some (m1 !! k'') → lex_le k k'' → lex_lt k k'' = true) as Hlt.
    { intros k'' [w Hw] Hle. unfold lex_le in Hle. destruct (lex_lt k k'') eqn:E; [done|].
      assert (k = k'') as -> by by apply lex_trich. by rewrite Hk in Hw. }
    destruct x as [[k' v]|]; cbn [first_item] in Hx.
    - destruct Hx as (H1 & H2 & H3). split; [done|]. intros k'' Ha Hb Hle. apply H3; [done|by apply Hlt].
    - split; [done|]. intros k'' Ha Hb Hle. apply (Hx k''); [done|by apply Hlt].
  Qed.
  Lemma bound st t ok i k : GInv S st → g_objs st !! o = Some (VTree t ok) → is_Some (w_procs (g_w st) !! i) →
    match run_by (g_w st) i (sa_lock ;; op_prog al F o (OTree (TAt k)))%prog with
    | WDone r _ => exists v, r = RTree (TVal v) /\ t_map t !! k = Some v
    | WExn e W1 => e = OutOfRange /\ t_map t !! k = None /\
        forall history,
        sgame al lm F
          (fun st2 => exists t2 ok2, g_objs st2 !! o = Some (VTree t2 ok2) /\
             (is_Some (w_procs (g_w st2) !! i) -> t_handled t2 (TUpper k) ->
              match run_by (g_w st2) i (sa_lock ;; op_prog al F o (OTree (TUpper k)))%prog with
              | WDone r W2 => exists x, r = RTree (TItem x) /\ bound_between (t_map t) (t_map t2) k x
              | _ => False
              end))
          (fun _ _ _ => True) history (GS W1 (g_objs st) (g_base st) (g_tidy st))
    | _ => False
    end.
  Proof.
    intros HI Ho Hi. pose proof (at_ok _ _ _ _ k HI Ho Hi) as H.
    destruct (run_by _ _ _) as [r W'|e W'| |]; try done. destruct H as (-> & Hn & HI'). split; [done|]. split; [done|].
    intros history. eapply sgame_mono; [| |apply (TInv_game S lm HL F HF Hord o); by split; [|exists t, ok]]; [|done].
    intros st2 [HI2 (t2 & ok2 & Ho2)]. exists t2, ok2. split; [done|]. intros Hi2 Hh.
    pose proof (upper_ok _ _ _ _ k HI2 Ho2 Hi2 Hh) as H. destruct (run_by _ _ _) as [r W2| | |]; try done.
    destruct H as (x & -> & Hx). exists x. split; [done|]. by apply bound_found.
  Qed.
End main.

Section all.
  Context {hash : HashFn}.
  Context {al : allocator} (S : alloc_spec al) `{!BaseFree S, !Visible S} (lm : alloc_limits) (HL : limits_ok S lm).
  Context (F : nat) (HF : 2 ^ 62 <= Z.of_nat F).
  Lemma main_lower_bound W evs : GInv S (GS W ∅ 0 true) →
    sgame al lm F (λ st, lower_bound_under_changes al lm F st ∧ bounds_handled st) (λ _ _ _, True)
      evs (GS W ∅ 0 true).
  Proof.
    intros HI. eapply sgame_mono; [| |apply (sgame_inv S lm HL F HF); exact HI]; [|done].
    intros st Hst. split.
    - intros o t ok i k Ho Hi. exact (bound S lm HL F HF (steps_tree_order S lm HL F HF W evs HI) (steps_tree_map S lm HL F HF W evs HI)
        (steps_tree_bounds S lm HL F HF W evs HI) o st t ok i k Hst Ho Hi).
    - intros o t ok k Ho Hk. destruct (GInv_tree S lm HL F HF W evs HI _ _ _ _ Hst Ho) as [Hwf _].
      assert (t_hole t [] k = false) as H; [|split; [intros _|]; exact H].
      destruct Hk as [Hk|[(k' & Hk' & c & r & ->)|(k' & Hk' & (c & r & ->) & Hn)]].
      + by apply stored_no_hole.
      + by apply (path_no_hole t k c r).
      + by apply leaf_no_hole.
  Qed.
End all.
