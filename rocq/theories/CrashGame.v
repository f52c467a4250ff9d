(** * Histories with crashes: the proof. *)
From Verif Require Export CrashOther.
From iris.proofmode Require Import tactics.
From iris.prelude Require Import options.
Open Scope Z_scope.

Local Arguments Z.pow : simpl never.
Local Arguments Z.mul : simpl never.
Local Arguments Z.add : simpl never.
Local Arguments u64 : simpl never.

Section hash_function.
Context {hash : HashFn}.
Section game.
  Context (F : nat) (HF : 2 ^ 62 <= Z.of_nat F).
  Notation al := (simple_allocator F).
  Notation S := (simple_spec F HF).

  (** ** Every history *)
  Definition DInv (st : gstate) : Prop :=
    wok S (g_w st) ∧ is_u64 (g_base st) ∧ g_tidy st = false ∧
    ∃ xs J K, g_objs st = objs_map xs ∧ file_holds (pool_dirty xs J K (g_base st)) (g_w st).
  Definition CInv (st : cstate) : Prop := if c_dirty st then DInv (c_g st) else GInv S (c_g st).

  Lemma q_tree_at o k : WPCrash.quiet (t_at al o k).
  Proof using.
    unfold t_at. apply q_bind; [apply q_t_find|]. intros. apply q_if; [constructor|]. apply q_bind; [apply q_load|].
    intros c. apply q_if; [constructor|]. apply (q_t_lookup al); [intros; apply q_sa_block_size|exact F].
  Qed.
  Lemma q_tree_find o k : WPCrash.quiet (t_find_item al o k).
  Proof using.
    unfold t_find_item. apply q_t_or_end.
    apply q_bind; [apply q_tree_at|intros; constructor].
  Qed.
  Lemma q_tree_reads o y : only_reads y = true → WPCrash.quiet (tree_prog al F o y).
  Proof using.
    destruct y as [k v ck|k ck|k delta|k fadd delta| |k|k|k|cur| | | |k|k|k|p|p]; try done; intros _; cbn [tree_prog].
    all: apply q_bind; [|try (intros [??]); intros; constructor].
    - unfold t_has. apply q_bind; [apply q_t_find|intros; constructor].
    - unfold t_type_at. apply q_bind; [apply q_t_find|]. intros. apply q_if; [constructor|]. apply q_bind; [apply q_load|].
      intros c. repeat case_match; constructor.
    - unfold t_at. apply q_bind; [apply q_t_find|]. intros. apply q_if; [constructor|]. apply q_bind; [apply q_load|].
      intros c. apply q_if; [constructor|]. apply (q_t_lookup al); [intros; apply q_sa_block_size|exact F].
    - apply (q_t_next al); [intros; apply q_sa_block_size].
    - apply (q_t_iterate al); [intros; apply q_sa_block_size].
    - apply q_load.
    - apply q_load.
    - apply q_tree_find.
    - unfold t_lower_bound. apply q_bind; [apply q_tree_find|]. intros [x|]; [constructor|].
      unfold t_upper_bound. apply q_t_or_end. apply (q_t_next al); [intros; apply q_sa_block_size].
    - unfold t_upper_bound. apply q_t_or_end. apply (q_t_next al); [intros; apply q_sa_block_size].
    - unfold t_nodes_for_prefix. apply q_if; [apply q_t_nodes_below|].
      apply q_bind; [apply q_t_walk_slot|]. intros slot. apply q_if; [constructor|].
      apply q_bind; [apply q_load|]. intros c. apply q_t_nodes_below.
    - assert (∀ c, WPCrash.quiet (t_bytes_below al F c)) as H by (intros c; apply (q_t_bytes_below al); [intros; apply q_sa_block_size|exact F]).
      unfold t_bytes_for_prefix. apply q_if; [apply q_bind; [apply H|intros; constructor]|].
      apply q_bind; [apply q_t_walk_slot|]. intros slot. apply q_if; [constructor|].
      apply q_bind; [apply q_load|]. intros c. apply H.
  Qed.

  Lemma crash_handled_dec t y : crash_handled t y ∨ ¬ crash_handled t y.
  Proof using.
    clear F HF. destruct y as [k v ck|k ck|k delta|k fadd delta| |k|k|k|cur| | | |k|k|k|p|p]; try (left; exact I).
    destruct v as [s|z|d| |]; try (left; exact I). unfold crash_handled.
    destruct (t_holds (t_map t) ck); [|by left].
    destruct (t_map t !! k) as [[s|z| | |]|]; try (left; intros _ z; congruence).
    destruct (small_int z) eqn:E1; [left; intros _ ? [= <-]; by left|].
    destruct (d_zero d) eqn:E2; [left; intros _ ? _; by right|].
    right. intros H. destruct (H eq_refl z eq_refl); congruence.
  Qed.

  Lemma cgame_inv (ct : gstate → gobs → gstate → Prop) evs st :
    (∀ st ob st', GInv S st → gct simple_limits st ob st' → GInv S st' → ct st ob st') →
    CInv st → cgame F ct evs st.
  Proof using.
    intros Hct0. revert st. induction evs as [|ev evs IH]; intros [[W objs bo tidy] d] HI; [done|].
    destruct ev as [ev|ev|j|j]; cbn [cgame c_g c_dirty].
    - destruct d; unfold CInv in HI; cbn [c_dirty c_g] in HI.
      + destruct HI as (Hok & Hbo & Ht & xs & J & K & Ho & HR). cbn [g_w g_objs g_base g_tidy] in *. subst objs tidy.
        destruct ev as [| | | | |i mx|i]; try done; cbn [sgame]; (split; [done|]).
        * intros Hmx Hi. destruct Hok as [Hok Hcfg].
          destruct (open_with_ok S simple_limits (simple_limits_ok F HF) F HF _ W i mx HR) as (pr & -> & Hpr); [|done|done|].
          { intros m. iIntros "((%L & _ & (%ba & %bc & Hr & _)) & _)". iDestruct "Hr" as "((%ii & Hi & %Hne) & _)".
            iExists ii. iFrame "Hi". done. }
          split; [|done]. apply IH. split; [|split; [done|split; [done|]]].
          -- split; [|exact Hcfg]. intros j q. simpl. destruct (decide (j = i)) as [->|Hne].
             ++ rewrite lookup_insert. by intros [= <-].
             ++ rewrite lookup_insert_ne //. apply Hok.
          -- exists xs, J, K. split; [done|]. by apply (file_holds_same _ W).
        * split; [|done]. destruct Hok as [Hok Hcfg]. apply IH. split; [|split; [done|split; [done|]]].
          -- split; [|exact Hcfg]. intros j q. simpl. rewrite lookup_delete_Some. intros [_ Hj]. by eapply Hok.
          -- exists xs, J, K. split; [done|]. by apply (file_holds_same _ W).
      + eapply sgame_mono; [..|exact (sgame_inv S simple_limits (simple_limits_ok F HF) F HF [ev] _ HI)]; [done|].
        intros st ob st' Hst Hct HI'. split; [by apply Hct0|]. by apply IH.
    - destruct d; [done|]. unfold CInv in HI; cbn [c_dirty c_g] in HI.
      destruct HI as (Hok & Hbo & xs & J & K & Ho & Ht & HR). cbn [g_w g_objs g_base g_tidy] in *. subst objs.
      intros W' Hd. destruct (event_only_reads ev) eqn:Er.
      + destruct ev as [| | |i o x| | |]; try discriminate Er. cbn [event_only_reads] in Er.
        destruct Hd as (v & pr & _ & _ & _ & _ & _ & Hd).
        apply (dies_quiet _ _ _ _ HR) in Hd as (Hf & Hok' & Hl & _); [|apply Hok|].
        2:{ apply q_reads; [intros; apply q_sa_block_size|done|]. intros y ->. by apply q_tree_reads. }
        apply IH. split; [split; [done|cbn [g_w]; rewrite Hl; apply Hok]|]. split; [done|]. by exists xs, J, K.
      + assert (∀ xs' J' K' bo', wok S W' → file_holds (pool_dirty xs' J' K' bo') W' → DInv (GS W' (objs_map xs') bo' false)) as HD.
        { intros xs' J' K' bo' Hok' Hf. split; [done|]. split; [by destruct (dirty_facts _ _ _ _ _ Hf)|]. split; [done|]. by exists xs', J', K'. }
        assert (∀ objs' bo', DInv (GS W' objs' bo' false) → crash_effect (objs_map xs) bo ev W' objs' bo' →
          ∃ objs' bo', crash_effect (objs_map xs) bo ev W' objs' bo' ∧ cgame F ct evs (CS (GS W' objs' bo' false) true)) as HN.
        { intros objs' bo' H1 H2. exists objs', bo'. split; [done|]. by apply IH. }
        destruct ev as [i k|i k|i w|i o x|i o| |]; try done; cbn [dies_during] in Hd.
        * destruct Hd as [Hk Hd]. destruct (crash_create _ _ _ _ _ _ _ _ _ _ HR Hok Hk Hd) as (Hok' & K' & Hf).
          eapply HN; [by eapply HD|]. done.
        * destruct Hd as (Hk & p & Hp & Hd).
          destruct (crash_open_base _ _ _ _ _ _ _ _ _ _ _ HR Hok Hk Hbo Hp Hd) as (Hok' & [(K' & Hf)|(-> & H)]).
          { eapply HN; [by eapply HD|]. by left. }
          assert (k = KQueue ∨ k ≠ KQueue) as [->|Hnq] by (destruct k; by [left|right]).
          { destruct H as (bo' & K' & Hf). eapply HN; [by eapply HD|]. right. done. }
          assert (∃ o v B K', is_new k v ∧ file_holds (pool_dirty ((o, v, B) :: xs) J K' o) W') as (o & v & B & K' & Hn & Hf).
          { by destruct k. }
          eapply HN; [by eapply HD|]. right. split; [done|].
          destruct (dirty_facts _ _ _ _ _ Hf) as [_ Hnd]. destruct (objs_map_mid [] o v B xs Hnd) as [Hno Hins].
          cbn [app] in Hno, Hins. assert (new_value k W' o = v) as Hv by (destruct k; by simpl in Hn; subst).
          rewrite (Hins v B) Hv. by destruct k.
        * destruct Hd as [Hw Hd]. destruct (crash_set_base _ _ _ _ _ _ _ _ _ _ HR Hok Hw Hd) as (Hok' & bo' & K' & Hb & Hf).
          eapply HN; [by eapply HD|]. done.
        * destruct Hd as (v & pr & Hv & Hi & Hid & Hse & Hst & Hd). cbn [event_only_reads] in Er.
          destruct (objs_split S simple_limits (simple_limits_ok F HF) F HF _ _ _ _ _ _ _ HR Hv) as (xs1 & B & xs2 & -> & Hnd).
          destruct (objs_map_mid _ _ _ _ _ Hnd) as [Hno Hins].
          assert (crash_value v x None → ∃ objs' bo', crash_effect (objs_map (xs1 ++ (o, v, B) :: xs2)) bo (GOp i o x) W' objs' bo' ∧ cgame F ct evs (CS (GS W' objs' bo' false) true)) as Hlost.
          { intros Hcv. destruct (crash_op F HF _ _ _ _ _ _ _ _ _ i x W' HR Hok Hid Hse) as (Hok' & K' & Hf); [|done|].
            - intros pr' Hi'. simplify_eq. exact Hst.
            - eapply HN; [by eapply HD|]. split; [done|]. exists v, None. split; [done|]. split; [done|].
              rewrite (Hins v B). by rewrite delete_insert. }
          destruct v as [l|l|b|t|t ok]; [apply Hlost; constructor|apply Hlost; constructor| |apply Hlost; constructor|].
          -- destruct x as [| | | | | | | | |k d| | | | | | | | | | | |]; try done.
             assert (0 <= k /\ k + dlen d <= dlen b) as [H1 H2].
             { cbn [ideal] in Hid. case_bool_decide; done. }
             destruct (crash_write F HF _ _ _ k d _ _ _ _ _ _ i W' HR Hok H1 H2) as (Hok' & b' & K' & [Hl Hke] & Hf); [apply Hse|done|].
             eapply HN; [by eapply HD|]. split; [done|]. exists (VBlob b), (Some (VBlob b')). split; [done|]. split; [by constructor|].
             rewrite (Hins (VBlob b) B) (Hins (VBlob b') B). by rewrite insert_insert.
          -- destruct x as [| | | | | | | | | | | | | | | | | | | | |y]; try done.
             destruct (crash_handled_dec t y) as [Hch|Hch]; [|apply Hlost; by constructor].
             destruct (step_crash _ _ _ _ _ _ _ _ _ _ _ _ _ _ _ HR Hok Er Hse Hch Hd) as (Hok' & t' & B' & K' & Hl & HR').
             eapply HN; [by eapply HD|]. split; [done|]. exists (VTree t ok), (Some (VTree t' false)). split; [done|]. split; [by constructor|].
             rewrite (Hins (VTree t ok) B) (Hins (VTree t' false) B'). by rewrite insert_insert.
        * destruct Hd as (b & Hv & Hd).
          destruct (objs_split S simple_limits (simple_limits_ok F HF) F HF _ _ _ _ _ _ _ HR Hv) as (xs1 & B & xs2 & -> & Hnd).
          destruct (objs_map_mid _ _ _ _ _ Hnd) as [Hno Hins].
          destruct (crash_free_blob F HF _ _ _ _ _ _ _ _ _ i W' HR Hok Hd) as (Hok' & K' & Hf).
          eapply HN; [by eapply HD|]. split; [|done]. rewrite (Hins (VBlob b) B). by rewrite delete_insert.
    - destruct d; [|done]. unfold CInv in HI; cbn [c_dirty c_g] in HI.
      destruct HI as (Hok & Hbo & Ht & xs & J & K & Ho & HR). cbn [g_w g_objs g_base g_tidy] in *. subst objs tidy.
      destruct (w_procs W !! j) as [pr|] eqn:Hj; [|done].
      destruct (step_takeover _ _ _ _ _ _ _ _ _ HR Hok Hj) as [H _].
      destruct (run_by W j _) as [[] W'|e W'| |] eqn:Erun; try done. destruct H as [Hok' HR'].
      split; [by eapply takeover_same|].
      apply IH. split; [done|]. split; [done|]. by exists xs, J, K.
    - destruct d; [|done]. unfold CInv in HI; cbn [c_dirty c_g] in HI.
      destruct HI as (Hok & Hbo & Ht & xs & J & K & Ho & HR). cbn [g_w g_objs g_base g_tidy] in *. subst objs tidy.
      intros W' Hd. assert (is_Some (w_procs W !! j)) as [pr Hj].
      { destruct Hd as (pr & s & Hj & _). by exists pr. }
      destruct (step_takeover _ _ _ _ _ _ _ _ _ HR Hok Hj) as [_ H]. apply H in Hd as [Hok' HR'].
      apply IH. split; [done|]. split; [done|]. split; [done|]. by exists xs, J, K.
  Qed.
End game.
End hash_function.
