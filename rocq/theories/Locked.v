(** * Keeping the allocator's part of the pool apart.

    In the logic of WP.v a program that owns the allocator's part of the pool may break
    it, as long as it repairs it before it ends; nothing is known about the moments in
    between.  Here the rules are instantiated with a second representation, in which that
    part is out of reach of loads and stores (it is owned at mirrored addresses), and in
    which a chosen invariant [I] of it holds at every moment.  What was proved about the
    data structures for any representation then says that a crash at any moment leaves
    [I], and leaves alone everything the operation does not own. *)
From Verif Require Export AllocCrash.
From iris.proofmode Require Import tactics.
From iris.prelude Require Import options.
Open Scope Z_scope.
Open Scope prog_scope.

Definition lk (x : Z) : Z := - x - 21.
Lemma lk_lk x : lk (lk x) = x.
Proof. unfold lk. lia. Qed.
Global Instance lk_inj : Inj (=) (=) lk.
Proof. intros x y. unfold lk. lia. Qed.

Definition nrm (h : heap) : heap := filter (λ kv, -10 <= kv.1) h.
Definition mir (h : heap) : heap := kmap lk h.
Definition lkd (h : heap) : heap := nrm (mir h).

Lemma nrm_lookup h x : nrm h !! x = if decide (-10 <= x) then h !! x else None.
Proof.
  unfold nrm. rewrite map_filter_lookup. destruct (h !! x) as [v|]; simpl; [|by case_decide].
  case_decide; [by rewrite option_guard_True|by rewrite option_guard_False].
Qed.
Lemma mir_lookup h x : mir h !! x = h !! lk x.
Proof. unfold mir. rewrite -{1}(lk_lk x). by rewrite lookup_kmap. Qed.
Lemma lkd_lookup h x : lkd h !! x = if decide (-10 <= x) then h !! lk x else None.
Proof. unfold lkd. rewrite nrm_lookup. by rewrite mir_lookup. Qed.

Lemma nrm_union h1 h2 : nrm (h1 ∪ h2) = nrm h1 ∪ nrm h2.
Proof.
  apply map_eq. intros x. rewrite lookup_union !nrm_lookup. case_decide; [|done]. by rewrite lookup_union.
Qed.
Lemma lkd_union h1 h2 : lkd (h1 ∪ h2) = lkd h1 ∪ lkd h2.
Proof.
  apply map_eq. intros x. rewrite lookup_union !lkd_lookup. case_decide; [|done]. by rewrite lookup_union.
Qed.
Lemma nrm_disj h1 h2 : h1 ##ₘ h2 → nrm h1 ##ₘ nrm h2.
Proof.
  rewrite !map_disjoint_spec. intros H x y z. rewrite !nrm_lookup. case_decide; [|done]. apply H.
Qed.
Lemma lkd_disj h1 h2 : h1 ##ₘ h2 → lkd h1 ##ₘ lkd h2.
Proof.
  rewrite !map_disjoint_spec. intros H x y z. rewrite !lkd_lookup. case_decide; [|done]. apply H.
Qed.
Lemma parts_disj h1 h2 : nrm h1 ##ₘ nrm h2 → lkd h1 ##ₘ lkd h2 → h1 ##ₘ h2.
Proof.
  rewrite !map_disjoint_spec. intros H1 H2 x y z Hx Hz. destruct (decide (-10 <= x)).
  - apply (H1 x y z); by rewrite nrm_lookup decide_True.
  - assert (-10 <= lk x) by (unfold lk; lia).
    apply (H2 (lk x) y z); by rewrite lkd_lookup decide_True // lk_lk.
Qed.
Lemma nrm_mono h1 h2 : h1 ⊆ h2 → nrm h1 ⊆ nrm h2.
Proof.
  rewrite !map_subseteq_spec. intros H x y. rewrite !nrm_lookup. case_decide; [|done]. apply H.
Qed.
Lemma lkd_mono h1 h2 : h1 ⊆ h2 → lkd h1 ⊆ lkd h2.
Proof.
  rewrite !map_subseteq_spec. intros H x y. rewrite !lkd_lookup. case_decide; [|done]. apply H.
Qed.

(** Heaps with real addresses only. *)
Definition real (h : heap) : Prop := ∀ x v, h !! x = Some v → -10 <= x.
Lemma real_nrm h : real h → nrm h = h.
Proof.
  intros H. apply map_eq. intros x. rewrite nrm_lookup. case_decide as Hx; [done|].
  destruct (h !! x) as [v|] eqn:E; [|done]. apply H in E. lia.
Qed.
Lemma real_lkd h : real h → lkd h = ∅.
Proof.
  intros H. apply map_eq. intros x. rewrite lkd_lookup lookup_empty. case_decide as Hx; [|done].
  destruct (h !! lk x) as [v|] eqn:E; [|done]. apply H in E. unfold lk in E. lia.
Qed.
Lemma mir_nrm h : real h → nrm (mir h) = ∅.
Proof.
  intros H. apply map_eq. intros x. rewrite nrm_lookup mir_lookup lookup_empty. case_decide as Hx; [|done].
  destruct (h !! lk x) as [v|] eqn:E; [|done]. apply H in E. unfold lk in E. lia.
Qed.
Lemma mir_lkd h : real h → lkd (mir h) = h.
Proof.
  intros H. apply map_eq. intros x. rewrite lkd_lookup mir_lookup lk_lk. case_decide as Hx; [done|].
  destruct (h !! x) as [v|] eqn:E; [|done]. apply H in E. lia.
Qed.
Lemma nrm_real h : real (nrm h).
Proof. intros x v. rewrite nrm_lookup. by case_decide. Qed.
Lemma repr_real h s : repr h s → real h.
Proof.
  intros Hr x v Hx. rewrite (repr_heap _ _ Hr) in Hx. unfold scell in Hx.
  repeat (case_decide; [unfold a_mapped, a_epoch, a_maxsz, a_oslim, a_fsize in *; lia|]). done.
Qed.
Lemma real_sub h h' : h ⊆ h' → real h' → real h.
Proof. rewrite map_subseteq_spec. intros Hs H x v Hx. apply (H x v), Hs, Hx. Qed.

Lemma union_swap (a b c d : heap) : b ##ₘ c → (a ∪ b) ∪ (c ∪ d) = (a ∪ c) ∪ (b ∪ d).
Proof. intros H. rewrite -!assoc_L. f_equal. rewrite !assoc_L. by rewrite (map_union_comm b c). Qed.

Definition lock_rep (I : hPropI) (h : heap) (s : pst) : Prop :=
  nrm h ##ₘ lkd h ∧ repr (nrm h ∪ lkd h) s ∧ I (lkd h).

(** Splitting the heap of the logic into a part and a frame. *)
Lemma lock_split (I : hPropI) h hf s : h ##ₘ hf → lock_rep I (h ∪ hf) s →
  nrm h ∪ lkd h ##ₘ nrm hf ∪ lkd hf ∧ nrm h ##ₘ lkd h ∧ nrm hf ##ₘ lkd hf ∧
  repr ((nrm h ∪ lkd h) ∪ (nrm hf ∪ lkd hf)) s.
Proof.
  intros Hd (Hn & Hr & _). rewrite !nrm_union !lkd_union in Hn, Hr.
  rewrite !map_disjoint_union_l !map_disjoint_union_r in Hn. destruct Hn as [[H1 H2] [H3 H4]].
  split_and!; [|done|done|].
  - rewrite !map_disjoint_union_l !map_disjoint_union_r. split_and!; [by apply nrm_disj|done|by symmetry|by apply lkd_disj].
  - rewrite union_swap; [done|]. by symmetry.
Qed.
Lemma lock_join (I : hPropI) hn hl hf s : real hn → real hl → hn ##ₘ hl → nrm hf ##ₘ lkd hf →
  hn ∪ hl ##ₘ nrm hf ∪ lkd hf → repr ((hn ∪ hl) ∪ (nrm hf ∪ lkd hf)) s → I hl →
  hn ∪ mir hl ##ₘ hf ∧ lock_rep I ((hn ∪ mir hl) ∪ hf) s ∧ hn ##ₘ mir hl ∧ lkd (mir hl) = hl.
Proof.
  intros Hrn Hrl Hd Hdf Hd2 Hr HI.
  assert (nrm (hn ∪ mir hl) = hn) as En. { rewrite nrm_union real_nrm // mir_nrm // right_id_L //. }
  assert (lkd (hn ∪ mir hl) = hl) as El. { rewrite lkd_union (real_lkd hn) // mir_lkd // left_id_L //. }
  rewrite !map_disjoint_union_l !map_disjoint_union_r in Hd2. destruct Hd2 as [[H1 H2] [H3 H4]].
  split_and!; [| | |by apply mir_lkd].
  - apply parts_disj; by rewrite ?En ?El.
  - split_and!.
    + rewrite nrm_union lkd_union En El. rewrite !map_disjoint_union_l !map_disjoint_union_r. split_and!; [done|done|by symmetry|done].
    + rewrite nrm_union lkd_union En El. rewrite union_swap; [done|by symmetry].
    + rewrite lkd_union El. eapply hp_mono; [|exact HI]. apply map_union_subseteq_l.
  - apply parts_disj.
    + rewrite (mir_nrm hl) //. apply map_disjoint_empty_r.
    + rewrite (real_lkd hn) //. apply map_disjoint_empty_l.
Qed.

Lemma pts_nrm a bs h : pts a bs h → pts a bs (nrm h).
Proof.
  rewrite !hp_pts. intros H i b Hi. destruct (H i b Hi) as (H1 & H2 & H3). split; [|done].
  rewrite nrm_lookup decide_True //. lia.
Qed.
Lemma raw_nrm a b h : raw a b h → raw a b (nrm h).
Proof.
  intros H. apply hp_exist in H as [bs H]. apply hp_exist. exists bs.
  apply hp_sep in H as (h1 & h2 & Hd & -> & H1 & H2). apply hp_pure in H1.
  apply hp_sep. exists ∅, (nrm (h1 ∪ h2)). split_and!; [apply map_disjoint_empty_l|by rewrite left_id_L|by apply hp_pure|].
  apply pts_nrm. eapply hp_mono; [|exact H2]. by apply map_union_subseteq_r.
Qed.

Section rep.
  Context (I : hPropI).
  Lemma lock_pts h hf s a bs : pts a bs h → h ##ₘ hf → lock_rep I (h ∪ hf) s → bs ≠ [] →
    0 <= a ∧ a + Z.of_nat (length bs) <= mapped s ∧ mapped s <= fsize s ∧
    read_bytes s a (length bs) = bs.
  Proof.
    intros Hp Hd Hr Hne. destruct (lock_split _ _ _ _ Hd Hr) as (Hd1 & Hd2 & Hd3 & Hr').
    eapply (repr_pts_law (nrm h ∪ lkd h)); [|exact Hd1|exact Hr'|done].
    eapply hp_mono; [|apply pts_nrm, Hp]. apply map_union_subseteq_l.
  Qed.
  Lemma lock_store h hf s a bs v : pts a bs h → h ##ₘ hf → lock_rep I (h ∪ hf) s → bs ≠ [] →
    lock_rep I ((hp_of_bytes a (le_bytes (length bs) v) ∪ h) ∪ hf)
       (set_mem s (write_bytes (mem s) a (le_bytes (length bs) v))).
  Proof.
    intros Hp Hd Hr Hne. destruct (lock_split _ _ _ _ Hd Hr) as (Hd1 & Hd2 & Hd3 & Hr').
    assert (pts a bs (nrm h ∪ lkd h)) as Hp'.
    { eapply hp_mono; [|apply pts_nrm, Hp]. apply map_union_subseteq_l. }
    destruct (repr_pts_law _ _ _ _ _ Hp' Hd1 Hr' Hne) as (Ha & _).
    pose proof (repr_store _ _ _ _ _ v Hp' Hd1 Hr' Hne) as Hs.
    set (nb := hp_of_bytes a (le_bytes (length bs) v)) in *.
    assert (real nb) as Hnb.
    { intros x w Hx. unfold nb in Hx. rewrite hp_of_bytes_lookup in Hx. case_decide; [lia|done]. }
    destruct Hr as (Hn & Hr & HI). rewrite !nrm_union !lkd_union in Hn, Hr.
    assert (∀ x w, nb !! x = Some w → is_Some (nrm h !! x)) as Hdom.
    { intros x w Hx. unfold nb in Hx. rewrite hp_of_bytes_lookup in Hx. case_decide; [|done].
      apply lookup_lt_Some in Hx. rewrite le_bytes_length in Hx.
      destruct (lookup_lt_is_Some_2 bs (Z.to_nat (x - a))) as [y Hy]; [lia|].
      apply pts_nrm in Hp. rewrite hp_pts in Hp. destruct (Hp _ _ Hy) as (Hl & _).
      rewrite Z2Nat.id in Hl; [|lia]. replace (a + (x - a)) with x in Hl by lia. eauto. }
    split_and!.
    - rewrite !nrm_union !lkd_union (real_nrm nb) // (real_lkd nb) // left_id_L.
      rewrite -(assoc_L _ nb). apply map_disjoint_union_l. split; [|done].
      apply map_disjoint_spec. intros x y z Hx Hz. destruct (Hdom _ _ Hx) as [w Hw].
      apply (proj1 (map_disjoint_spec _ _) Hn x w z); [|done]. by apply lookup_union_Some_l.
    - rewrite !nrm_union !lkd_union (real_nrm nb) // (real_lkd nb) // left_id_L.
      rewrite -(assoc_L _ nb). rewrite -(assoc_L _ nb). rewrite union_swap.
      { rewrite -(assoc_L _ nb) in Hs. exact Hs. }
      rewrite !map_disjoint_union_l !map_disjoint_union_r in Hn. tauto.
    - rewrite !lkd_union (real_lkd nb) // left_id_L -lkd_union. done.
  Qed.
  Definition locked_rep : Rep := {| rep := lock_rep I; rep_pts := lock_pts; rep_store := lock_store |}.

  Program Definition LK_def (P : hPropI) : hProp := HProp (λ h, P (lkd h)) _.
  Next Obligation. intros P h h' Hs H. eapply hp_mono; [|exact H]. by apply lkd_mono. Qed.
  Definition LK_aux : seal (@LK_def). Proof. by eexists. Qed.
  Definition LK (P : hPropI) : hPropI := unseal LK_aux P.
  Lemma hp_LK P h : LK P h ↔ P (lkd h).
  Proof. unfold LK. by rewrite (seal_eq LK_aux). Qed.

  Notation wpl p Φ Ψ := (wpc (RR := locked_rep) True%I p Φ Ψ).

  (** What is proved with crash condition [I] holds with the allocator's part apart. *)
  Lemma locked_lift {A} (P X : hPropI) (p : prog A) Q Y Q' Y' :
    (∀ h, X h → X (nrm h)) → (∀ a, Q a ⊢ I) → (∀ e, Q' e ⊢ I) →
    (P ∗ X ⊢ wpc (RR := base_rep) I p (λ a, Q a ∗ Y a) (λ e, Q' e ∗ Y' e)) →
    LK P ∗ X ⊢ wpl p (λ a, LK (Q a) ∗ Y a) (λ e, LK (Q' e) ∗ Y' e).
  Proof.
    intros HX HQ HQ' Hp. apply hp_entails. intros h Hh. apply hp_wpc. intros hf s Hd Hr.
    pose proof (lock_split _ _ _ _ Hd Hr) as (Hd1 & Hd2 & Hd3 & Hr').
    assert ((P ∗ X)%I (nrm h ∪ lkd h)) as HPX.
    { apply hp_sep in Hh as (h1 & h2 & Hd12 & -> & H1 & H2). apply hp_LK in H1. apply HX in H2.
      apply hp_sep. exists (lkd h1 ∪ (nrm h1 ∪ lkd h2)), (nrm h2).
      rewrite !nrm_union !lkd_union in Hd2 |- *. rewrite !map_disjoint_union_l !map_disjoint_union_r in Hd2.
      destruct Hd2 as [[H3 H4] [H5 H6]]. split_and!; [| |eapply hp_mono; [|exact H1]; apply map_union_subseteq_l|done].
      - rewrite !map_disjoint_union_l. split_and!; [by symmetry|by apply nrm_disj|by symmetry].
      - rewrite (map_union_comm (nrm h1) (nrm h2)); [|by apply nrm_disj].
        rewrite -assoc_L. rewrite (map_union_comm _ (nrm h2)).
        2:{ rewrite !map_disjoint_union_l. split_and!; [by symmetry|by apply nrm_disj|by symmetry]. }
        f_equal. rewrite assoc_L. rewrite (map_union_comm (nrm h1) (lkd h1)); [|done]. by rewrite assoc_L. }
    rewrite hp_entails in Hp. pose proof (Hp _ HPX) as H. rewrite hp_wpc in H.
    destruct (H _ s Hd1 Hr') as [Ho Hc]. split.
    - destruct (run p s) as [a s'|e s'| |]; try done.
      + destruct Ho as (h' & Hd' & Hr'' & HP). apply hp_sep in HP as (hq & hy & Hqy & -> & H1 & H2).
        pose proof (repr_real _ _ Hr'') as Hre.
        assert (real hq) as R1. { eapply real_sub; [|exact Hre]. rewrite -!assoc_L. apply map_union_subseteq_l. }
        assert (real hy) as R2. { eapply real_sub; [|exact Hre]. rewrite (map_union_comm hq hy) // -!assoc_L. apply map_union_subseteq_l. }
        destruct (lock_join I hy hq hf s') as (J1 & J2 & J3 & J4); try done.
        { by rewrite map_union_comm. } { by rewrite (map_union_comm hy hq). }
        { specialize (HQ a). rewrite hp_entails in HQ. by apply HQ. }
        exists (hy ∪ mir hq). split_and!; [done|done|]. apply hp_sep. exists (mir hq), hy.
        split_and!; [by symmetry|by rewrite map_union_comm| |done]. apply hp_LK. by rewrite J4.
      + destruct Ho as (h' & Hd' & Hr'' & HP). apply hp_sep in HP as (hq & hy & Hqy & -> & H1 & H2).
        pose proof (repr_real _ _ Hr'') as Hre.
        assert (real hq) as R1. { eapply real_sub; [|exact Hre]. rewrite -!assoc_L. apply map_union_subseteq_l. }
        assert (real hy) as R2. { eapply real_sub; [|exact Hre]. rewrite (map_union_comm hq hy) // -!assoc_L. apply map_union_subseteq_l. }
        destruct (lock_join I hy hq hf s') as (J1 & J2 & J3 & J4); try done.
        { by rewrite map_union_comm. } { by rewrite (map_union_comm hy hq). }
        { specialize (HQ' e). rewrite hp_entails in HQ'. by apply HQ'. }
        exists (hy ∪ mir hq). split_and!; [done|done|]. apply hp_sep. exists (mir hq), hy.
        split_and!; [by symmetry|by rewrite map_union_comm| |done]. apply hp_LK. by rewrite J4.
    - intros s' Hs'. destruct (Hc s' Hs') as (h' & Hd' & Hr'' & HP).
      assert (real h') as R1. { eapply real_sub; [|exact (repr_real _ _ Hr'')]. apply map_union_subseteq_l. }
      destruct (lock_join I ∅ h' hf s') as (J1 & J2 & J3 & J4); try done.
      { apply map_disjoint_empty_l. }
      { by rewrite left_id_L. } { by rewrite left_id_L. }
      exists (∅ ∪ mir h'). split_and!; [done|done|]. by apply hp_pure.
  Qed.

  (** What is proved with the allocator's part apart says what a crash leaves. *)
  Lemma locked_crash {A} (P V : hPropI) (p : prog A) Φ Ψ : (P ⊢ I) → (LK P ∗ V ⊢ wpl p Φ Ψ) →
    P ∗ V ⊢ crash I p.
  Proof.
    intros HI Hp. apply hp_entails. intros h Hh. apply hp_wpc. intros hf s Hd Hr.
    apply hp_sep in Hh as (h1 & h2 & Hd12 & -> & H1 & H2).
    pose proof (repr_real _ _ Hr) as Hre.
    assert (real h1) as R1. { eapply real_sub; [|exact Hre]. rewrite -!assoc_L. apply map_union_subseteq_l. }
    assert (real h2) as R2. { eapply real_sub; [|exact Hre]. rewrite (map_union_comm h1 h2) // -!assoc_L. apply map_union_subseteq_l. }
    assert (real hf) as Rf. { eapply real_sub; [|exact Hre]. by apply map_union_subseteq_r. }
    assert (nrm hf ∪ lkd hf = hf) as Ef. { rewrite real_nrm // real_lkd // right_id_L //. }
    assert (nrm hf ##ₘ lkd hf) as Df. { rewrite (real_lkd hf) //. apply map_disjoint_empty_r. }
    destruct (lock_join I h2 h1 hf s) as (J1 & J2 & J3 & J4); try done.
    { rewrite Ef. by rewrite map_union_comm. } { rewrite Ef. by rewrite (map_union_comm h2 h1). }
    { rewrite hp_entails in HI. by apply HI. }
    rewrite hp_entails in Hp. assert ((LK P ∗ V)%I (h2 ∪ mir h1)) as HPV.
    { apply hp_sep. exists (mir h1), h2. split_and!; [by symmetry|by rewrite map_union_comm| |done]. apply hp_LK. by rewrite J4. }
    pose proof (Hp _ HPV) as H. rewrite hp_wpc in H. destruct (H hf s J1 J2) as [Ho Hc].
    assert (∀ h' s', h' ##ₘ hf → lock_rep I (h' ∪ hf) s' → ∃ h0, h0 ##ₘ hf ∧ repr (h0 ∪ hf) s' ∧ I h0) as Hback.
    { intros h' s' Hd' Hr'. pose proof (lock_split _ _ _ _ Hd' Hr') as (Hd1 & Hd2 & _ & Hr''). rewrite Ef in Hd1, Hr''.
      exists (nrm h' ∪ lkd h'). split_and!; [done|done|]. destruct Hr' as (_ & _ & HH).
      rewrite lkd_union (real_lkd hf) // right_id_L in HH. eapply hp_mono; [|exact HH]. by apply map_union_subseteq_r. }
    split.
    - destruct (run p s) as [a s'|e s'| |]; try done; destruct Ho as (h' & Hd' & Hr' & _);
        destruct (Hback _ _ Hd' Hr') as (h0 & ? & ? & _); exists h0; (split_and!; [done|done|by apply hp_pure]).
    - intros s' Hs'. destruct (Hc s' Hs') as (h' & Hd' & Hr' & _). exact (Hback _ _ Hd' Hr').
  Qed.

  Lemma LK_sep P Q : LK P ∗ LK Q ⊣⊢ LK (P ∗ Q).
  Proof.
    apply bi.equiv_entails. split; apply hp_entails; intros h Hh.
    - apply hp_sep in Hh as (h1 & h2 & Hd & -> & H1 & H2). apply hp_LK. apply hp_LK in H1, H2.
      apply hp_sep. exists (lkd h1), (lkd h2). split_and!; [by apply lkd_disj|apply lkd_union|done|done].
    - apply hp_LK, hp_sep in Hh as (h1 & h2 & Hd & E & H1 & H2).
      assert (real (lkd h)) as Hr by apply nrm_real. rewrite E in Hr.
      assert (real h1) as R1. { eapply real_sub; [|exact Hr]. apply map_union_subseteq_l. }
      assert (real h2) as R2. { eapply real_sub; [|exact Hr]. by apply map_union_subseteq_r. }
      assert ((LK P ∗ LK Q)%I (mir h1 ∪ mir h2)) as H.
      { apply hp_sep. exists (mir h1), (mir h2). split_and!; [|done|apply hp_LK; by rewrite mir_lkd|apply hp_LK; by rewrite mir_lkd].
        apply map_disjoint_spec. intros x y z. rewrite !mir_lookup. by apply map_disjoint_spec. }
      eapply hp_mono; [|exact H]. apply map_subseteq_spec. intros x v.
      assert (mir h1 ∪ mir h2 = mir (lkd h)) as ->.
      { rewrite E. apply map_eq. intros y. by rewrite lookup_union !mir_lookup lookup_union. }
      rewrite mir_lookup lkd_lookup lk_lk. case_decide; done.
  Qed.
  Lemma LK_mono P Q : (P ⊢ Q) → LK P ⊢ LK Q.
  Proof. rewrite !hp_entails. intros H h. rewrite !hp_LK. apply H. Qed.
  Lemma LK_pure P φ : (P ⊢ ⌜φ⌝) → LK P ⊢ ⌜φ⌝.
  Proof. rewrite !hp_entails. intros H h. rewrite hp_LK. intros Hh. apply hp_pure. apply H in Hh. by apply hp_pure in Hh. Qed.
End rep.
