(** * A separation logic over byte heaps.

    [hProp] is the type of predicates over finite heaps ([gmap Z Z]) that are
    closed under heap extension; it is an affine BI, so that the Iris proof mode
    can be used.  Nothing here is axiomatised: this is a shallow definition in
    Coq's logic. *)
From iris.bi Require Export bi.
From iris.proofmode Require Export tactics.
From stdpp Require Export gmap fin_maps.
From Coq Require Import ZArith.
From iris.prelude Require Import options.

Notation heap := (gmap Z Z).

Record hProp := HProp {
  hp_car :> heap → Prop;
  hp_mono : ∀ h h', h ⊆ h' → hp_car h → hp_car h'
}.
Global Arguments HProp _%type _.

Inductive hProp_equiv' (P Q : hProp) : Prop :=
  { hProp_in_equiv : ∀ h, P h ↔ Q h }.

Section ofe.
  Local Instance hProp_equiv : Equiv hProp := hProp_equiv'.
  Definition hProp_equivalence : Equivalence (≡@{hProp}).
  Proof.
    split.
    - intros P. by split.
    - intros P Q [H]. split. intros h. by symmetry.
    - intros P Q R [H] [H0]. split. intros h. etrans; [apply H|apply H0].
  Qed.
  Local Existing Instance hProp_equivalence.
  Canonical Structure hPropO := discreteO hProp.
End ofe.

Inductive hProp_entails (P Q : hProp) : Prop :=
  { hProp_in_entails : ∀ h, P h → Q h }.

Local Program Definition hProp_emp_def : hProp := HProp (λ h, True) _.
Next Obligation. done. Qed.
Local Definition hProp_emp_aux : seal (@hProp_emp_def). Proof. by eexists. Qed.
Definition hProp_emp := unseal hProp_emp_aux.
Local Definition hProp_emp_unseal : @hProp_emp = @hProp_emp_def := seal_eq hProp_emp_aux.

Local Program Definition hProp_pure_def (φ : Prop) : hProp := HProp (λ h, φ) _.
Next Obligation. done. Qed.
Local Definition hProp_pure_aux : seal (@hProp_pure_def). Proof. by eexists. Qed.
Definition hProp_pure := unseal hProp_pure_aux.
Local Definition hProp_pure_unseal : @hProp_pure = @hProp_pure_def := seal_eq hProp_pure_aux.

Local Program Definition hProp_and_def (P Q : hProp) : hProp := HProp (λ h, P h ∧ Q h) _.
Next Obligation. intros P Q h h' Hs [? ?]. split; by eapply hp_mono. Qed.
Local Definition hProp_and_aux : seal (@hProp_and_def). Proof. by eexists. Qed.
Definition hProp_and := unseal hProp_and_aux.
Local Definition hProp_and_unseal : @hProp_and = @hProp_and_def := seal_eq hProp_and_aux.

Local Program Definition hProp_or_def (P Q : hProp) : hProp := HProp (λ h, P h ∨ Q h) _.
Next Obligation. intros P Q h h' Hs [?|?]; [left|right]; by eapply hp_mono. Qed.
Local Definition hProp_or_aux : seal (@hProp_or_def). Proof. by eexists. Qed.
Definition hProp_or := unseal hProp_or_aux.
Local Definition hProp_or_unseal : @hProp_or = @hProp_or_def := seal_eq hProp_or_aux.

Local Program Definition hProp_impl_def (P Q : hProp) : hProp :=
  HProp (λ h, ∀ h', h ⊆ h' → P h' → Q h') _.
Next Obligation. intros P Q h h' Hs H h'' Hs' HP. apply H; [by etrans|done]. Qed.
Local Definition hProp_impl_aux : seal (@hProp_impl_def). Proof. by eexists. Qed.
Definition hProp_impl := unseal hProp_impl_aux.
Local Definition hProp_impl_unseal : @hProp_impl = @hProp_impl_def := seal_eq hProp_impl_aux.

Local Program Definition hProp_forall_def {A} (Ψ : A → hProp) : hProp :=
  HProp (λ h, ∀ a, Ψ a h) _.
Next Obligation. intros A Ψ h h' Hs H a. eapply hp_mono; [done|apply H]. Qed.
Local Definition hProp_forall_aux : seal (@hProp_forall_def). Proof. by eexists. Qed.
Definition hProp_forall {A} := unseal hProp_forall_aux A.
Local Definition hProp_forall_unseal : @hProp_forall = @hProp_forall_def := seal_eq hProp_forall_aux.

Local Program Definition hProp_exist_def {A} (Ψ : A → hProp) : hProp :=
  HProp (λ h, ∃ a, Ψ a h) _.
Next Obligation. intros A Ψ h h' Hs [a H]. exists a. by eapply hp_mono. Qed.
Local Definition hProp_exist_aux : seal (@hProp_exist_def). Proof. by eexists. Qed.
Definition hProp_exist {A} := unseal hProp_exist_aux A.
Local Definition hProp_exist_unseal : @hProp_exist = @hProp_exist_def := seal_eq hProp_exist_aux.

Local Program Definition hProp_sep_def (P Q : hProp) : hProp :=
  HProp (λ h, ∃ h1 h2, h1 ##ₘ h2 ∧ h = h1 ∪ h2 ∧ P h1 ∧ Q h2) _.
Next Obligation.
  intros P Q h h' Hs (h1 & h2 & Hd & -> & HP & HQ).
  exists h1, (h' ∖ h1). split_and!.
  - apply map_disjoint_difference_r.
    etrans; [|exact Hs]. apply map_union_subseteq_l.
  - symmetry. apply map_difference_union.
    etrans; [|exact Hs]. apply map_union_subseteq_l.
  - done.
  - eapply hp_mono; [|exact HQ].
    apply map_subseteq_spec. intros i x Hi. apply lookup_difference_Some. split.
    + eapply lookup_weaken; [|exact Hs]. rewrite lookup_union_r; [done|].
      by eapply map_disjoint_Some_r.
    + by eapply map_disjoint_Some_r.
Qed.
Local Definition hProp_sep_aux : seal (@hProp_sep_def). Proof. by eexists. Qed.
Definition hProp_sep := unseal hProp_sep_aux.
Local Definition hProp_sep_unseal : @hProp_sep = @hProp_sep_def := seal_eq hProp_sep_aux.

Local Program Definition hProp_wand_def (P Q : hProp) : hProp :=
  HProp (λ h, ∀ h', h ##ₘ h' → P h' → Q (h ∪ h')) _.
Next Obligation.
  intros P Q h h' Hs H h'' Hd HP.
  eapply hp_mono; [|apply (H h''); [|done]].
  - apply map_union_mono_r; [|done]. done.
  - eapply map_disjoint_weaken_l; done.
Qed.
Local Definition hProp_wand_aux : seal (@hProp_wand_def). Proof. by eexists. Qed.
Definition hProp_wand := unseal hProp_wand_aux.
Local Definition hProp_wand_unseal : @hProp_wand = @hProp_wand_def := seal_eq hProp_wand_aux.

Local Program Definition hProp_persistently_def (P : hProp) : hProp := HProp (λ h, P ∅) _.
Next Obligation. done. Qed.
Local Definition hProp_persistently_aux : seal (@hProp_persistently_def). Proof. by eexists. Qed.
Definition hProp_persistently := unseal hProp_persistently_aux.
Local Definition hProp_persistently_unseal :
  @hProp_persistently = @hProp_persistently_def := seal_eq hProp_persistently_aux.

Local Definition hProp_unseal :=
  (@hProp_emp_unseal, @hProp_pure_unseal, @hProp_and_unseal, @hProp_or_unseal,
   @hProp_impl_unseal, @hProp_forall_unseal, @hProp_exist_unseal, @hProp_sep_unseal,
   @hProp_wand_unseal, @hProp_persistently_unseal).
Ltac hProp_unseal := rewrite !hProp_unseal /=.

Section mixins.
  Local Existing Instance hProp_equivalence.

  Lemma hProp_bi_mixin :
    BiMixin
      hProp_entails hProp_emp hProp_pure hProp_and hProp_or
      hProp_impl (@hProp_forall) (@hProp_exist)
      hProp_sep hProp_wand hProp_persistently.
  Proof.
    split.
    - split.
      + intros P. by split.
      + intros P Q R [H1] [H2]. split. by intros h ?%H1%H2.
    - intros P Q. split.
      + intros [HPQ]. split; split=> h; apply HPQ.
      + intros [[HPQ] [HQP]]. split=> h. split; [apply HPQ|apply HQP].
    - hProp_unseal. intros n φ1 φ2 Hφ. split=> h. done.
    - hProp_unseal. intros n P1 P2 [HP] Q1 Q2 [HQ]. split=> h. split; intros [? ?]; split; first [by apply HP|by apply HQ].
    - hProp_unseal. intros n P1 P2 [HP] Q1 Q2 [HQ]. split=> h. split; intros [?|?]; first [left; by apply HP|right; by apply HQ].
    - hProp_unseal. intros n P1 P2 [HP] Q1 Q2 [HQ]. split=> h. split; intros H h' Hs HP'; apply HQ; apply H; try done; by apply HP.
    - hProp_unseal. intros A n Φ1 Φ2 HΦ. split=> h. split; intros H a; apply HΦ, H.
    - hProp_unseal. intros A n Φ1 Φ2 HΦ. split=> h. split; intros [a H]; exists a; apply HΦ, H.
    - hProp_unseal. intros n P1 P2 [HP] Q1 Q2 [HQ]. split=> h.
      split; intros (h1&h2&?&?&?&?); exists h1, h2; split_and!; try done; first [by apply HP|by apply HQ].
    - hProp_unseal. intros n P1 P2 [HP] Q1 Q2 [HQ]. split=> h.
      split; intros H h' Hd HP'; apply HQ, H; try done; by apply HP.
    - hProp_unseal. intros n P1 P2 [HP]. split=> h. split; intros H; by apply HP.
    - hProp_unseal. intros φ P ?. by split.
    - hProp_unseal. intros φ P HP. split=> h ?. by apply HP.
    - hProp_unseal. intros P Q. split. by intros h [??].
    - hProp_unseal. intros P Q. split. by intros h [??].
    - hProp_unseal. intros P Q R [H1] [H2]. split. intros h ?; split; auto.
    - hProp_unseal. intros P Q. split. by left.
    - hProp_unseal. intros P Q. split. by right.
    - hProp_unseal. intros P Q R [H1] [H2]. split. intros h [?|?]; auto.
    - hProp_unseal. intros P Q R [H]. split. intros h HP h' Hs HQ. apply H. split; [|done].
      by eapply hp_mono.
    - hProp_unseal. intros P Q R [H]. split. intros h [HP HQ]. by apply (H h HP h).
    - hProp_unseal. intros A P Ψ H. split. intros h HP a. by apply H.
    - hProp_unseal. intros A Ψ a. split. intros h H. apply H.
    - hProp_unseal. intros A Ψ a. split. intros h H. by exists a.
    - hProp_unseal. intros A Φ Q H. split. intros h [a HΦ]. by eapply H.
    - hProp_unseal. intros P P' Q Q' [H1] [H2]. split.
      intros h (h1&h2&?&?&?&?). exists h1, h2. split_and!; auto.
    - hProp_unseal. intros P. split. intros h HP. exists ∅, h.
      split_and!; [apply map_disjoint_empty_l|by rewrite left_id_L|done|done].
    - hProp_unseal. intros P. split. intros h (h1&h2&Hd&->&_&HP).
      eapply hp_mono; [|exact HP]. by apply map_union_subseteq_r.
    - hProp_unseal. intros P Q. split. intros h (h1&h2&Hd&->&HP&HQ).
      exists h2, h1. split_and!; [done|by apply map_union_comm|done|done].
    - hProp_unseal. intros P Q R. split. intros h (h12&h3&Hd&->&(h1&h2&Hd'&->&HP&HQ)&HR).
      apply map_disjoint_union_l in Hd as [Hd1 Hd2].
      exists h1, (h2 ∪ h3). split_and!; [| |done|].
      + by apply map_disjoint_union_r.
      + by rewrite assoc_L.
      + exists h2, h3. done.
    - hProp_unseal. intros P Q R [H]. split. intros h HP h' Hd HQ. apply H.
      exists h, h'. done.
    - hProp_unseal. intros P Q R [H]. split. intros h (h1&h2&Hd&->&HP&HQ). by apply H.
    - hProp_unseal. intros P Q [H]. split. intros h HP. by apply H.
    - hProp_unseal. intros P. split. done.
    - hProp_unseal. split. done.
    - hProp_unseal. intros P Q. split. done.
    - hProp_unseal. intros A Ψ. split. done.
    - hProp_unseal. intros P Q. split. by intros h (h1&h2&?&?&?&?).
    - hProp_unseal. intros P Q. split. intros h [HP HQ]. exists ∅, h.
      split_and!; [apply map_disjoint_empty_l|by rewrite left_id_L|done|done].
  Qed.

  Lemma hProp_bi_later_mixin :
    BiLaterMixin
      hProp_entails hProp_pure hProp_or hProp_impl
      (@hProp_forall) (@hProp_exist) hProp_sep hProp_persistently id.
  Proof. eapply bi_later_mixin_id; [done|apply hProp_bi_mixin]. Qed.
End mixins.

Canonical Structure hPropI : bi :=
  {| bi_ofe_mixin := ofe_mixin_of hProp;
     bi_bi_mixin := hProp_bi_mixin; bi_bi_later_mixin := hProp_bi_later_mixin |}.

Global Instance hProp_pure_forall : BiPureForall hPropI.
Proof.
  intros A φ. rewrite /bi_forall /bi_pure /=. split.
  hProp_unseal. done.
Qed.

Global Instance hProp_affine : BiAffine hPropI | 0.
Proof. intros P. rewrite /Affine. split. unfold bi_emp; simpl. hProp_unseal. done. Qed.

(** ** Reading the connectives in the model *)
Lemma hp_entails (P Q : hPropI) : (P ⊢ Q) ↔ (∀ h, P h → Q h).
Proof. split; [intros [H]; exact H|intros H; constructor; exact H]. Qed.
Lemma hp_sep (P Q : hPropI) h :
  (P ∗ Q)%I h ↔ ∃ h1 h2, h1 ##ₘ h2 ∧ h = h1 ∪ h2 ∧ P h1 ∧ Q h2.
Proof. rewrite /bi_sep /=. hProp_unseal. done. Qed.
Lemma hp_pure φ h : (⌜φ⌝ : hPropI)%I h ↔ φ.
Proof. rewrite /bi_pure /=. hProp_unseal. done. Qed.
Lemma hp_exist {A} (Φ : A → hPropI) h : (∃ x, Φ x)%I h ↔ ∃ x, Φ x h.
Proof. rewrite /bi_exist /=. hProp_unseal. done. Qed.
Lemma hp_and (P Q : hPropI) h : (P ∧ Q)%I h ↔ P h ∧ Q h.
Proof. rewrite /bi_and /=. hProp_unseal. done. Qed.
Lemma hp_or (P Q : hPropI) h : (P ∨ Q)%I h ↔ P h ∨ Q h.
Proof. rewrite /bi_or /=. hProp_unseal. done. Qed.
Lemma hp_wand (P Q : hPropI) h :
  (P -∗ Q)%I h ↔ ∀ h', h ##ₘ h' → P h' → Q (h ∪ h').
Proof. rewrite /bi_wand /=. hProp_unseal. done. Qed.

(** A single cell. *)
Program Definition cell_def (a v : Z) : hProp := HProp (λ h, h !! a = Some v) _.
Next Obligation. simpl. intros a v h h' Hs H. eapply lookup_weaken; [exact H|exact Hs]. Qed.
Definition cell_aux : seal (@cell_def). Proof. by eexists. Qed.
Definition cell (a v : Z) : hPropI := unseal cell_aux a v.
Lemma hp_cell a v h : cell a v h ↔ h !! a = Some v.
Proof. unfold cell. rewrite (seal_eq cell_aux). done. Qed.


Lemma cell_excl a v w : cell a v -∗ cell a w -∗ False.
Proof.
  apply bi.wand_intro_r. apply hp_entails. intros h Hh.
  apply hp_sep in Hh as (h1&h2&Hd&->&H1&H2).
  apply hp_cell in H1. apply hp_cell in H2. apply hp_pure.
  by eapply (map_disjoint_spec h1 h2).
Qed.
