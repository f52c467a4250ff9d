(** * Crash conditions.

    [crash C p]: in every state in which the process may die during [p], [C] holds (and
    [p] has no undefined behaviour).  The functional part of [wpc] can be taken from
    [wp]; the rules below supply the crash part for phases of a program that do not
    write, that write only to a part of the pool that nothing else refers to yet, or
    that write one word. *)
From Verif Require Export StructLib.
From iris.proofmode Require Import tactics.
From iris.prelude Require Import options.
Open Scope Z_scope.
Open Scope prog_scope.

Notation crash C p := (wpc C p (λ _, True%I) (λ _, True%I)).

(** The functional and the crash part can be proved separately. *)
Lemma wpc_split {A} C (p : prog A) Φ Ψ : crash C p ∧ wp p Φ Ψ ⊢ wpc C p Φ Ψ.
Proof.
  apply hp_entails. intros h Hh. apply hp_and in Hh as [H1 H2]. rewrite hp_wpc in H1. rewrite hp_wpc in H2.
  apply hp_wpc. intros hf s Hd Hr. split; [apply (H2 hf s Hd Hr)|apply (H1 hf s Hd Hr)].
Qed.
Lemma crash_seq {A B} C (p : prog A) (K : A → prog B) :
  crash C p ∧ wp p (λ a, crash C (K a)) (λ _, True%I) ⊢ crash C (y <- p ;; K y).
Proof. iIntros "H". iApply wpc_bind. by iApply wpc_split. Qed.
Lemma crash_ret {A} C (a : A) : C ⊢ crash C (Ret a).
Proof. iIntros "H". iApply wpc_ret. by iSplit. Qed.
Lemma crash_throw {A} C e : C ⊢ crash C (Throw (A:=A) e).
Proof. iIntros "H". iApply wpc_throw. by iSplit. Qed.

(** ** Programs that do not write *)
Definition looks (e : eff) : Prop := match e with ELoad _ _ | EMapped | EEpoch | EMaxSize | EFsize => True | _ => False end.
Inductive quiet {A} : prog A → Prop :=
  | q_ret a : quiet (Ret a)
  | q_throw e : quiet (Throw e)
  | q_undef : quiet Undef
  | q_fuel : quiet NoFuel
  | q_op e k : looks e → (∀ v, quiet (k v)) → quiet (Op e k).
Lemma exec_looks e s v s' : looks e → exec e s = Some (v, s') → s' = s.
Proof. destruct e; intros Hr; try done; simpl; try (case_match); intros; simplify_eq; done. Qed.
Lemma q_bind {A B} (p : prog A) (k : A → prog B) : quiet p → (∀ a, quiet (k a)) → quiet (bind p k).
Proof.
  intros Hp Hk. induction Hp; cbn [bind]; [apply Hk|by constructor..|]. constructor; auto.
Qed.
Lemma q_load n a : quiet (load n a).
Proof. constructor; [done|]. intros. constructor. Qed.
Lemma q_load_bytes a n : quiet (load_bytes a n).
Proof.
  revert a. induction n as [|n IH]; intros a; [constructor|]. cbn [load_bytes]. apply q_bind; [apply q_load|].
  intros b. apply q_bind; [apply IH|]. intros. constructor.
Qed.
Lemma quiet_crash {A} (p : prog A) s s' : quiet p → crash_state p s s' → s' = s.
Proof.
  intros Hq. revert s. induction Hq as [| | | |e k He Hk IH]; intros s; try (intros [?|[]]; done).
  intros [?|H]; [done|]. destruct (exec e s) as [[v s1]|] eqn:E; [|done].
  apply exec_looks in E as ->; [|done]. by eapply IH.
Qed.
Lemma quiet_run {A} (p : prog A) s : quiet p →
  match run p s with Done _ s' | Exn _ s' => s' = s | _ => True end.
Proof.
  intros Hq. revert s. induction Hq as [| | | |e k He Hk IH]; intros s; try done.
  cbn [run]. destruct (exec e s) as [[v s1]|] eqn:E; [|done].
  apply exec_looks in E as ->; [|done]. apply IH.
Qed.
Lemma crash_quiet {A B} C (P : hPropI) (p : prog A) (Q : A → Prop) (K : A → prog B) :
  quiet p → (P ⊢ C) → (P ⊢ wp p (λ a, ⌜Q a⌝) (λ _, True)) →
  P -∗ (∀ a, ⌜Q a⌝ -∗ P -∗ crash C (K a)) -∗ crash C (y <- p ;; K y).
Proof.
  intros Hq HC Hp. iIntros "HP W". iApply wpc_bind. iCombine "HP W" as "H". iStopProof.
  apply hp_entails. intros h Hh. apply hp_sep in Hh as (h1 & h2 & Hd & -> & H1 & H2).
  apply hp_wpc. intros hf s Hdf Hr. apply map_disjoint_union_l in Hdf as [Hf1 Hf2]. split.
  - rewrite hp_entails in Hp. pose proof (Hp _ H1) as H. rewrite hp_wpc in H.
    destruct (H (h2 ∪ hf) s) as [Ho _]. { by apply map_disjoint_union_r. } { by rewrite assoc_L. }
    pose proof (quiet_run p s Hq) as Hs.
    destruct (run p s) as [a s'|e s'| |]; try done; subst s'; destruct Ho as (h' & _ & _ & HQ).
    + apply hp_pure in HQ. exists (h1 ∪ h2). split_and!; [by apply map_disjoint_union_l|done|].
      assert ((∀ a, ⌜Q a⌝ -∗ P -∗ crash C (K a))%I ⊢ P -∗ crash C (K a))%I as HH.
      { iIntros "W HP". by iApply "W". }
      rewrite hp_entails in HH. specialize (HH h2 H2). rewrite hp_wand in HH.
      rewrite (map_union_comm h1 h2); [|done]. by apply HH.
    + exists (h1 ∪ h2). split_and!; [by apply map_disjoint_union_l|done|]. by apply hp_pure.
  - intros s' Hc. apply quiet_crash in Hc as ->; [|done]. exists (h1 ∪ h2).
    split_and!; [by apply map_disjoint_union_l|done|]. rewrite hp_entails in HC.
    eapply hp_mono; [|by apply HC]. apply map_union_subseteq_l.
Qed.
Lemma crash_load64 {B} C (P : hPropI) a v (K : Z → prog B) :
  (P ⊢ C) → (P ⊢ word a v ∗ True) → P -∗ (P -∗ crash C (K v)) -∗ crash C (y <- load64 a ;; K y).
Proof.
  intros HC HP. iIntros "HP W". iApply (crash_quiet C P (load64 a) (λ x, x = v) with "HP"); [apply q_load|done| |].
  - rewrite HP. iIntros "[Wd _]". iApply bind_ret_r. iApply (wp_load64 with "Wd"). iIntros "_". by iApply wp_ret.
  - by iIntros (x ->).
Qed.
Lemma crash_load8 {B} C (P : hPropI) a v (K : Z → prog B) :
  (P ⊢ C) → (P ⊢ pts a [v] ∗ True) → P -∗ (P -∗ crash C (K v)) -∗ crash C (y <- load8 a ;; K y).
Proof.
  intros HC HP. iIntros "HP W". iApply (crash_quiet C P (load8 a) (λ x, x = v) with "HP"); [apply q_load|done| |].
  - rewrite HP. iIntros "[Wd _]". iDestruct (pts_bytes_ok with "Wd") as %Hb. unfold load8, load.
    iApply (wpc_load _ _ _ [v]); [done|done|]. iSplit; [done|]. iFrame "Wd". iIntros "_". iApply wp_ret.
    iPureIntro. simpl. lia.
  - by iIntros (x ->).
Qed.

(** ** One word *)
Lemma crash_store64 {B} C a v (K : unit → prog B) : is_u64 v →
  (∃ v0, word a v0 ∗ ((word a v0 -∗ C) ∧ (word a v -∗ crash C (K tt)))) -∗ crash C (y <- store64 a v ;; K y).
Proof.
  iIntros (Hv) "(%v0 & [Wd %Hv0] & W)". iApply wpc_store64; [done|]. iSplit.
  - iDestruct "W" as "[W _]". iApply "W". by iFrame.
  - iSplitL "Wd"; [by iFrame|]. iDestruct "W" as "[_ W]". done.
Qed.

(** ** Programs that write only to [a..b) *)
Inductive stores_in (a b : Z) {A} : prog A → Prop :=
  | si_ret x : stores_in a b (Ret x)
  | si_throw e : stores_in a b (Throw e)
  | si_undef : stores_in a b Undef
  | si_fuel : stores_in a b NoFuel
  | si_look e k : looks e → (∀ v, stores_in a b (k v)) → stores_in a b (Op e k)
  | si_store n x v k : a <= x → x + Z.of_nat n <= b → (∀ v, stores_in a b (k v)) → stores_in a b (Op (EStore n x v) k).
Lemma si_quiet a b {A} (p : prog A) : quiet p → stores_in a b p.
Proof. induction 1; by constructor. Qed.
Lemma si_bind a b {A B} (p : prog A) (k : A → prog B) :
  stores_in a b p → (∀ x, stores_in a b (k x)) → stores_in a b (bind p k).
Proof.
  intros Hp Hk. induction Hp; cbn [bind]; [apply Hk|by constructor..| |].
  - apply si_look; auto.
  - apply si_store; auto.
Qed.
Lemma si_store1 a b n x v : a <= x → x + Z.of_nat n <= b → stores_in a b (store n x v).
Proof. intros. constructor; [done|done|]. intros. constructor. Qed.
Lemma si_store_bytes a b bs : ∀ x, a <= x → x + Z.of_nat (length bs) <= b → stores_in a b (store_bytes x bs).
Proof.
  induction bs as [|y bs IH]; intros x Ha Hb; cbn [store_bytes length] in *; [constructor|].
  apply si_bind; [apply si_store1; [done|simpl; lia]|]. intros _. apply IH; lia.
Qed.

Record same_but (a b : Z) (s s' : pst) : Prop := SameBut {
  sb_fields : fsize s' = fsize s ∧ mapped s' = mapped s ∧ epoch s' = epoch s ∧ maxsz s' = maxsz s ∧ oslim s' = oslim s;
  sb_out : ∀ x, ¬ (a <= x < b) → bget s' x = bget s x;
  sb_byte : (∀ x, is_byte (bget s x)) → ∀ x, is_byte (bget s' x)
}.
Lemma same_but_refl a b s : same_but a b s s.
Proof. by split. Qed.
Lemma same_but_trans a b s1 s2 s3 : same_but a b s1 s2 → same_but a b s2 s3 → same_but a b s1 s3.
Proof.
  intros [(?&?&?&?&?) Ho1 Hb1] [(?&?&?&?&?) Ho2 Hb2]. split; [split_and!; congruence| |auto].
  intros x Hx. rewrite Ho2 // Ho1 //.
Qed.
Lemma stores_in_crash a b {A} (p : prog A) s s' : stores_in a b p → crash_state p s s' → same_but a b s s'.
Proof.
  intros Hq. revert s.
  induction Hq as [| | | |e k He Hk IH|n x v k Ha Hb Hk IH]; intros s; try (intros [->|[]]; apply same_but_refl).
  - intros [->|H]; [apply same_but_refl|]. destruct (exec e s) as [[v s1]|] eqn:E; [|done].
    apply exec_looks in E as ->; [|done]. by eapply IH.
  - intros [->|H]; [apply same_but_refl|]. cbn [exec] in H. destruct (valid s x n); [|done].
    eapply same_but_trans; [|by eapply IH]. split; [done| |].
    + intros y Hy. unfold bget. cbn [mem set_mem]. rewrite write_bytes_lookup le_bytes_length.
      rewrite decide_False; [done|lia].
    + intros Hok y. unfold bget. cbn [mem set_mem]. rewrite write_bytes_lookup. case_decide; [|apply Hok].
      destruct (le_bytes n v !! Z.to_nat (y - x)) as [z|] eqn:Ez; simpl; [|unfold is_byte; lia].
      pose proof (le_bytes_ok n v) as Hl. rewrite /bytes_ok Forall_lookup in Hl. by eapply Hl.
Qed.
Lemma same_but_repr a b h hf s s' bs :
  Z.of_nat (length bs) = b - a → pts a bs h → h ##ₘ hf → repr (h ∪ hf) s → same_but a b s s' →
  ∃ h', h' ##ₘ hf ∧ (∀ g, h ##ₘ g → h' ##ₘ g) ∧ repr (h' ∪ hf) s' ∧ raw a b h'.
Proof.
  intros Hl Hp Hd Hr [(Ef & Em & Ee & Ex & El) Hout Hbyte].
  set (bs' := read_bytes s' a (length bs)).
  set (nb := hp_of_bytes a bs').
  assert (length bs' = length bs) as Hl' by (unfold bs'; apply read_bytes_length).
  assert (∀ x, is_Some (nb !! x) → is_Some (h !! x) ∧ a <= x < b) as Hdom.
  { intros x [y Hx]. unfold nb in Hx. rewrite hp_of_bytes_lookup in Hx. case_decide; [|done].
    apply lookup_lt_Some in Hx. rewrite Hl' in Hx.
    destruct (lookup_lt_is_Some_2 bs (Z.to_nat (x - a))) as [w Hw]; [lia|].
    eapply hp_pts_lookup in Hp as (Hl1 & _); [|exact Hw].
    rewrite Z2Nat.id in Hl1; [|lia]. replace (a + (x - a)) with x in Hl1 by lia. split; [eauto|lia]. }
  assert (∀ g, h ##ₘ g → nb ∪ h ##ₘ g) as Hdisj.
  { intros g Hg. apply map_disjoint_union_l. split; [|done].
    apply map_disjoint_spec. intros x y z Hx Hz.
    destruct (Hdom x) as [[w Hw] _]; [eauto|]. by eapply (map_disjoint_spec h g). }
  exists (nb ∪ h). split_and!; [by apply Hdisj|exact Hdisj| |].
  - split.
    + rewrite Ef Em. apply (repr_mapped _ _ Hr).
    + apply Hbyte. apply (repr_byte _ _ Hr).
    + intros x. rewrite -assoc_L. destruct (nb !! x) as [y|] eqn:Ey.
      * erewrite lookup_union_Some_l; [|done]. destruct (Hdom x) as [[w Hw] Hx]; [eauto|].
        pose proof (repr_heap _ _ Hr x) as Hc. erewrite lookup_union_Some_l in Hc; [|done].
        unfold nb in Ey. rewrite hp_of_bytes_lookup decide_True in Ey; [|lia].
        unfold bs' in Ey. rewrite read_bytes_spec in Ey; [|lia]. rewrite Z2Nat.id in Ey; [|lia].
        replace (a + (x - a)) with x in Ey by lia.
        destruct (decide (0 <= x)) as [Hx0|Hx0].
        2:{ destruct (lookup_lt_is_Some_2 bs (Z.to_nat (x - a))) as [w' Hw']; [lia|].
            destruct (hp_pts_lookup _ _ _ Hp _ _ Hw') as (_ & Hpos & _). lia. }
        unfold scell in Hc |- *. rewrite decide_True // in Hc. rewrite decide_True // Em.
        case_decide; [|done]. done.
      * rewrite lookup_union_r; [|done]. rewrite (repr_heap _ _ Hr x).
        assert (¬ (a <= x < b)) as Hx.
        { intros Hx. unfold nb in Ey. rewrite hp_of_bytes_lookup decide_True in Ey; [|lia].
          apply lookup_ge_None in Ey. lia. }
        unfold scell. rewrite Em Ee Ex El Ef Hout //.
  - eapply hp_mono; [apply map_union_subseteq_l|]. unfold raw. apply hp_exist. exists bs'.
    apply hp_sep. exists ∅, nb. split_and!; [apply map_disjoint_empty_l|by rewrite left_id_L|apply hp_pure; lia|].
    destruct (decide (bs' = [])) as [E0|Hne].
    { rewrite E0. assert (True ⊢ emp : hPropI)%I as HH by auto. rewrite hp_entails in HH. apply HH, hp_pure. done. }
    apply hp_pts_of_bytes.
    + destruct bs as [|b0 bs0]; [by destruct bs'|]. destruct (hp_pts_lookup _ _ _ Hp 0%nat b0 ltac:(done)) as (_ & Hpos & _). lia.
    + unfold bytes_ok. apply Forall_lookup. intros i y Hy. unfold bs' in Hy.
      pose proof Hy as Hi. apply lookup_lt_Some in Hi. rewrite read_bytes_length in Hi.
      rewrite read_bytes_spec in Hy; [|done]. injection Hy as <-. apply Hbyte. apply (repr_byte _ _ Hr).
Qed.

Lemma crash_local {A B} C (D : hPropI) a b (p : prog A) (K : A → prog B) :
  stores_in a b p → (D ∗ raw a b ⊢ C) →
  D ∗ raw a b -∗ (D ∗ raw a b -∗ wp p (λ y, crash C (K y)) (λ _, True)) -∗ crash C (y <- p ;; K y).
Proof.
  intros Hs HC. iIntros "HP W". iApply wpc_bind. iCombine "HP W" as "H". iStopProof.
  apply hp_entails. intros h Hh.
  pose proof Hh as Hw. rewrite hp_sep in Hh. destruct Hh as (h0 & h3 & Hd03 & -> & H0 & H3).
  apply hp_sep in H0 as (h1 & h2 & Hd12 & -> & H1 & H2).
  apply hp_wpc. intros hf s Hdf Hr.
  assert (wp p (λ y, crash C (K y)) (λ _, True%I) ((h1 ∪ h2) ∪ h3)) as Hwp.
  { assert (((D ∗ raw a b) ∗ (D ∗ raw a b -∗ wp p (λ y, crash C (K y)) (λ _, True)))%I ⊢ wp p (λ y, crash C (K y)) (λ _, True%I))%I as HH.
    { iIntros "[HP W]". by iApply "W". }
    rewrite hp_entails in HH. by apply HH. }
  rewrite hp_wpc in Hwp. destruct (Hwp hf s Hdf Hr) as [Ho _]. split; [done|].
  intros s' Hc. apply (stores_in_crash _ _ _ _ _ Hs) in Hc.
  unfold raw in H2. apply hp_exist in H2 as [bs H2]. apply hp_sep in H2 as (h4 & h5 & Hd45 & -> & H4 & H5).
  apply hp_pure in H4. rewrite !map_disjoint_union_l in Hdf. destruct Hdf as ((Hf1 & Hf4 & Hf5) & Hf3).
  apply map_disjoint_union_r in Hd12 as [Hd14 Hd15]. rewrite !map_disjoint_union_l in Hd03. destruct Hd03 as (Hd13 & Hd43 & Hd53).
  assert (repr (h5 ∪ (h1 ∪ h4 ∪ h3 ∪ hf)) s) as Hr'.
  { assert (h5 ∪ (h1 ∪ h4 ∪ h3 ∪ hf) = h1 ∪ (h4 ∪ h5) ∪ h3 ∪ hf) as ->; [|done].
    rewrite (map_union_comm h4 h5); [|done]. rewrite (assoc_L _ h1 h5 h4) (map_union_comm h1 h5); [|done]. by rewrite !assoc_L. }
  assert (h5 ##ₘ h1 ∪ h4 ∪ h3 ∪ hf) as Hd5.
  { rewrite !map_disjoint_union_r. split_and!; [by symmetry|by symmetry|done|done]. }
  destruct (same_but_repr a b h5 (h1 ∪ h4 ∪ h3 ∪ hf) s s' bs H4 H5 Hd5 Hr' Hc) as (h' & Hd' & Hg & Hr2 & Hraw).
  exists (h1 ∪ h' ∪ (h4 ∪ h3)).
  rewrite !map_disjoint_union_r in Hd'. destruct Hd' as ((( ? & ?) & ?) & ?). split_and!.
  - rewrite !map_disjoint_union_l. done.
  - assert (h1 ∪ h' ∪ (h4 ∪ h3) ∪ hf = h' ∪ (h1 ∪ h4 ∪ h3 ∪ hf)) as ->; [|done].
    rewrite (map_union_comm h1 h'); [|by symmetry]. by rewrite !assoc_L.
  - rewrite hp_entails in HC. eapply hp_mono; [apply map_union_subseteq_l|]. apply HC. apply hp_sep.
    exists h1, h'. split_and!; [by symmetry|done|done|done].
Qed.
