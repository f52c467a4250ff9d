(** * Weakest preconditions, defined from the operational semantics.

    [wpc C p Φ Ψ] : from the current heap, [p] neither exhibits undefined
    behaviour nor runs out of fuel; if it returns [a] then [Φ a] holds, if it
    throws [e] then [Ψ e] holds, and in every state in which the process may die
    during [p], [C] holds.  [wp] is [wpc] without crash condition. *)
From Verif Require Export Prog HeapProp.
From iris.proofmode Require Import tactics.
From iris.prelude Require Import options.
Open Scope Z_scope.

(** Pseudo addresses of the scalar parts of the pool state. *)
Definition a_mapped : Z := -1.
Definition a_epoch : Z := -2.
Definition a_maxsz : Z := -3.
Definition a_oslim : Z := -4.
Definition a_fsize : Z := -5.

Definition scell (s : pst) (a : Z) : option Z :=
  if decide (0 <= a) then (if decide (a < mapped s) then Some (bget s a) else None)
  else if decide (a = a_mapped) then Some (mapped s)
  else if decide (a = a_epoch) then Some (epoch s)
  else if decide (a = a_maxsz) then Some (maxsz s)
  else if decide (a = a_oslim) then Some (oslim s)
  else if decide (a = a_fsize) then Some (fsize s)
  else None.

Record repr (h : heap) (s : pst) : Prop := Repr {
  repr_mapped : 0 <= mapped s <= fsize s;
  repr_byte : ∀ a, is_byte (bget s a);
  repr_heap : ∀ a, h !! a = scell s a
}.

(** ** Byte and word points-to *)
Definition bcell (a b : Z) : hPropI := (cell a b ∗ ⌜0 <= a ∧ is_byte b⌝)%I.
Fixpoint pts (a : Z) (bs : list Z) : hPropI :=
  match bs with
  | [] => emp%I
  | b :: bs' => (bcell a b ∗ pts (a + 1) bs')%I
  end.
Definition word (a v : Z) : hPropI := (pts a (le_bytes 8 v) ∗ ⌜is_u64 v⌝)%I.
Definition raw (a b : Z) : hPropI :=
  (∃ bs, ⌜Z.of_nat (length bs) = b - a⌝ ∗ pts a bs)%I.

(** ** Points-to facts *)
Lemma hp_pts_lookup bs : ∀ a h, pts a bs h →
  ∀ i b, bs !! i = Some b →
    h !! (a + Z.of_nat i) = Some b ∧ 0 <= a + Z.of_nat i ∧ is_byte b.
Proof.
  induction bs as [|b bs IH]; intros a h Hh i b' Hi; [done|].
  simpl in Hh. apply hp_sep in Hh as (h1 & h2 & Hd & -> & H1 & H2).
  apply hp_sep in H1 as (h1' & h1'' & Hd' & -> & H1 & H1').
  apply hp_cell in H1. apply hp_pure in H1'.
  destruct i as [|i]; simpl in Hi.
  - injection Hi as ->. rewrite Z.add_0_r. split_and!; try apply H1'.
    rewrite -assoc_L. by apply lookup_union_Some_l.
  - destruct (IH _ _ H2 i b' Hi) as (Hl & Hr).
    replace (a + Z.of_nat (S i)) with (a + 1 + Z.of_nat i) by lia.
    split; [|done]. by apply lookup_union_Some_r.
Qed.

Fixpoint hp_of_bytes (a : Z) (bs : list Z) : heap :=
  match bs with [] => ∅ | b :: bs' => <[a := b]> (hp_of_bytes (a + 1) bs') end.

Lemma hp_of_bytes_lookup bs : ∀ a x,
  hp_of_bytes a bs !! x =
  if decide (a <= x) then bs !! Z.to_nat (x - a) else None.
Proof.
  induction bs as [|b bs IH]; intros a x; simpl.
  - rewrite lookup_empty. by case_decide.
  - destruct (decide (a = x)) as [->|Hne].
    + rewrite lookup_insert. rewrite decide_True; [|lia]. by rewrite Z.sub_diag.
    + rewrite lookup_insert_ne //. rewrite IH. repeat case_decide; try done; try lia.
      replace (Z.to_nat (x - a)) with (S (Z.to_nat (x - (a + 1)))) by lia. done.
Qed.

Lemma hp_pts_of_bytes bs : ∀ a, 0 <= a → bytes_ok bs → pts a bs (hp_of_bytes a bs).
Proof.
  induction bs as [|b bs IH]; intros a Ha Hok; simpl.
  - assert (True ⊢ emp : hPropI)%I as H by auto. rewrite hp_entails in H. apply H, hp_pure. done.
  - inversion Hok as [|?? Hb Hbs]; subst.
    apply hp_sep. exists {[a := b]}, (hp_of_bytes (a + 1) bs). split_and!.
    + apply map_disjoint_singleton_l_2. rewrite hp_of_bytes_lookup. rewrite decide_False //. lia.
    + by rewrite insert_union_singleton_l.
    + apply hp_sep. exists {[a := b]}, ∅. split_and!.
      * apply map_disjoint_empty_r. * by rewrite right_id_L.
      * apply hp_cell. apply lookup_singleton.
      * apply hp_pure. done.
    + apply IH; [lia|done].
Qed.

Lemma hp_pts bs a h : pts a bs h ↔
  (∀ i b, bs !! i = Some b → h !! (a + Z.of_nat i) = Some b ∧ 0 <= a + Z.of_nat i ∧ is_byte b).
Proof.
  split; [apply hp_pts_lookup|].
  intros H. destruct bs as [|b0 bs0] eqn:Ebs.
  { assert (True ⊢ emp : hPropI)%I as HH by auto. rewrite hp_entails in HH. apply HH, hp_pure. done. }
  rewrite -Ebs. rewrite -Ebs in H.
  assert (0 <= a). { destruct (H 0%nat b0) as (_&?&_); [by rewrite Ebs|]. lia. }
  eapply hp_mono; [|apply hp_pts_of_bytes; [done|]].
  - apply map_subseteq_spec. intros x b. rewrite hp_of_bytes_lookup.
    case_decide; [|done]. intros Hl. apply H in Hl as (Hl & _).
    rewrite Z2Nat.id in Hl; [|lia]. by replace (a + (x - a)) with x in Hl by lia.
  - apply Forall_lookup. intros i b Hb. by apply H in Hb as (_&_&?).
Qed.

Lemma hp_split (P : hPropI) (Q : hPropI) h h1 h2 :
  h1 ##ₘ h2 → P h1 → Q h2 → h = h1 ∪ h2 → (P ∗ Q)%I h.
Proof. intros. apply hp_sep. eauto 10. Qed.

Lemma pts_app a bs1 bs2 :
  pts a (bs1 ++ bs2) ⊣⊢ pts a bs1 ∗ pts (a + Z.of_nat (length bs1)) bs2.
Proof.
  revert a; induction bs1 as [|b bs1 IH]; intros a; simpl.
  - rewrite Z.add_0_r left_id //.
  - rewrite IH assoc. by replace (a + 1 + Z.of_nat (length bs1))
      with (a + Z.of_nat (S (length bs1))) by lia.
Qed.

Lemma pts_bytes_ok a bs : pts a bs ⊢ ⌜bytes_ok bs⌝.
Proof.
  revert a; induction bs as [|b bs IH]; intros a; simpl.
  - iIntros "_". iPureIntro. constructor.
  - iIntros "[[_ %Hb] H]". iDestruct (IH with "H") as %?. iPureIntro. constructor; [apply Hb|done].
Qed.

Lemma pts_nonneg a bs : bs ≠ [] → pts a bs ⊢ ⌜0 <= a⌝.
Proof. destruct bs; [done|]. intros _. simpl. iIntros "[[_ %] _]". iPureIntro. lia. Qed.

Lemma pts_cell a bs i b : bs !! i = Some b → pts a bs ⊢ cell (a + Z.of_nat i) b.
Proof.
  intros Hi. apply hp_entails. intros h Hh. apply hp_cell.
  by eapply hp_pts_lookup in Hh as (?&_).
Qed.

(** Overlapping ranges cannot be owned twice. *)
Lemma pts_disjoint a bs b cs :
  bs ≠ [] → cs ≠ [] → pts a bs -∗ pts b cs -∗
  ⌜a + Z.of_nat (length bs) <= b ∨ b + Z.of_nat (length cs) <= a⌝.
Proof.
  intros Hb Hc. iIntros "H1 H2".
  destruct (decide (a + Z.of_nat (length bs) <= b ∨ b + Z.of_nat (length cs) <= a)) as [|Hn]; [done|].
  assert (∃ x, a <= x < a + Z.of_nat (length bs) ∧ b <= x < b + Z.of_nat (length cs)) as (x & Hx1 & Hx2).
  { assert (0 < length bs)%nat by (destruct bs; simpl; [done|lia]).
    assert (0 < length cs)%nat by (destruct cs; simpl; [done|lia]).
    exists (Z.max a b). lia. }
  destruct (lookup_lt_is_Some_2 bs (Z.to_nat (x - a))) as [v Hv]; [lia|].
  destruct (lookup_lt_is_Some_2 cs (Z.to_nat (x - b))) as [w Hw]; [lia|].
  iDestruct (pts_cell _ _ _ _ Hv with "H1") as "H1".
  iDestruct (pts_cell _ _ _ _ Hw with "H2") as "H2".
  rewrite !Z2Nat.id; [|lia|lia].
  replace (a + (x - a)) with (b + (x - b)) by lia.
  iDestruct (cell_excl with "H1 H2") as %[].
Qed.

Lemma word_u64 a v : word a v ⊢ ⌜is_u64 v⌝.
Proof. iIntros "[_ %]". done. Qed.
Lemma word_nonneg a v : word a v ⊢ ⌜0 <= a⌝.
Proof.
  iIntros "[H _]". iApply (pts_nonneg with "H").
  intros HH. by apply (f_equal length) in HH; rewrite le_bytes_length in HH.
Qed.
Lemma word_disjoint a v b w :
  word a v -∗ word b w -∗ ⌜a + 8 <= b ∨ b + 8 <= a⌝.
Proof.
  iIntros "[H1 _] [H2 _]".
  iDestruct (pts_disjoint with "H1 H2") as %H.
  - intros HH. by apply (f_equal length) in HH; rewrite le_bytes_length in HH.
  - intros HH. by apply (f_equal length) in HH; rewrite le_bytes_length in HH.
  - iPureIntro. rewrite !le_bytes_length in H. lia.
Qed.

Lemma pts_raw a bs b : b = a + Z.of_nat (length bs) → pts a bs ⊢ raw a b.
Proof. intros ->. iIntros "H". iExists bs. iFrame. iPureIntro. lia. Qed.
Lemma raw_le a b : raw a b ⊢ ⌜a <= b⌝.
Proof. iIntros "(%bs & %H & _)". iPureIntro. lia. Qed.
Lemma raw_nonneg a b : raw a b ⊢ ⌜a < b → 0 <= a⌝.
Proof.
  iIntros "(%bs & %H & Hp)". destruct bs as [|b0 bs]; simpl in *.
  - iPureIntro. lia.
  - iDestruct "Hp" as "[[_ %] _]". iPureIntro. lia.
Qed.
Lemma raw_empty a : ⊢ raw a a.
Proof. iExists []. simpl. iSplit; [iPureIntro; lia|done]. Qed.
Lemma raw_split a m b : a <= m <= b → raw a b ⊣⊢ raw a m ∗ raw m b.
Proof.
  intros Hm. iSplit.
  - iIntros "(%bs & %H & Hp)".
    rewrite -(take_drop (Z.to_nat (m - a)) bs) pts_app.
    iDestruct "Hp" as "[H1 H2]". iSplitL "H1".
    + iExists _. iFrame. iPureIntro. rewrite take_length. lia.
    + iExists _. rewrite take_length.
      replace (a + Z.of_nat (Z.to_nat (m - a) `min` length bs)) with m by lia.
      iFrame. iPureIntro. rewrite drop_length. lia.
  - iIntros "[(%bs1 & %H1 & Hp1) (%bs2 & %H2 & Hp2)]".
    iExists (bs1 ++ bs2). rewrite app_length. iSplit; [iPureIntro; lia|].
    rewrite pts_app. iFrame. replace (a + Z.of_nat (length bs1)) with m by lia. done.
Qed.
Lemma word_raw a v b : b = a + 8 → word a v ⊢ raw a b.
Proof. intros ->. iIntros "[H _]". iApply (pts_raw with "H"). rewrite le_bytes_length. lia. Qed.
Lemma raw_word a b : b = a + 8 → raw a b ⊢ ∃ v, word a v.
Proof.
  intros ->. iIntros "(%bs & %H & Hp)".
  iDestruct (pts_bytes_ok with "Hp") as %Hok.
  assert (length bs = 8%nat) as Hl by lia.
  iExists (le_val bs). pose proof (le_bytes_val bs Hok) as Hb. rewrite Hl in Hb.
  unfold word. rewrite Hb. iFrame. iPureIntro.
  pose proof (le_val_range bs Hok) as Hr. rewrite Hl in Hr. exact Hr.
Qed.

Lemma word_pts a bs : length bs = 8%nat → pts a bs ⊢ word a (le_val bs).
Proof.
  intros Hl. iIntros "Hp". iDestruct (pts_bytes_ok with "Hp") as %Hok.
  pose proof (le_bytes_val bs Hok) as Hb. rewrite Hl in Hb.
  unfold word. rewrite Hb. iFrame. iPureIntro.
  pose proof (le_val_range bs Hok) as Hr. rewrite Hl in Hr. exact Hr.
Qed.

(** ** Effects *)
Lemma read_bytes_spec s a n i :
  (i < n)%nat → read_bytes s a n !! i = Some (bget s (a + Z.of_nat i)).
Proof.
  revert a i; induction n as [|n IH]; intros a i Hi; [lia|].
  destruct i as [|i]; simpl.
  - by rewrite Z.add_0_r.
  - rewrite IH; [|lia]. f_equal. f_equal. lia.
Qed.
Lemma read_bytes_length s a n : length (read_bytes s a n) = n.
Proof. revert a; induction n; intros; simpl; auto. Qed.

Lemma write_bytes_lookup m bs : ∀ a x,
  write_bytes m a bs !! x =
  if decide (a <= x < a + Z.of_nat (length bs)) then bs !! Z.to_nat (x - a) else m !! x.
Proof.
  revert m; induction bs as [|b bs IH]; intros m a x; simpl.
  - rewrite decide_False //. lia.
  - rewrite IH. destruct (decide (x = a)) as [->|Hne].
    + rewrite decide_False; [|lia]. rewrite decide_True; [|lia].
      by rewrite lookup_insert Z.sub_diag.
    + repeat case_decide; try lia.
      * replace (Z.to_nat (x - a)) with (S (Z.to_nat (x - (a + 1)))) by lia. done.
      * by rewrite lookup_insert_ne.
Qed.

Lemma repr_pts_inv h hf s a bs :
  pts a bs h → h ##ₘ hf → repr (h ∪ hf) s → bs ≠ [] →
  0 <= a ∧ a + Z.of_nat (length bs) <= mapped s ∧
  read_bytes s a (length bs) = bs.
Proof.
  intros Hp Hd Hr Hne.
  assert (∀ i b, bs !! i = Some b →
     0 <= a + Z.of_nat i < mapped s ∧ bget s (a + Z.of_nat i) = b) as Hall.
  { intros i b Hi. eapply hp_pts_lookup in Hp as (Hl & H0 & Hb); [|done].
    pose proof (repr_heap _ _ Hr (a + Z.of_nat i)) as Hc.
    erewrite lookup_union_Some_l in Hc; [|done].
    unfold scell in Hc. rewrite decide_True in Hc; [|lia].
    case_decide; [|done]. split; [lia|congruence]. }
  assert (0 < length bs)%nat as Hlen by (destruct bs; simpl; [done|lia]).
  destruct (lookup_lt_is_Some_2 bs 0) as [b0 Hb0]; [lia|].
  destruct (lookup_lt_is_Some_2 bs (length bs - 1)) as [b1 Hb1]; [lia|].
  pose proof (Hall _ _ Hb0). pose proof (Hall _ _ Hb1).
  split_and!; [lia|lia|].
  apply list_eq_same_length with (length bs); [done|by rewrite read_bytes_length|].
  intros i x y Hi Hx Hy. rewrite read_bytes_spec in Hx; [|done].
  apply Hall in Hy as [_ Hy]. congruence.
Qed.

Lemma repr_pts_law h hf s a bs : pts a bs h → h ##ₘ hf → repr (h ∪ hf) s → bs ≠ [] →
  0 <= a ∧ a + Z.of_nat (length bs) <= mapped s ∧ mapped s <= fsize s ∧
  read_bytes s a (length bs) = bs.
Proof.
  intros H1 Hd Hr Hbs. destruct (repr_pts_inv h hf s a bs) as (Ha & Hb & Hread); try done.
  pose proof (repr_mapped _ _ Hr) as Hm. split_and!; [lia|lia|lia|done].
Qed.
Lemma repr_store h hf s a bs v : pts a bs h → h ##ₘ hf → repr (h ∪ hf) s → bs ≠ [] →
  repr ((hp_of_bytes a (le_bytes (length bs) v) ∪ h) ∪ hf)
       (set_mem s (write_bytes (mem s) a (le_bytes (length bs) v))).
Proof.
  intros H1 Hd Hr Hbs. destruct (repr_pts_inv h hf s a bs) as (Ha & Hb & Hread); try done.
  pose proof (repr_mapped _ _ Hr) as Hm. set (n := length bs).
  set (nb := hp_of_bytes a (le_bytes n v)).
  split; [done| |].
    + intros x. unfold bget; simpl. rewrite write_bytes_lookup. case_decide as Hx.
      * destruct (le_bytes n v !! Z.to_nat (x - a)) as [y|] eqn:Ey; simpl.
        { pose proof (le_bytes_ok n v) as Hok. rewrite /bytes_ok Forall_lookup in Hok. by eapply Hok. }
        { unfold is_byte; lia. }
      * apply (repr_byte _ _ Hr x).
    + intros x. rewrite -!assoc_L. destruct (nb !! x) as [y|] eqn:Ey.
      * erewrite lookup_union_Some_l; [|done].
        pose proof Ey as Ey'. unfold nb in Ey'. rewrite hp_of_bytes_lookup in Ey'.
        case_decide; [|done]. pose proof Ey' as Hlt. apply lookup_lt_Some in Hlt.
        rewrite le_bytes_length in Hlt.
        unfold scell; simpl. rewrite decide_True; [|lia]. rewrite decide_True; [|lia].
        unfold bget; simpl. rewrite write_bytes_lookup le_bytes_length.
        rewrite decide_True; [|lia]. by rewrite Ey'.
      * rewrite lookup_union_r; [|done]. rewrite (repr_heap _ _ Hr x).
        unfold nb in Ey. rewrite hp_of_bytes_lookup in Ey.
        unfold scell, bget; simpl. rewrite write_bytes_lookup le_bytes_length.
        destruct (decide (a <= x < a + Z.of_nat n)) as [Hx|Hx]; [|done].
        rewrite decide_True in Ey; [|lia].
        apply lookup_ge_None in Ey. rewrite le_bytes_length in Ey. lia.
Qed.

(** The rules below hold for any relation between the heap of the logic and the state
    that agrees with loads and stores; [base_rep] is the direct one, and Locked.v has one
    that keeps the allocator's part of the pool apart. *)
Class Rep := {
  rep : heap → pst → Prop;
  rep_pts : ∀ h hf s a bs, pts a bs h → h ##ₘ hf → rep (h ∪ hf) s → bs ≠ [] →
    0 <= a ∧ a + Z.of_nat (length bs) <= mapped s ∧ mapped s <= fsize s ∧
    read_bytes s a (length bs) = bs;
  rep_store : ∀ h hf s a bs v, pts a bs h → h ##ₘ hf → rep (h ∪ hf) s → bs ≠ [] →
    rep ((hp_of_bytes a (le_bytes (length bs) v) ∪ h) ∪ hf)
        (set_mem s (write_bytes (mem s) a (le_bytes (length bs) v)))
}.

Global Instance base_rep : Rep := {| rep := repr; rep_pts := repr_pts_law; rep_store := repr_store |}.

Definition wpc_ok {RR : Rep} {A} (C : hPropI) (p : prog A) (Φ : A → hPropI) (Ψ : exn → hPropI)
    (hf : heap) (s : pst) : Prop :=
  match run p s with
  | Done a s' => ∃ h', h' ##ₘ hf ∧ rep (h' ∪ hf) s' ∧ Φ a h'
  | Exn e s' => ∃ h', h' ##ₘ hf ∧ rep (h' ∪ hf) s' ∧ Ψ e h'
  | UB => False
  | OutOfFuel => False
  end ∧
  ∀ s', crash_state p s s' → ∃ h', h' ##ₘ hf ∧ rep (h' ∪ hf) s' ∧ C h'.

Program Definition wpc_def {RR : Rep} {A} (C : hPropI) (p : prog A) (Φ : A → hPropI)
    (Ψ : exn → hPropI) : hProp :=
  HProp (λ h, ∀ hf s, h ##ₘ hf → rep (h ∪ hf) s → wpc_ok C p Φ Ψ hf s) _.
Next Obligation.
  intros RR A C p Φ Ψ h h2 Hs H hf s Hd Hr.
  assert (h2 = h ∪ (h2 ∖ h)) as E by (symmetry; by apply map_difference_union).
  assert (h ##ₘ h2 ∖ h) as Hd1 by by apply map_disjoint_difference_r.
  assert ((h2 ∖ h) ##ₘ hf) as Hd2.
  { eapply map_disjoint_weaken_l; [exact Hd|]. apply map_subseteq_difference_l. done. }
  assert (h ##ₘ hf) as Hd3 by (eapply map_disjoint_weaken_l; [exact Hd|exact Hs]).
  destruct (H ((h2 ∖ h) ∪ hf) s) as [Ho Hc].
  - by apply map_disjoint_union_r.
  - rewrite assoc_L -E. done.
  - split.
    + destruct (run p s) as [a s'|e s'| |]; try done;
        destruct Ho as (h' & Hd' & Hr' & HΦ);
        apply map_disjoint_union_r in Hd' as [Hd'1 Hd'2];
        exists (h' ∪ (h2 ∖ h)); (split_and!; [by apply map_disjoint_union_l|by rewrite -assoc_L|]);
        (eapply hp_mono; [|exact HΦ]; by apply map_union_subseteq_l).
    + intros s' Hc'. destruct (Hc s' Hc') as (h' & Hd' & Hr' & HΦ).
      apply map_disjoint_union_r in Hd' as [Hd'1 Hd'2].
      exists (h' ∪ (h2 ∖ h)). split_and!; [by apply map_disjoint_union_l|by rewrite -assoc_L|].
      eapply hp_mono; [|exact HΦ]. by apply map_union_subseteq_l.
Qed.
Definition wpc_aux : seal (@wpc_def). Proof. by eexists. Qed.
Definition wpc {RR : Rep} {A} (C : hPropI) (p : prog A) (Φ : A → hPropI) (Ψ : exn → hPropI) : hPropI :=
  unseal wpc_aux RR A C p Φ Ψ.
Lemma hp_wpc {RR : Rep} {A} C (p : prog A) Φ Ψ h :
  wpc C p Φ Ψ h ↔ ∀ hf s, h ##ₘ hf → rep (h ∪ hf) s → wpc_ok C p Φ Ψ hf s.
Proof. unfold wpc. rewrite (seal_eq wpc_aux). done. Qed.

Notation wp p Φ Ψ := (wpc True%I p Φ Ψ).

Section rules.
  Context {RR : Rep} {A : Type}.
  Implicit Types (C : hPropI) (Φ : A → hPropI) (Ψ : exn → hPropI).

  Lemma wpc_ret C (a : A) Φ Ψ : C ∧ Φ a ⊢ wpc C (Ret a) Φ Ψ.
  Proof.
    apply hp_entails. intros h Hh. apply hp_and in Hh as [HC HΦ].
    apply hp_wpc. intros hf s Hd Hr. split; simpl; [by eauto|].
    intros s' [->|[]]. eauto.
  Qed.
  Lemma wpc_throw C (e : exn) Φ Ψ : C ∧ Ψ e ⊢ wpc C (Throw (A:=A) e) Φ Ψ.
  Proof.
    apply hp_entails. intros h Hh. apply hp_and in Hh as [HC HΦ].
    apply hp_wpc. intros hf s Hd Hr. split; simpl; [by eauto|].
    intros s' [->|[]]. eauto.
  Qed.

  Lemma wpc_strong_mono C C' (p : prog A) Φ Φ' Ψ Ψ' :
    wpc C p Φ Ψ -∗
    ((∀ a, Φ a -∗ Φ' a) ∧ (∀ e, Ψ e -∗ Ψ' e) ∧ (C -∗ C')) -∗
    wpc C' p Φ' Ψ'.
  Proof.
    apply bi.wand_intro_r. apply hp_entails. intros h Hh.
    apply hp_sep in Hh as (h1 & h2 & Hd12 & -> & H1 & H2).
    apply hp_and in H2 as [HΦ HR]. apply hp_and in HR as [HΨ HC].
    apply hp_wpc. intros hf s Hd Hr.
    apply map_disjoint_union_l in Hd as [Hd1 Hd2].
    rewrite hp_wpc in H1. destruct (H1 (h2 ∪ hf) s) as [Ho Hc].
    { by apply map_disjoint_union_r. } { by rewrite assoc_L. }
    split.
    - destruct (run p s) as [a s'|e s'| |]; try done;
        destruct Ho as (h' & Hd' & Hr' & HP);
        apply map_disjoint_union_r in Hd' as [Hd'1 Hd'2];
        exists (h' ∪ h2);
        (split_and!; [by apply map_disjoint_union_l|by rewrite -assoc_L|]).
      + assert (Φ a ⊢ (∀ a, Φ a -∗ Φ' a) -∗ Φ' a)%I as HH
          by (iIntros "H W"; by iApply "W").
        rewrite (comm_L _ h' h2) || rewrite (map_union_comm h' h2 Hd'1).
        assert ((∀ a, Φ a -∗ Φ' a)%I ⊢ Φ a -∗ Φ' a)%I as HH2 by (iIntros "W"; iApply "W").
        rewrite hp_entails in HH2. specialize (HH2 h2 HΦ). rewrite hp_wand in HH2.
        apply HH2; done.
      + rewrite (map_union_comm h' h2 Hd'1).
        assert ((∀ a, Ψ a -∗ Ψ' a)%I ⊢ Ψ e -∗ Ψ' e)%I as HH2 by (iIntros "W"; iApply "W").
        rewrite hp_entails in HH2. specialize (HH2 h2 HΨ). rewrite hp_wand in HH2.
        apply HH2; done.
    - intros s' Hc'. destruct (Hc s' Hc') as (h' & Hd' & Hr' & HP).
      apply map_disjoint_union_r in Hd' as [Hd'1 Hd'2].
      exists (h' ∪ h2). split_and!; [by apply map_disjoint_union_l|by rewrite -assoc_L|].
      rewrite (map_union_comm h' h2 Hd'1). rewrite hp_wand in HC. apply HC; done.
  Qed.

  Lemma wpc_bind {B} C (p : prog B) (k : B → prog A) Φ Ψ :
    wpc C p (λ b, wpc C (k b) Φ Ψ) Ψ ⊢ wpc C (bind p k) Φ Ψ.
  Proof.
    apply hp_entails. intros h Hh. rewrite hp_wpc in Hh.
    apply hp_wpc. intros hf s Hd Hr. destruct (Hh hf s Hd Hr) as [Ho Hc].
    split.
    - rewrite run_bind. destruct (run p s) as [b s'|e s'| |]; try done.
      destruct Ho as (h' & Hd' & Hr' & HΦ). rewrite hp_wpc in HΦ.
      by destruct (HΦ hf s' Hd' Hr').
    - intros s' [Hc'|(b & s1 & Hrun & Hc')]%crash_bind; [by apply Hc|].
      rewrite Hrun in Ho. destruct Ho as (h' & Hd' & Hr' & HΦ). rewrite hp_wpc in HΦ.
      destruct (HΦ hf s1 Hd' Hr') as [_ HC]. by apply HC.
  Qed.

  Lemma crash_catch (p : prog A) (hd : exn → prog A) s s' :
    crash_state (catch p hd) s s' →
    crash_state p s s' ∨ ∃ e s1, run p s = Exn e s1 ∧ crash_state (hd e) s1 s'.
  Proof.
    revert s; induction p as [| | | |e c IH]; intros s; simpl.
    - intros [->|[]]. left; by left.
    - intros H. right. eauto.
    - intros [->|[]]. left. by left.
    - intros [->|[]]. left. by left.
    - intros [->|H]; [left; by left|].
      destruct (exec e s) as [[v s1]|]; [|done].
      apply IH in H as [H|H]; [left; by right|right; done].
  Qed.

  Lemma wpc_catch C (p : prog A) (hd : exn → prog A) Φ Ψ :
    wpc C p Φ (λ e, wpc C (hd e) Φ Ψ) ⊢ wpc C (catch p hd) Φ Ψ.
  Proof.
    apply hp_entails. intros h Hh. rewrite hp_wpc in Hh.
    apply hp_wpc. intros hf s Hd Hr. destruct (Hh hf s Hd Hr) as [Ho Hc].
    split.
    - rewrite run_catch. destruct (run p s) as [b s'|e s'| |]; try done.
      destruct Ho as (h' & Hd' & Hr' & HΦ). rewrite hp_wpc in HΦ.
      by destruct (HΦ hf s' Hd' Hr').
    - intros s' [Hc'|(b & s1 & Hrun & Hc')]%crash_catch; [by apply Hc|].
      rewrite Hrun in Ho. destruct Ho as (h' & Hd' & Hr' & HΦ). rewrite hp_wpc in HΦ.
      destruct (HΦ hf s1 Hd' Hr') as [_ HC]. by apply HC.
  Qed.

  (** Generic rule for one effect. *)
  Lemma wpc_op C (P : hPropI) e (k : Z → prog A) Φ Ψ :
    (∀ h hf s, P h → h ##ₘ hf → rep (h ∪ hf) s →
       ∃ v s' h', exec e s = Some (v, s') ∧ h' ##ₘ hf ∧ rep (h' ∪ hf) s' ∧
                  wpc C (k v) Φ Ψ h') →
    C ∧ P ⊢ wpc C (Op e k) Φ Ψ.
  Proof.
    intros HP. apply hp_entails. intros h Hh. apply hp_and in Hh as [HC HPh].
    apply hp_wpc. intros hf s Hd Hr.
    destruct (HP h hf s HPh Hd Hr) as (v & s' & h' & He & Hd' & Hr' & Hk).
    rewrite hp_wpc in Hk. destruct (Hk hf s' Hd' Hr') as [Ho Hc].
    split; simpl; rewrite He; [done|].
    intros s'' [->|Hc']; [eauto|by apply Hc].
  Qed.
End rules.

Lemma wpc_load {RR : Rep} {A} C n a bs (k : Z → prog A) Φ Ψ :
  length bs = n → n ≠ 0%nat →
  C ∧ (pts a bs ∗ (pts a bs -∗ wpc C (k (le_val bs)) Φ Ψ)) ⊢
  wpc C (Op (ELoad n a) k) Φ Ψ.
Proof.
  intros Hl Hn. apply wpc_op. intros h hf s Hh Hd Hr.
  apply hp_sep in Hh as (h1 & h2 & Hd12 & -> & H1 & H2).
  pose proof Hd as Hd'. apply map_disjoint_union_l in Hd' as [Hd1 Hd2].
  destruct (rep_pts h1 (h2 ∪ hf) s a bs) as (Ha & Hb & Hm & Hread); try done.
  { by apply map_disjoint_union_r. } { by rewrite assoc_L. } { intros ->. simpl in Hl. congruence. }
  exists (le_val bs), s, (h1 ∪ h2). split_and!; [|done|done|].
  - simpl. unfold valid. rewrite bool_decide_eq_true_2.
    + by rewrite -Hl Hread.
    + lia.
  - rewrite hp_wand in H2. rewrite (map_union_comm h1 h2); [|done]. apply H2; done.
Qed.

Lemma wpc_store {RR : Rep} {A} C n a bs v (k : Z → prog A) Φ Ψ :
  length bs = n → n ≠ 0%nat →
  C ∧ (pts a bs ∗ (pts a (le_bytes n v) -∗ wpc C (k 0) Φ Ψ)) ⊢
  wpc C (Op (EStore n a v) k) Φ Ψ.
Proof.
  intros Hl Hn. apply wpc_op. intros h hf s Hh Hd Hr.
  apply hp_sep in Hh as (h1 & h2 & Hd12 & -> & H1 & H2).
  pose proof Hd as Hd'. apply map_disjoint_union_l in Hd' as [Hd1 Hd2].
  assert (bs ≠ []) as Hbs by (intros ->; simpl in Hl; congruence).
  destruct (rep_pts h1 (h2 ∪ hf) s a bs) as (Ha & Hb & Hm & Hread); try done.
  { by apply map_disjoint_union_r. } { by rewrite assoc_L. }
  set (nb := hp_of_bytes a (le_bytes n v)).
  assert (∀ x, is_Some (nb !! x) → is_Some (h1 !! x)) as Hdom.
  { intros x [y Hx]. unfold nb in Hx. rewrite hp_of_bytes_lookup in Hx. case_decide; [|done].
    apply lookup_lt_Some in Hx. rewrite le_bytes_length in Hx.
    destruct (lookup_lt_is_Some_2 bs (Z.to_nat (x - a))) as [w Hw]; [lia|].
    eapply hp_pts_lookup in H1 as (Hl1 & _); [|exact Hw].
    rewrite Z2Nat.id in Hl1; [|lia]. replace (a + (x - a)) with x in Hl1 by lia. eauto. }
  assert (∀ g, h1 ##ₘ g → nb ∪ h1 ##ₘ g) as Hdisj.
  { intros g Hg. apply map_disjoint_union_l. split; [|done].
    apply map_disjoint_spec. intros x y z Hx Hz.
    destruct (Hdom x) as [w Hw]; [eauto|]. by eapply (map_disjoint_spec h1 g). }
  exists 0, (set_mem s (write_bytes (mem s) a (le_bytes n v))), ((nb ∪ h1) ∪ h2).
  split_and!.
  - simpl. unfold valid. rewrite bool_decide_eq_true_2 //. lia.
  - apply map_disjoint_union_l. split; [|done]. by apply Hdisj.
  - rewrite -assoc_L. unfold nb. rewrite -Hl. apply (rep_store h1 (h2 ∪ hf) s a bs v); try done.
    { by apply map_disjoint_union_r. } { by rewrite assoc_L. }
  - rewrite hp_wand in H2. rewrite (map_union_comm (nb ∪ h1) h2); [|by apply Hdisj].
    apply H2; [symmetry; by apply Hdisj|].
    eapply hp_mono; [|apply hp_pts_of_bytes; [done|apply le_bytes_ok]].
    apply map_union_subseteq_l.
Qed.

Lemma scell_scalar_lookup h hf s a v :
  cell a v h → h ##ₘ hf → repr (h ∪ hf) s → scell s a = Some v.
Proof.
  intros Hc Hd Hr. rewrite -(repr_heap _ _ Hr a). apply lookup_union_Some_l. by apply hp_cell.
Qed.

Lemma wpc_mapped {A} C m (k : Z → prog A) Φ Ψ :
  C ∧ (cell a_mapped m ∗ (cell a_mapped m -∗ wpc C (k m) Φ Ψ)) ⊢
  wpc C (Op EMapped k) Φ Ψ.
Proof.
  apply wpc_op. intros h hf s Hh Hd Hr.
  apply hp_sep in Hh as (h1 & h2 & Hd12 & -> & H1 & H2).
  pose proof Hd as Hd'. apply map_disjoint_union_l in Hd' as [Hd1 Hd2].
  assert (scell s a_mapped = Some m) as Hs.
  { eapply (scell_scalar_lookup h1 (h2 ∪ hf)); [done|by apply map_disjoint_union_r|by rewrite assoc_L]. }
  exists m, s, (h1 ∪ h2). split_and!; try done.
  - simpl. unfold scell in Hs; simpl in Hs. congruence.
  - rewrite hp_wand in H2. rewrite (map_union_comm h1 h2); [|done]. by apply H2.
Qed.

Lemma wpc_epoch {A} C m (k : Z → prog A) Φ Ψ :
  C ∧ (cell a_epoch m ∗ (cell a_epoch m -∗ wpc C (k m) Φ Ψ)) ⊢
  wpc C (Op EEpoch k) Φ Ψ.
Proof.
  apply wpc_op. intros h hf s Hh Hd Hr.
  apply hp_sep in Hh as (h1 & h2 & Hd12 & -> & H1 & H2).
  pose proof Hd as Hd'. apply map_disjoint_union_l in Hd' as [Hd1 Hd2].
  assert (scell s a_epoch = Some m) as Hs.
  { eapply (scell_scalar_lookup h1 (h2 ∪ hf)); [done|by apply map_disjoint_union_r|by rewrite assoc_L]. }
  exists m, s, (h1 ∪ h2). split_and!; try done.
  - simpl. unfold scell in Hs; simpl in Hs. congruence.
  - rewrite hp_wand in H2. rewrite (map_union_comm h1 h2); [|done]. by apply H2.
Qed.

Lemma wpc_maxsize {A} C m (k : Z → prog A) Φ Ψ :
  C ∧ (cell a_maxsz m ∗ (cell a_maxsz m -∗ wpc C (k m) Φ Ψ)) ⊢
  wpc C (Op EMaxSize k) Φ Ψ.
Proof.
  apply wpc_op. intros h hf s Hh Hd Hr.
  apply hp_sep in Hh as (h1 & h2 & Hd12 & -> & H1 & H2).
  pose proof Hd as Hd'. apply map_disjoint_union_l in Hd' as [Hd1 Hd2].
  assert (scell s a_maxsz = Some m) as Hs.
  { eapply (scell_scalar_lookup h1 (h2 ∪ hf)); [done|by apply map_disjoint_union_r|by rewrite assoc_L]. }
  exists m, s, (h1 ∪ h2). split_and!; try done.
  - simpl. unfold scell in Hs; simpl in Hs. congruence.
  - rewrite hp_wand in H2. rewrite (map_union_comm h1 h2); [|done]. by apply H2.
Qed.

(** ftruncate to a size that keeps the local mapping inside the file. *)
Lemma wpc_ftruncate {A} C n m f l (k : Z → prog A) Φ Ψ :
  m <= n →
  C ∧ (cell a_mapped m ∗ cell a_fsize f ∗ cell a_oslim l ∗
       (cell a_mapped m -∗ cell a_oslim l -∗
         (⌜n <= l⌝ -∗ cell a_fsize n -∗ wpc C (k 0) Φ Ψ) ∧
         (⌜l < n⌝ -∗ cell a_fsize f -∗ wpc C (k 1) Φ Ψ))) ⊢
  wpc C (Op (EFtruncate n) k) Φ Ψ.
Proof.
  intros Hmn. apply wpc_op. intros h hf s Hh Hd Hr.
  apply hp_sep in Hh as (h1 & h2 & Hd1 & -> & H1 & H2).
  apply hp_sep in H2 as (h3 & h4 & Hd2 & -> & H3 & H4).
  apply hp_sep in H4 as (h5 & h6 & Hd3 & -> & H5 & H6).
  apply map_disjoint_union_r in Hd1 as [Hd13 Hd1].
  apply map_disjoint_union_r in Hd1 as [Hd15 Hd16].
  apply map_disjoint_union_r in Hd2 as [Hd35 Hd36].
  apply map_disjoint_union_l in Hd as [Hf1 Hd].
  apply map_disjoint_union_l in Hd as [Hf3 Hd].
  apply map_disjoint_union_l in Hd as [Hf5 Hf6].
  set (h := h1 ∪ (h3 ∪ (h5 ∪ h6))) in *.
  assert (∀ a v, h !! a = Some v → scell s a = Some v) as Hcell.
  { intros a v Hv. rewrite -(repr_heap _ _ Hr). by apply lookup_union_Some_l. }
  apply hp_cell in H1, H3, H5.
  assert (mapped s = m) as Em.
  { pose proof (Hcell a_mapped m) as Hc. unfold scell in Hc; simpl in Hc.
    feed pose proof Hc as Hx; [by apply lookup_union_Some_l|congruence]. }
  assert (fsize s = f) as Ef.
  { pose proof (Hcell a_fsize f) as Hc. unfold scell in Hc; simpl in Hc.
    feed pose proof Hc as Hx; [|congruence].
    apply lookup_union_Some_r; [by rewrite !map_disjoint_union_r|].
    by apply lookup_union_Some_l. }
  assert (oslim s = l) as El.
  { pose proof (Hcell a_oslim l) as Hc. unfold scell in Hc; simpl in Hc.
    feed pose proof Hc as Hx; [|congruence].
    apply lookup_union_Some_r; [by rewrite !map_disjoint_union_r|].
    apply lookup_union_Some_r; [by rewrite !map_disjoint_union_r|].
    by apply lookup_union_Some_l. }
  rewrite hp_wand in H6. specialize (H6 h1 ltac:(by symmetry)).
  feed specialize H6; [by apply hp_cell|].
  rewrite hp_wand in H6. specialize (H6 h5).
  feed specialize H6; [apply map_disjoint_union_l; split; [by symmetry|done]|by apply hp_cell|].
  apply hp_and in H6 as [Hok Hfail].
  pose proof (repr_mapped _ _ Hr) as Hm.
  destruct (decide (n <= l)) as [Hle|Hgt].
  - set (s' := mk_pst (if bool_decide (n < fsize s) then truncate_mem (mem s) n else mem s)
                   n (mapped s) (epoch s) (maxsz s) (oslim s)).
    assert (∀ x, x < n → bget s' x = bget s x) as Hbg.
    { intros x Hx. unfold bget, s'; simpl. case_bool_decide; [|done].
      unfold truncate_mem. rewrite map_filter_lookup.
      destruct (mem s !! x); simpl; [|done]. by rewrite option_guard_True. }
    assert (∀ x, is_byte (bget s' x)) as Hbyte.
    { intros x. unfold bget, s'; simpl. case_bool_decide; [|apply (repr_byte _ _ Hr x)].
      unfold truncate_mem. rewrite map_filter_lookup.
      pose proof (repr_byte _ _ Hr x) as Hx. unfold bget in Hx.
      destruct (mem s !! x); simpl in *; [|done]. case_option_guard; simpl; [done|].
      unfold is_byte; lia. }
    set (h' := <[a_fsize := n]> h3).
    assert (∀ g, h3 ##ₘ g → h' ##ₘ g) as Hdisj.
    { intros g Hg. apply map_disjoint_insert_l. split; [|done].
      by eapply map_disjoint_Some_l. }
    exists 0, s', (((h6 ∪ h1) ∪ h5) ∪ h'). split_and!.
    + simpl. rewrite bool_decide_eq_true_2; [done|lia].
    + rewrite !map_disjoint_union_l. split_and!; [done|done|done|by apply Hdisj].
    + split; [unfold s'; simpl; lia|done|]. intros x.
      assert ((((h6 ∪ h1) ∪ h5) ∪ h') ∪ hf = <[a_fsize := n]> (h ∪ hf)) as ->.
      { unfold h', h. rewrite (map_union_comm (h6 ∪ h1 ∪ h5) (<[a_fsize:=n]> h3)).
        2:{ rewrite !map_disjoint_union_l. split_and!; symmetry; apply Hdisj; done. }
        rewrite -!insert_union_l. f_equal. f_equal.
        rewrite (map_union_comm h6 h1); [|done]. rewrite -(assoc_L _ h1 h6 h5).
        rewrite (map_union_comm h6 h5); [|done].
        rewrite assoc_L (map_union_comm h3 h1); [|done]. by rewrite !assoc_L. }
      destruct (decide (x = a_fsize)) as [->|Hne].
      * by rewrite lookup_insert.
      * rewrite lookup_insert_ne; [|done]. rewrite (repr_heap _ _ Hr x).
        unfold scell. simpl. repeat (case_decide; try done).
        rewrite Hbg; [done|]. lia.
    + rewrite hp_wand in Hok.
      assert ((⌜n <= l⌝ -∗ cell a_fsize n -∗ wpc C (k 0) Φ Ψ)%I
               ⊢ cell a_fsize n -∗ wpc C (k 0) Φ Ψ)%I as HH.
      { iIntros "H". iApply "H". done. }
      assert ((cell a_fsize n -∗ wpc C (k 0) Φ Ψ)%I (h6 ∪ h1 ∪ h5)) as Hok'.
      { rewrite hp_entails in HH. apply HH. rewrite hp_wand. exact Hok. }
      rewrite hp_wand in Hok'. apply Hok'.
      * rewrite !map_disjoint_union_l. split_and!; symmetry; apply Hdisj; done.
      * apply hp_cell. apply lookup_insert.
  - exists 1, s, (((h6 ∪ h1) ∪ h5) ∪ h3). split_and!.
    + simpl. rewrite bool_decide_eq_false_2; [done|lia].
    + rewrite !map_disjoint_union_l. done.
    + assert ((((h6 ∪ h1) ∪ h5) ∪ h3) = h) as ->; [|done].
      unfold h. rewrite (map_union_comm (h6 ∪ h1 ∪ h5) h3).
      2:{ rewrite !map_disjoint_union_l. done. }
      rewrite (map_union_comm h6 h1); [|done]. rewrite -(assoc_L _ h1 h6 h5).
      rewrite (map_union_comm h6 h5); [|done].
      rewrite assoc_L (map_union_comm h3 h1); [|done]. by rewrite !assoc_L.
    + assert ((⌜l < n⌝ -∗ cell a_fsize f -∗ wpc C (k 1) Φ Ψ)%I
               ⊢ cell a_fsize f -∗ wpc C (k 1) Φ Ψ)%I as HH.
      { iIntros "H". iApply "H". iPureIntro. lia. }
      rewrite hp_entails in HH. specialize (HH _ Hfail).
      rewrite hp_wand in HH. apply HH.
      * rewrite !map_disjoint_union_l. done.
      * by apply hp_cell.
Qed.

(** Growing the mapping up to the file size yields the newly mapped bytes. *)
Lemma wpc_remap {A} C n m f e (k : Z → prog A) Φ Ψ :
  m <= n <= f →
  C ∧ (cell a_mapped m ∗ cell a_fsize f ∗ cell a_epoch e ∗
       (cell a_mapped n -∗ cell a_fsize f -∗ cell a_epoch (e + 1) -∗ raw m n -∗
        wpc C (k 0) Φ Ψ)) ⊢
  wpc C (Op (ERemap n) k) Φ Ψ.
Proof.
  intros Hmn. apply wpc_op. intros h hf s Hh Hd Hr.
  apply hp_sep in Hh as (h1 & h2 & Hd1 & -> & H1 & H2).
  apply hp_sep in H2 as (h3 & h4 & Hd2 & -> & H3 & H4).
  apply hp_sep in H4 as (h5 & h6 & Hd3 & -> & H5 & H6).
  apply map_disjoint_union_r in Hd1 as [Hd13 Hd1].
  apply map_disjoint_union_r in Hd1 as [Hd15 Hd16].
  apply map_disjoint_union_r in Hd2 as [Hd35 Hd36].
  apply map_disjoint_union_l in Hd as [Hf1 Hd].
  apply map_disjoint_union_l in Hd as [Hf3 Hd].
  apply map_disjoint_union_l in Hd as [Hf5 Hf6].
  set (h := h1 ∪ (h3 ∪ (h5 ∪ h6))) in *.
  assert (∀ a v, h !! a = Some v → scell s a = Some v) as Hcell.
  { intros a v Hv. rewrite -(repr_heap _ _ Hr). by apply lookup_union_Some_l. }
  apply hp_cell in H1, H3, H5.
  assert (mapped s = m) as Em.
  { pose proof (Hcell a_mapped m) as Hc. unfold scell in Hc; simpl in Hc.
    feed pose proof Hc as Hx; [by apply lookup_union_Some_l|congruence]. }
  assert (fsize s = f) as Ef.
  { pose proof (Hcell a_fsize f) as Hc. unfold scell in Hc; simpl in Hc.
    feed pose proof Hc as Hx; [|congruence].
    apply lookup_union_Some_r; [by rewrite !map_disjoint_union_r|].
    by apply lookup_union_Some_l. }
  assert (epoch s = e) as Ee.
  { pose proof (Hcell a_epoch e) as Hc. unfold scell in Hc; simpl in Hc.
    feed pose proof Hc as Hx; [|congruence].
    apply lookup_union_Some_r; [by rewrite !map_disjoint_union_r|].
    apply lookup_union_Some_r; [by rewrite !map_disjoint_union_r|].
    by apply lookup_union_Some_l. }
  pose proof (repr_mapped _ _ Hr) as Hm.
  set (bs := read_bytes s m (Z.to_nat (n - m))).
  assert (length bs = Z.to_nat (n - m)) as Hbs by apply read_bytes_length.
  set (hn := hp_of_bytes m bs).
  set (h1' := <[a_mapped := n]> h1). set (h5' := <[a_epoch := e + 1]> h5).
  assert (∀ x y, hn !! x = Some y → m <= x < n ∧ y = bget s x) as Hhn.
  { intros x y. unfold hn. rewrite hp_of_bytes_lookup. case_decide; [|done]. intros Hl.
    pose proof (lookup_lt_Some _ _ _ Hl) as Hlt. rewrite Hbs in Hlt.
    unfold bs in Hl. rewrite read_bytes_spec in Hl; [|done].
    split; [lia|]. replace (m + Z.of_nat (Z.to_nat (x - m))) with x in Hl by lia. congruence. }
  assert (∀ g, h1 ##ₘ g → h1' ##ₘ g) as Hdj1.
  { intros g Hg. apply map_disjoint_insert_l. split; [|done]. by eapply map_disjoint_Some_l. }
  assert (∀ g, h5 ##ₘ g → h5' ##ₘ g) as Hdj5.
  { intros g Hg. apply map_disjoint_insert_l. split; [|done]. by eapply map_disjoint_Some_l. }
  assert (hn ##ₘ h ∪ hf) as Hdn.
  { apply map_disjoint_spec. intros x y z Hx Hy. apply Hhn in Hx as [Hx _].
    rewrite (repr_heap _ _ Hr) in Hy. unfold scell in Hy.
    rewrite decide_True in Hy; [|lia]. rewrite decide_False in Hy; [done|lia]. }
  assert (hn ##ₘ h1 ∧ hn ##ₘ h3 ∧ hn ##ₘ h5 ∧ hn ##ₘ h6 ∧ hn ##ₘ hf) as (Hn1 & Hn3 & Hn5 & Hn6 & Hnf).
  { unfold h in Hdn. rewrite !map_disjoint_union_r in Hdn. naive_solver. }
  exists 0, (mk_pst (mem s) (fsize s) n (epoch s + 1) (maxsz s) (oslim s)),
     ((((h6 ∪ h1') ∪ h3) ∪ h5') ∪ hn).
  assert (h1' ##ₘ h5') as Hd15'. { apply Hdj1. symmetry. apply Hdj5. by symmetry. }
  split_and!.
  - done.
  - rewrite !map_disjoint_union_l. split_and!; try done; [by apply Hdj1|by apply Hdj5].
  - split; [simpl; lia|apply (repr_byte _ _ Hr)|]. intros x.
    assert (((((h6 ∪ h1') ∪ h3) ∪ h5') ∪ hn) ∪ hf =
            <[a_mapped := n]> (<[a_epoch := e + 1]> (hn ∪ (h ∪ hf)))) as ->.
    { unfold h. unfold h1', h5'.
      transitivity (hn ∪ <[a_mapped := n]> (<[a_epoch := e + 1]> (h ∪ hf))).
      - rewrite (map_union_comm _ hn).
        2:{ rewrite !map_disjoint_union_l. split_and!; symmetry; try done; symmetry; [by apply Hdj1|by apply Hdj5]. }
        rewrite -(assoc_L _ hn). f_equal. unfold h.
        rewrite (map_union_comm h6 (<[a_mapped := n]> h1)); [|symmetry; by apply Hdj1].
        rewrite -!insert_union_l. f_equal.
        rewrite (map_union_comm _ (<[a_epoch:=e + 1]> h5)).
        2:{ rewrite !map_disjoint_union_l. split_and!; symmetry; apply Hdj5; done. }
        rewrite -!insert_union_l. f_equal. f_equal.
        rewrite (map_union_comm h5).
        2:{ rewrite !map_disjoint_union_r. done. }
        rewrite -!assoc_L. f_equal.
        rewrite (map_union_comm h6 (h3 ∪ h5)).
        2:{ rewrite !map_disjoint_union_r. done. }
        by rewrite -!assoc_L.
      - rewrite -insert_union_r; [|unfold hn; rewrite hp_of_bytes_lookup decide_False //; unfold a_mapped; lia].
        rewrite -insert_union_r; [|unfold hn; rewrite hp_of_bytes_lookup decide_False //; unfold a_epoch; lia].
        done. }
    unfold scell; simpl.
    destruct (decide (x = a_mapped)) as [->|Hne1]; [by rewrite lookup_insert|].
    rewrite lookup_insert_ne; [|done].
    destruct (decide (x = a_epoch)) as [->|Hne2]; [by rewrite lookup_insert Ee|].
    rewrite lookup_insert_ne; [|done].
    destruct (hn !! x) as [y|] eqn:Ey.
    + erewrite lookup_union_Some_l; [|done]. apply Hhn in Ey as [Hx ->].
      rewrite decide_True; [|lia]. rewrite decide_True; [|lia]. done.
    + rewrite lookup_union_r; [|done]. rewrite (repr_heap _ _ Hr x). unfold scell.
      destruct (decide (0 <= x)).
      * destruct (decide (x < mapped s)); [rewrite decide_True; [done|lia]|].
        rewrite decide_False; [done|]. intros Hx.
        unfold hn in Ey. rewrite hp_of_bytes_lookup decide_True in Ey; [|lia].
        apply lookup_ge_None in Ey. lia.
      * rewrite (decide_False (P := x = a_mapped)); [|done].
        rewrite (decide_False (P := x = a_epoch)); [|done]. done.
  - rewrite hp_wand in H6. specialize (H6 h1').
    feed specialize H6; [symmetry; by apply Hdj1|apply hp_cell, lookup_insert|].
    rewrite hp_wand in H6. specialize (H6 h3).
    feed specialize H6; [rewrite map_disjoint_union_l; split; [by symmetry|by apply Hdj1]|by apply hp_cell|].
    rewrite hp_wand in H6. specialize (H6 h5').
    feed specialize H6; [rewrite !map_disjoint_union_l; split_and!; [symmetry; by apply Hdj5|done|symmetry; by apply Hdj5]|apply hp_cell, lookup_insert|].
    rewrite hp_wand in H6. apply H6.
    { rewrite !map_disjoint_union_l. split_and!; [done|by apply Hdj1|done|by apply Hdj5]. }
    apply hp_exist. exists bs. eapply hp_split; [apply map_disjoint_empty_l| | |symmetry; apply left_id_L; apply _].
    + apply hp_pure. lia.
    + destruct (decide (m < n)).
      * apply hp_pts_of_bytes; [lia|]. apply Forall_lookup. intros i x Hi.
        pose proof (lookup_lt_Some _ _ _ Hi) as Hlt. rewrite Hbs in Hlt.
        unfold bs in Hi. rewrite read_bytes_spec in Hi; [|done].
        injection Hi as <-. apply (repr_byte _ _ Hr).
      * assert (bs = []) as Hbs0 by (apply length_zero_iff_nil; lia).
        rewrite /hn Hbs0. apply hp_pts. done.
Qed.
