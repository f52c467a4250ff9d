(** * SimpleAllocator: pure facts about block lists.

    A layout is the address-ordered list of (block offset, requested size). *)
From Verif Require Import SimpleAllocModel.
From iris.prelude Require Import prelude.
From iris.prelude Require Import options.
Open Scope Z_scope.

Notation blocks := (list (Z * Z)).

(** Size rounded up to a multiple of 8 (no wrap-around). *)
Definition r8 (n : Z) : Z := (n + 7) / 8 * 8.

Lemma r8_spec n : n <= r8 n < n + 8 ∧ r8 n mod 8 = 0.
Proof.
  unfold r8. split; [|apply Z.mod_mul; lia].
  pose proof (Z.div_mod (n + 7) 8 ltac:(lia)).
  pose proof (Z.mod_pos_bound (n + 7) 8 ltac:(lia)). lia.
Qed.
Lemma round8_r8 n : 0 <= n < 2 ^ 64 - 8 → round8 n = r8 n.
Proof. intros H. unfold round8, r8. by rewrite u64_small; [|lia]. Qed.
Global Opaque r8.

Definition hdo (L : blocks) (d : Z) : Z := match L with [] => d | (b, _) :: _ => b end.
Definition lasto (L : blocks) (d : Z) : Z := match last L with Some (b, _) => b | None => d end.
Definition blk_end (x : Z * Z) : Z := x.1 + 24 + r8 x.2.
(** First address after the last block ([d] if there is none). *)
Definition ende (L : blocks) (d : Z) : Z := match last L with Some x => blk_end x | None => d end.

Fixpoint layout (start : Z) (L : blocks) (e : Z) : Prop :=
  match L with
  | [] => start <= e
  | (b, sz) :: L' => start <= b ∧ b mod 8 = 0 ∧ 0 <= sz ∧ layout (b + 24 + r8 sz) L' e
  end.

Lemma hdo_app L1 L2 d : hdo (L1 ++ L2) d = hdo L1 (hdo L2 d).
Proof. by destruct L1 as [|[] ?]. Qed.
Lemma lasto_app L1 L2 d : lasto (L1 ++ L2) d = lasto L2 (lasto L1 d).
Proof. unfold lasto. rewrite last_app. by destruct (last L2). Qed.
Lemma ende_app L1 L2 d : ende (L1 ++ L2) d = ende L2 (ende L1 d).
Proof. unfold ende. rewrite last_app. by destruct (last L2). Qed.
Lemma lasto_cons x L d : lasto (x :: L) d = lasto L x.1.
Proof. unfold lasto. rewrite last_cons. by destruct (last L) as [[]|]; destruct x. Qed.
Lemma ende_cons x L d : ende (x :: L) d = ende L (blk_end x).
Proof. unfold ende. rewrite last_cons. by destruct (last L) as [[]|]; destruct x. Qed.

Lemma layout_app s L1 L2 e :
  layout s (L1 ++ L2) e ↔ layout s L1 (ende L1 s) ∧ layout (ende L1 s) L2 e.
Proof.
  revert s; induction L1 as [|[b sz] L1 IH]; intros s; simpl.
  - unfold ende; simpl. split; [|tauto]. intros H; split; [lia|done].
  - rewrite IH. rewrite (ende_cons (b, sz)). change (blk_end (b, sz)) with (b + 24 + r8 sz). tauto.
Qed.
Lemma layout_weaken_end s L e e' : layout s L e → e <= e' → layout s L e'.
Proof.
  revert s; induction L as [|[b sz] L IH]; intros s; simpl; [lia|].
  intros (?&?&?&?) ?. split_and!; auto.
Qed.
Lemma layout_end s L e : layout s L e → ende L s <= e.
Proof.
  revert s; induction L as [|[b sz] L IH]; intros s; simpl; [unfold ende; simpl; lia|].
  intros (?&?&?&Hl). rewrite ende_cons. apply IH. done.
Qed.
Lemma layout_end_iff s L e : layout s L e ↔ layout s L (ende L s) ∧ ende L s <= e.
Proof.
  split.
  - intros H. split; [|by apply layout_end]. rewrite <- (app_nil_r L) in H.
    apply layout_app in H. tauto.
  - intros [H1 H2]. by eapply layout_weaken_end.
Qed.
Lemma layout_start_le s L e : layout s L e → s <= hdo L e.
Proof. destruct L as [|[b sz] L]; simpl; [done|]. tauto. Qed.
Lemma layout_le s L e : layout s L e → s <= e.
Proof.
  revert s; induction L as [|[b sz] L IH]; intros s; simpl; [done|].
  intros (?&?&?&Hl). apply IH in Hl. pose proof (r8_spec sz). lia.
Qed.
Lemma layout_hdo_le s L e : layout s L e → hdo L e <= e.
Proof.
  destruct L as [|[b sz] L]; simpl; [lia|]. intros (?&?&?&Hl). apply layout_le in Hl.
  pose proof (r8_spec sz). lia.
Qed.
Lemma layout_ende_ge s L e : layout s L e → s <= ende L s.
Proof. intros H. apply layout_end_iff in H as [H _]. by apply layout_le in H. Qed.
Lemma layout_ende_aligned s L e : layout s L e → s mod 8 = 0 → ende L s mod 8 = 0.
Proof.
  revert s; induction L as [|[b sz] L IH]; intros s; simpl; [done|].
  intros (?&?&?&Hl) Hs. rewrite ende_cons. apply IH; [done|]. unfold blk_end; simpl.
  pose proof (r8_spec sz) as [_ H8].
  rewrite Z.add_mod; [|lia]. rewrite H8 Z.add_0_r Z.mod_mod; [|lia].
  rewrite Z.add_mod; [|lia]. rewrite H0. done.
Qed.

Lemma layout_in s L e b sz :
  layout s L e → (b, sz) ∈ L → s <= b ∧ b mod 8 = 0 ∧ 0 <= sz ∧ b + 24 + r8 sz <= e.
Proof.
  revert s; induction L as [|[b' sz'] L IH]; intros s Hl Hin; [by apply elem_of_nil in Hin|].
  simpl in Hl. destruct Hl as (?&?&?&Hl). pose proof (r8_spec sz').
  apply elem_of_cons in Hin as [[= -> ->]|Hin].
  - split_and!; try done. by apply layout_le in Hl.
  - apply (IH _ Hl) in Hin as (?&?&?&?). split_and!; try done. lia.
Qed.

(** Blocks at different positions do not overlap. *)
Lemma layout_sorted s L e : layout s L e →
  ∀ i j x y, (i < j)%nat → L !! i = Some x → L !! j = Some y → blk_end x <= y.1.
Proof.
  revert s; induction L as [|[b sz] L IH]; intros s Hl i j x y Hij Hi Hj; [done|].
  simpl in Hl. destruct Hl as (?&?&?&Hl).
  destruct j as [|j]; [lia|]. simpl in Hj.
  destruct i as [|i]; simpl in Hi.
  - injection Hi as <-. destruct y as [b' sz']. apply elem_of_list_lookup_2 in Hj.
    eapply layout_in in Hj; [|exact Hl]. unfold blk_end; simpl. lia.
  - eapply IH; [done| |done|done]. lia.
Qed.

Lemma blk_end_gt s L e x : layout s L e → x ∈ L → x.1 + 24 <= blk_end x.
Proof.
  intros Hl Hx. destruct x as [b sz]. eapply layout_in in Hx; [|done].
  unfold blk_end; simpl. pose proof (r8_spec sz). lia.
Qed.

Lemma layout_inj s L e i j x y :
  layout s L e → L !! i = Some x → L !! j = Some y → x.1 = y.1 → i = j.
Proof.
  intros Hl Hi Hj Hxy.
  pose proof (blk_end_gt _ _ _ _ Hl (elem_of_list_lookup_2 _ _ _ Hi)).
  pose proof (blk_end_gt _ _ _ _ Hl (elem_of_list_lookup_2 _ _ _ Hj)).
  destruct (decide (i < j)%nat).
  { pose proof (layout_sorted _ _ _ Hl i j x y ltac:(done) Hi Hj). lia. }
  destruct (decide (j < i)%nat).
  { pose proof (layout_sorted _ _ _ Hl j i y x ltac:(done) Hj Hi). lia. }
  lia.
Qed.
Lemma layout_fst_inj s L e b sz sz' :
  layout s L e → (b, sz) ∈ L → (b, sz') ∈ L → sz = sz'.
Proof.
  intros Hl [i Hi]%elem_of_list_lookup_1 [j Hj]%elem_of_list_lookup_1.
  assert (i = j) as -> by (eapply layout_inj; eauto). congruence.
Qed.

(** ** Accounting *)
Definition sum_alloc (L : blocks) : Z := foldr (fun x a => x.2 + a) 0 L.
Definition sum_comm (L : blocks) : Z := foldr (fun x a => r8 x.2 + 24 + a) 0 L.

Lemma sum_alloc_app L1 L2 : sum_alloc (L1 ++ L2) = sum_alloc L1 + sum_alloc L2.
Proof. induction L1 as [|x L1 IH]; simpl; [done|]. lia. Qed.
Lemma sum_comm_app L1 L2 : sum_comm (L1 ++ L2) = sum_comm L1 + sum_comm L2.
Proof. induction L1 as [|x L1 IH]; simpl; [done|]. lia. Qed.
Lemma sum_bounds s L e : layout s L e →
  0 <= sum_alloc L <= sum_comm L ∧ s + sum_comm L <= e.
Proof.
  revert s; induction L as [|[b sz] L IH]; intros s; simpl; [lia|].
  intros (?&?&?&Hl). apply IH in Hl. pose proof (r8_spec sz). lia.
Qed.

(** ** Best fit *)
(** The gaps of a layout, in address order: offset, size, and the block before
    the gap (0 for the gap before the first block). *)
Fixpoint gaps_after (L : blocks) (e : Z) : list (Z * Z * Z) :=
  match L with
  | [] => []
  | (b, sz) :: L' =>
      (b + 24 + r8 sz, hdo L' e - (b + 24 + r8 sz), b) :: gaps_after L' e
  end.
Definition gaps (L : blocks) (e : Z) : list (Z * Z * Z) :=
  (320, hdo L e - 320, 0) :: gaps_after L e.

(** What the search loop computes. *)
Fixpoint scan_list (needed : Z) (L : blocks) (e : Z) (cand : Z * Z * Z) : Z * Z * Z :=
  match L with
  | [] => cand
  | (b, sz) :: L' =>
      if bool_decide (needed = cand.1.2) then cand
      else
        let free := hdo L' e - (b + 24 + r8 sz) in
        if bool_decide (needed <= free ∧ (cand.1.2 < needed ∨ free < cand.1.2))
        then scan_list needed L' e (b + 24 + r8 sz, free, b)
        else scan_list needed L' e cand
  end.

(** Its result is a gap of minimal sufficient size, if there is any. *)
Lemma scan_list_spec needed L e : ∀ cand,
  let r := scan_list needed L e cand in
  (r = cand ∨ r ∈ gaps_after L e) ∧
  (needed <= r.1.2 →
     (cand.1.2 < needed ∨ r.1.2 <= cand.1.2) ∧
     ∀ g, g ∈ gaps_after L e → needed <= g.1.2 → r.1.2 <= g.1.2) ∧
  (r.1.2 < needed → r = cand ∧ ∀ g, g ∈ gaps_after L e → g.1.2 < needed).
Proof.
  induction L as [|[b sz] L IH]; intros cand; simpl.
  - split_and!; [by left|..].
    + intros H. split; [right; lia|]. intros g Hg. by apply elem_of_nil in Hg.
    + intros _. split; [done|]. intros g Hg. by apply elem_of_nil in Hg.
  - case_bool_decide as H1.
    { split_and!; [by left|..].
      - intros H. split; [right; lia|]. intros g _ Hg. lia.
      - lia. }
    set (g0 := (b + 24 + r8 sz, hdo L e - (b + 24 + r8 sz), b)).
    case_bool_decide as H2.
    + destruct (IH g0) as (Ha & Hb & Hc). fold g0. split_and!.
      * right. destruct Ha as [->|Ha]; [left|by right].
      * intros Hn. destruct (Hb Hn) as [Hb1 Hb2]. simpl in Hb1.
        assert ((scan_list needed L e g0).1.2 <= hdo L e - (b + 24 + r8 sz)) by lia.
        split; [lia|]. intros g Hg Hgn.
        apply elem_of_cons in Hg as [->|Hg]; [simpl; lia|auto].
      * intros Hn. destruct (Hc Hn) as [Hc1 _].
        rewrite Hc1 in Hn. simpl in Hn. lia.
    + destruct (IH cand) as (Ha & Hb & Hc). split_and!.
      * destruct Ha as [->|Ha]; [by left|right; by right].
      * intros Hn. destruct (Hb Hn) as [Hb1 Hb2]. split; [done|].
        intros g Hg Hgn. apply elem_of_cons in Hg as [->|Hg]; [simpl in *; lia|auto].
      * intros Hn. destruct (Hc Hn) as [Hc1 Hc2]. split; [done|].
        intros g Hg. apply elem_of_cons in Hg as [->|Hg]; [|auto].
        simpl. rewrite Hc1 in Hn. lia.
Qed.

(** A gap determines where the list is cut. *)
Lemma gaps_after_cut L e g :
  g ∈ gaps_after L e →
  ∃ L1 b sz L2, L = L1 ++ (b, sz) :: L2 ∧ g = (b + 24 + r8 sz, hdo L2 e - (b + 24 + r8 sz), b).
Proof.
  induction L as [|[b sz] L IH]; simpl; intros Hg; [by apply elem_of_nil in Hg|].
  apply elem_of_cons in Hg as [->|Hg].
  - exists [], b, sz, L. done.
  - destruct (IH Hg) as (L1&b'&sz'&L2&->&->). exists ((b, sz) :: L1), b', sz', L2.
    split; [done|]. done.
Qed.
Lemma gaps_after_cut_2 L1 b sz L2 e :
  (b + 24 + r8 sz, hdo L2 e - (b + 24 + r8 sz), b) ∈ gaps_after (L1 ++ (b, sz) :: L2) e.
Proof.
  induction L1 as [|[b' sz'] L1 IH]; simpl; [by left|right; apply IH].
Qed.

(** ** Gaps by cut *)
(** The gap between the blocks [A] and the blocks [B] of the layout [A ++ B]. *)
Definition gap (A B : blocks) (m : Z) : Z := hdo B m - ende A 320.
Definition no_fit (L : blocks) (m need : Z) : Prop :=
  ∀ A B, L = A ++ B → gap A B m < need.
Definition best_fit (A0 B0 : blocks) (m need : Z) : Prop :=
  need <= gap A0 B0 m ∧
  ∀ A B, A0 ++ B0 = A ++ B → need <= gap A B m → gap A0 B0 m <= gap A B m.

Lemma cut_gap A B m :
  ∀ r, r = (ende A 320, gap A B m, lasto A 0) →
  (A = [] ∧ r = (320, hdo B m - 320, 0)) ∨ r ∈ gaps_after (A ++ B) m.
Proof.
  intros r ->. destruct A as [|[p psz] A _] using rev_ind; [by left|right].
  unfold gap, ende, lasto. rewrite !last_snoc. rewrite -app_assoc. apply gaps_after_cut_2.
Qed.

Lemma scan_cut need L m :
  let r := scan_list need L m (320, hdo L m - 320, 0) in
  (need <= r.1.2 → ∃ L1 L2, L = L1 ++ L2 ∧
     r = (ende L1 320, gap L1 L2 m, lasto L1 0) ∧ best_fit L1 L2 m need) ∧
  (r.1.2 < need → no_fit L m need).
Proof.
  intros r. destruct (scan_list_spec need L m (320, hdo L m - 320, 0)) as (Ha & Hb & Hc).
  fold r in Ha, Hb, Hc. simpl in Hb.
  split.
  - intros Hn. destruct (Hb Hn) as [Hb1 Hb2].
    assert (∃ L1 L2, L = L1 ++ L2 ∧ r = (ende L1 320, gap L1 L2 m, lasto L1 0)) as (L1&L2&HL&Hr).
    { destruct Ha as [Ha|Ha].
      - exists [], L. done.
      - apply gaps_after_cut in Ha as (L1&b&sz&L2&->&->).
        exists (L1 ++ [(b, sz)]), L2. rewrite -app_assoc. split; [done|].
        unfold gap, ende, lasto. rewrite !last_snoc. done. }
    exists L1, L2. split_and!; [done|done|]. rewrite Hr in Hn, Hb1, Hb2; simpl in *.
    split; [done|]. intros A B HAB Hfit. rewrite -HL in HAB.
    destruct (cut_gap A B m _ eq_refl) as [[-> Hg]|Hg].
    + simpl in HAB. subst B. assert (gap [] L m = hdo L m - 320) as E by done. rewrite E in Hfit |- *. lia.
    + rewrite -HAB in Hg. apply Hb2 in Hg; simpl in *; lia.
  - intros Hn. destruct (Hc Hn) as [Hc1 Hc2]. rewrite Hc1 in Hn. simpl in Hn.
    intros A B ->. destruct (cut_gap A B m _ eq_refl) as [[-> Hg]|Hg].
    + unfold gap. simpl in *. change (ende [] 320) with 320. lia.
    + apply Hc2 in Hg. done.
Qed.
