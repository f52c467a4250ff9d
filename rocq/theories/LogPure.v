(** * Arithmetic of LogarithmicAllocator: orders, buddies and tilings. *)
From Verif Require Export LogAllocModel.
From iris.prelude Require Import prelude options.
Open Scope Z_scope.

(** ** Bits *)
Lemma land_shifted a r n : 0 <= n → 0 <= r < 2 ^ n → Z.land (a * 2 ^ n) r = 0.
Proof.
  intros Hn Hr. apply Z.bits_inj'. intros i Hi. rewrite Z.land_spec Z.bits_0.
  destruct (decide (i < n)).
  - by rewrite Z.mul_pow2_bits_low.
  - rewrite andb_comm. rewrite -(Z.mod_small r (2 ^ n)) //. rewrite Z.mod_pow2_bits_high //. lia.
Qed.
Lemma lor_shifted a r n : 0 <= n → 0 <= r < 2 ^ n → Z.lor (a * 2 ^ n) r = a * 2 ^ n + r.
Proof.
  intros Hn Hr. pose proof (land_shifted a r n Hn Hr).
  rewrite -Z.lxor_lor //. by rewrite Z.add_nocarry_lxor.
Qed.
Lemma lxor_shifted a r s n : 0 <= n → 0 <= r < 2 ^ n → 0 <= s < 2 ^ n →
  Z.lxor (a * 2 ^ n + r) s = a * 2 ^ n + Z.lxor r s.
Proof.
  intros Hn Hr Hs.
  assert (0 <= Z.lxor r s < 2 ^ n) as Hx.
  { split; [apply Z.lxor_nonneg; tauto|].
    destruct (decide (Z.lxor r s = 0)) as [->|Hz]; [lia|].
    assert (0 <= Z.lxor r s) by (apply Z.lxor_nonneg; tauto).
    apply Z.log2_lt_pow2; [lia|].
    eapply Z.le_lt_trans; [apply Z.log2_lxor; lia|].
    destruct (decide (n = 0)) as [->|]. { simpl in *. assert (r = 0) by lia. assert (s = 0) by lia. subst. done. }
    destruct (decide (r = 0)) as [->|], (decide (s = 0)) as [->|]; simpl; try lia.
    - rewrite Z.max_r; [apply Z.log2_lt_pow2; lia|apply Z.log2_nonneg].
    - rewrite Z.max_l; [apply Z.log2_lt_pow2; lia|apply Z.log2_nonneg].
    - apply Z.max_lub_lt; apply Z.log2_lt_pow2; lia. }
  rewrite !Z.add_nocarry_lxor; try by apply land_shifted. by rewrite Z.lxor_assoc.
Qed.
Lemma lxor_two a r s n : 0 <= n → 0 <= r < 2 ^ n → 0 <= s < 2 ^ n →
  Z.lxor (a * 2 ^ n + r) (a * 2 ^ n + s) = Z.lxor r s.
Proof.
  intros Hn Hr Hs. rewrite !Z.add_nocarry_lxor; try by apply land_shifted.
  rewrite Z.lxor_assoc (Z.lxor_comm r) -!Z.lxor_assoc Z.lxor_nilpotent Z.lxor_0_l. apply Z.lxor_comm.
Qed.

(** ** Headers *)
Lemma fb_prev_eq k p : 0 <= p < 2 ^ 57 → fb_prev (k * 2 ^ 57 + p) = p.
Proof.
  intros Hp. unfold fb_prev. replace (2 ^ 57 - 1) with (Z.ones 57) by reflexivity. rewrite Z.land_ones //.
  rewrite Z.add_comm Z.mod_add // Z.mod_small //.
Qed.
Lemma fb_shift k p : 0 <= p < 2 ^ 57 → Z.shiftr (k * 2 ^ 57 + p) 57 = k.
Proof.
  intros Hp. rewrite Z.shiftr_div_pow2 // Z.add_comm Z.div_add // Z.div_small //. 
Qed.
Lemma fb_order_eq k p : 0 <= p < 2 ^ 57 → 0 <= k < 64 → fb_order (k * 2 ^ 57 + p) = k.
Proof.
  intros Hp Hk. unfold fb_order. rewrite fb_shift //.
  change 63 with (Z.ones 6). rewrite Z.land_ones // Z.mod_small //.
Qed.
Lemma fb_allocated_eq k p : 0 <= p < 2 ^ 57 → 0 <= k < 64 → fb_allocated (k * 2 ^ 57 + p) = false.
Proof.
  intros Hp Hk. unfold fb_allocated. change 63 with (57 + 6).
  rewrite -Z.shiftr_shiftr // fb_shift // Z.shiftr_div_pow2 // Z.div_small //.
Qed.
Lemma fb_lor k p : 0 <= p < 2 ^ 57 → 0 <= k < 64 → Z.lor (u64 (Z.shiftl k 57)) p = k * 2 ^ 57 + p.
Proof.
  intros Hp Hk. rewrite Z.shiftl_mul_pow2 // u64_small; [|lia]. by apply lor_shifted.
Qed.
Lemma ab_lor n : 0 <= n < 2 ^ 63 → Z.lor n (2 ^ 63) = 2 ^ 63 + n.
Proof. intros. rewrite Z.lor_comm. change (2 ^ 63) with (1 * 2 ^ 63). by apply lor_shifted. Qed.
Lemma ab_size_eq n : 0 <= n < 2 ^ 63 → ab_size (2 ^ 63 + n) = n.
Proof.
  intros Hn. unfold ab_size. replace (2 ^ 63 - 1) with (Z.ones 63) by reflexivity. rewrite Z.land_ones //.
  change (2 ^ 63 + n) with (1 * 2 ^ 63 + n). rewrite Z.add_comm Z.mod_add // Z.mod_small //.
Qed.
Lemma ab_allocated n : 0 <= n < 2 ^ 63 → fb_allocated (2 ^ 63 + n) = true.
Proof.
  intros Hn. unfold fb_allocated. rewrite Z.shiftr_div_pow2 //.
  change (2 ^ 63 + n) with (1 * 2 ^ 63 + n). rewrite Z.add_comm Z.div_add // Z.div_small //.
Qed.

(** ** Orders *)
Lemma pow_pos k : 0 < 2 ^ k ∨ k < 0.
Proof. destruct (decide (k < 0)); [by right|left]. apply Z.pow_pos_nonneg; lia. Qed.
Lemma pow_succ k : 0 <= k → 2 ^ (k + 1) = 2 * 2 ^ k.
Proof. intros. rewrite Z.add_1_r Z.pow_succ_r //. Qed.
Lemma pow_le j k : 0 <= j <= k → 2 ^ j <= 2 ^ k.
Proof. intros. apply Z.pow_le_mono_r; lia. Qed.
Lemma pow_dvd j k : 0 <= j <= k → (2 ^ j | 2 ^ k).
Proof. intros. exists (2 ^ (k - j)). rewrite -Z.pow_add_r; [|lia|lia]. f_equal. lia. Qed.

Lemma order_for_size_spec x k : 1 <= k <= 63 → 2 ^ (k - 1) < x <= 2 ^ k → order_for_size x = k.
Proof.
  intros Hk Hx.
  assert (2 ^ k <= 2 ^ 63) by (apply pow_le; lia). assert (0 < 2 ^ (k - 1)) by (apply Z.pow_pos_nonneg; lia).
  unfold order_for_size. rewrite u64_small; [|lia].
  destruct (decide (x = 2 ^ k)) as [->|Hne].
  - rewrite bool_decide_eq_true_2; [by apply Z.log2_pow2; lia|].
    rewrite -(Z.mul_1_l (2 ^ k)). apply land_shifted; lia.
  - assert (Z.log2 x = k - 1) as Hl.
    { apply Z.log2_unique; [lia|]. rewrite -Z.add_1_r. replace (k - 1 + 1) with k by lia. lia. }
    assert (Z.log2 (x - 1) = k - 1) as Hl'.
    { apply Z.log2_unique; [lia|]. rewrite -Z.add_1_r. replace (k - 1 + 1) with k by lia. lia. }
    rewrite bool_decide_eq_false_2; [lia|]. intros Hz.
    assert (Z.testbit (Z.land x (x - 1)) (k - 1) = true) as Ht.
    { rewrite Z.land_spec. rewrite -{1}Hl -{1}Hl'. rewrite !Z.bit_log2; [done|lia|lia]. }
    by rewrite Hz Z.bits_0 in Ht.
Qed.
Lemma order_exists x : 9 <= x <= 4096 → ∃ k, order_for_size x = k ∧ 4 <= k <= 12 ∧ 2 ^ (k - 1) < x <= 2 ^ k.
Proof.
  intros Hx. exists (Z.log2_up x).
  pose proof (Z.log2_up_spec x ltac:(lia)) as [H1 H2].
  assert (4 <= Z.log2_up x).
  { change 4 with (Z.log2_up 9). apply Z.log2_up_le_mono. lia. }
  assert (Z.log2_up x <= 12).
  { change 12 with (Z.log2_up 4096). apply Z.log2_up_le_mono. lia. }
  rewrite -Z.sub_1_r in H1.
  split; [apply order_for_size_spec; lia|]. lia.
Qed.
Lemma size_for_order_ok k : 0 <= k <= 30 → size_for_order k = Ret (2 ^ k).
Proof. intros. unfold size_for_order. by rewrite bool_decide_eq_true_2. Qed.

Lemma alignment_spec a j : 0 <= a → 0 <= j <= 60 → a * 2 ^ (j + 1) + 2 ^ j < 2 ^ 63 →
  order_alignment_of_size (a * 2 ^ (j + 1) + 2 ^ j) = j.
Proof.
  intros Ha Hj Hlt. unfold order_alignment_of_size.
  assert (0 < 2 ^ j) by (apply Z.pow_pos_nonneg; lia).
  pose proof (pow_succ j ltac:(lia)).
  assert (2 ^ (j + 1) <= 2 ^ 61) by (apply pow_le; lia).
  assert (0 <= a * 2 ^ (j + 1)) by (apply Z.mul_nonneg_nonneg; lia).
  rewrite (u64_small (_ - 1)); [|lia].
  replace (a * 2 ^ (j + 1) + 2 ^ j - 1) with (a * 2 ^ (j + 1) + (2 ^ j - 1)) by lia.
  rewrite lxor_two; [|lia|lia|lia].
  assert (Z.lxor (2 ^ j) (2 ^ j - 1) = 2 ^ (j + 1) - 1) as ->.
  { rewrite -Z.add_nocarry_lxor; [lia|]. rewrite -{1}(Z.mul_1_l (2 ^ j)). apply land_shifted; lia. }
  replace (2 ^ (j + 1) - 1 + 1) with (2 ^ (j + 1)) by lia.
  rewrite u64_small; [|lia]. rewrite Z.shiftr_div_pow2 //.
  replace (2 ^ (j + 1) / 2 ^ 1) with (2 ^ j).
  2:{ rewrite pow_succ; [|lia]. change (2 ^ 1) with 2. rewrite Z.mul_comm Z.div_mul //. }
  unfold order_for_size. rewrite u64_small; [|lia].
  rewrite bool_decide_eq_true_2; [by apply Z.log2_pow2; lia|].
  rewrite -{1}(Z.mul_1_l (2 ^ j)). apply land_shifted; lia.
Qed.
Lemma ldiff_aligned x k : 0 <= k → x mod 2 ^ k = 0 → Z.ldiff x (2 ^ k - 1) = x.
Proof.
  intros Hk Hm. rewrite -Z.sub_1_r || idtac.
  replace (2 ^ k - 1) with (Z.ones k) by (rewrite Z.ones_equiv; lia).
  rewrite Z.ldiff_ones_r // Z.shiftl_mul_pow2 // Z.shiftr_div_pow2 //.
  pose proof (Z.div_mod x (2 ^ k)). assert (0 < 2 ^ k) by (apply Z.pow_pos_nonneg; lia). lia.
Qed.

(** ** Buddies *)
Definition buddy (o k : Z) : Z := Z.lxor o (2 ^ k).
Lemma buddy_spec o k : 0 <= k → o mod 2 ^ k = 0 →
  (o mod 2 ^ (k + 1) = 0 ∧ buddy o k = o + 2 ^ k) ∨
  (o mod 2 ^ (k + 1) = 2 ^ k ∧ buddy o k = o - 2 ^ k ∧ (o - 2 ^ k) mod 2 ^ (k + 1) = 0).
Proof.
  intros Hk Hm. assert (0 < 2 ^ k) as Hp by (apply Z.pow_pos_nonneg; lia).
  pose proof (pow_succ k Hk) as Hs.
  pose proof (Z.div_mod o (2 ^ (k + 1)) ltac:(lia)) as Hd.
  pose proof (Z.mod_pos_bound o (2 ^ (k + 1)) ltac:(lia)) as Hb.
  set (q := o / 2 ^ (k + 1)) in *. set (r := o mod 2 ^ (k + 1)) in *.
  assert (r mod 2 ^ k = 0) as Hr.
  { unfold r. rewrite Hs. rewrite -Hm. rewrite (Z.mul_comm 2).
    rewrite Z.rem_mul_r; [|lia|lia]. rewrite Hm Z.add_0_l.
    rewrite Z.mul_comm Z.mod_mul; lia. }
  assert (r = 0 ∨ r = 2 ^ k) as Hr'.
  { pose proof (Z.div_mod r (2 ^ k) ltac:(lia)). rewrite Hr in H.
    assert (r / 2 ^ k = 0 ∨ r / 2 ^ k = 1) as [E|E]; [|rewrite E in H; lia|rewrite E in H; lia].
    assert (0 <= r / 2 ^ k) by (apply Z.div_pos; lia).
    assert (r / 2 ^ k < 2) by (apply Z.div_lt_upper_bound; lia). lia. }
  assert (buddy o k = 2 ^ (k + 1) * q + Z.lxor r (2 ^ k)) as Hbu.
  { unfold buddy. rewrite {1}Hd (Z.mul_comm _ q). apply lxor_shifted; lia. }
  destruct Hr' as [Hr0|Hr0]; [left|right].
  - split; [done|]. rewrite Hbu Hr0 Z.lxor_0_l. lia.
  - split; [done|]. rewrite Hbu Hr0 Z.lxor_nilpotent. split; [lia|].
    replace (o - 2 ^ k) with (q * 2 ^ (k + 1)) by lia. apply Z.mod_mul. lia.
Qed.
Lemma buddy31 o : 0 <= o < 2 ^ 57 → o mod 2 ^ 31 = 0 →
  Z.lxor o (2 ^ 64 - 2 ^ 31) = 2 ^ 64 - 2 ^ 31 - o.
Proof.
  intros Ho Hm.
  assert (Z.ldiff o (2 ^ 64 - 2 ^ 31) = 0) as Hl.
  { apply Z.bits_inj'. intros i Hi. rewrite Z.ldiff_spec Z.bits_0.
    destruct (decide (i < 31)).
    { pose proof (Z.div_mod o (2 ^ 31) ltac:(lia)) as Hd. rewrite Hm in Hd.
      replace o with ((o / 2 ^ 31) * 2 ^ 31) by lia. rewrite Z.mul_pow2_bits_low //. }
    destruct (decide (i < 64)).
    - rewrite andb_comm. replace (2 ^ 64 - 2 ^ 31) with ((2 ^ 33 - 1) * 2 ^ 31) by reflexivity.
      rewrite Z.mul_pow2_bits; [|lia].
      replace (2 ^ 33 - 1) with (Z.ones 33) by reflexivity. rewrite Z.ones_spec_low; [done|lia].
    - assert (o = o mod 2 ^ 57) as -> by (rewrite Z.mod_small; lia).
      rewrite Z.mod_pow2_bits_high //. lia. }
  rewrite (Z.sub_nocarry_ldiff _ _ Hl).
  apply Z.bits_inj'. intros i Hi. rewrite Z.lxor_spec Z.ldiff_spec.
  assert (Z.testbit (Z.ldiff o (2 ^ 64 - 2 ^ 31)) i = false) as Hb by (rewrite Hl; apply Z.bits_0).
  rewrite Z.ldiff_spec in Hb. by destruct (Z.testbit o i), (Z.testbit (2 ^ 64 - 2 ^ 31) i).
Qed.

(** ** Tilings *)
(** A block: offset, order, and the requested size if it is allocated. *)
Definition tile : Type := Z * Z * option Z.
Definition tile_ok (t : tile) : Prop :=
  let '(o, k, a) := t in
  4 <= k <= 31 ∧ o mod 2 ^ k = 0 ∧
  match a with None => True | Some n => 1 <= n ∧ k <= 30 ∧ 2 ^ (k - 1) < n + 8 <= 2 ^ k end.
Fixpoint tiles (s : Z) (L : list tile) (e : Z) : Prop :=
  match L with
  | [] => s = e
  | t :: L' => t.1.1 = s ∧ tile_ok t ∧ tiles (s + 2 ^ t.1.2) L' e
  end.

Lemma tiles_app s L1 L2 e : tiles s (L1 ++ L2) e ↔ ∃ m, tiles s L1 m ∧ tiles m L2 e.
Proof.
  revert s; induction L1 as [|t L1 IH]; intros s; simpl.
  - split; [intros H; by exists s|by intros (m & -> & ?)].
  - split.
    + intros (?&?&H). apply IH in H as (m & ? & ?). by exists m.
    + intros (m & (?&?&?) & ?). split; [done|]. split; [done|]. apply IH. by exists m.
Qed.
Lemma tile_pos t : tile_ok t → 16 <= 2 ^ t.1.2.
Proof.
  destruct t as [[o k] a]. intros [? _]. simpl. change 16 with (2 ^ 4). apply pow_le. lia.
Qed.
Lemma tiles_le s L e : tiles s L e → s + 16 * Z.of_nat (length L) <= e.
Proof.
  revert s; induction L as [|t L IH]; intros s; simpl; [lia|]. intros (?&H&?%IH).
  pose proof (tile_pos t H). lia.
Qed.
Lemma tiles_in s L e t : tiles s L e → t ∈ L → tile_ok t ∧ s <= t.1.1 ∧ t.1.1 + 2 ^ t.1.2 <= e.
Proof.
  intros H (L1 & L2 & ->)%elem_of_list_split. apply tiles_app in H as (m & H1 & H2).
  apply tiles_le in H1. destruct H2 as (Ht & Hok & H2). apply tiles_le in H2.
  split; [done|]. subst m. lia.
Qed.
Lemma tiles_same s L1 L2 e t : tiles s (L1 ++ t :: L2) e → ∀ t', t' ∈ L1 ++ L2 →
  t'.1.1 + 2 ^ t'.1.2 <= t.1.1 ∨ t.1.1 + 2 ^ t.1.2 <= t'.1.1.
Proof.
  intros H t' Hin. apply tiles_app in H as (m & H1 & (Ht & Hok & H2)).
  apply elem_of_app in Hin as [Hin|Hin].
  - left. eapply tiles_in in Hin as (?&?&?); [|exact H1]. lia.
  - right. eapply tiles_in in Hin as (?&?&?); [|exact H2]. lia.
Qed.
Lemma tiles_inj s L e t t' : tiles s L e → t ∈ L → t' ∈ L → t.1.1 = t'.1.1 → t = t'.
Proof.
  intros H Ht Ht' He. apply elem_of_list_split in Ht as (L1 & L2 & ->).
  pose proof (tiles_same _ _ _ _ _ H t') as Hs.
  apply elem_of_app in Ht' as [Hin|Hin]; [|apply elem_of_cons in Hin as [->|Hin]; [done|]].
  all: exfalso; assert (t' ∈ L1 ++ t :: L2) as Hin' by (rewrite elem_of_app elem_of_cons; tauto).
  all: assert (t ∈ L1 ++ t :: L2) as Hin'' by (rewrite elem_of_app elem_of_cons; tauto).
  all: pose proof (tiles_in _ _ _ _ H Hin') as [Hok _]; apply tile_pos in Hok.
  all: pose proof (tiles_in _ _ _ _ H Hin'') as [Hok' _]; apply tile_pos in Hok'.
  all: destruct Hs as [Hs|Hs]; [rewrite elem_of_app; tauto|lia|lia].
Qed.
Lemma tiles_nodup s L e : tiles s L e → NoDup L.
Proof.
  revert s; induction L as [|t L IH]; intros s H; simpl; [constructor|].
  constructor.
  - intros Hin. pose proof (tiles_same _ [] L _ t H t Hin).
    destruct H as (?&Hok&?). apply tile_pos in Hok. lia.
  - destruct H as (?&?&?). by eapply IH.
Qed.
(** Every offset inside is in some block. *)
Lemma tiles_cover s L e x : tiles s L e → s <= x < e → ∃ t, t ∈ L ∧ t.1.1 <= x < t.1.1 + 2 ^ t.1.2.
Proof.
  revert s; induction L as [|t L IH]; intros s; simpl; [lia|]. intros (Hs & Hok & H) Hx.
  destruct (decide (x < s + 2 ^ t.1.2)).
  - exists t. split; [by left|]. lia.
  - destruct (IH _ H ltac:(lia)) as (t' & ? & ?). exists t'. split; [by right|done].
Qed.

Lemma mod_dvd_trans x j k : 0 <= j <= k → x mod 2 ^ k = 0 → x mod 2 ^ j = 0.
Proof.
  intros Hj Hm. assert (0 < 2 ^ k) by (apply Z.pow_pos_nonneg; lia).
  assert (0 < 2 ^ j) by (apply Z.pow_pos_nonneg; lia).
  apply Z.mod_divide; [lia|]. apply Z.mod_divide in Hm; [|lia].
  etransitivity; [by apply pow_dvd|done].
Qed.
(** No multiple of 2^j strictly between two consecutive ones. *)
Lemma mult_gap p x j : 0 <= j → p mod 2 ^ j = 0 → x mod 2 ^ j = 0 → p < x < p + 2 ^ j → False.
Proof.
  intros Hj Hp Hx Hb. assert (0 < 2 ^ j) by (apply Z.pow_pos_nonneg; lia).
  pose proof (Z.div_mod p (2 ^ j) ltac:(lia)) as E1. pose proof (Z.div_mod x (2 ^ j) ltac:(lia)) as E2.
  rewrite Hp in E1. rewrite Hx in E2.
  assert (p / 2 ^ j < x / 2 ^ j) by (apply (Z.mul_lt_mono_pos_l (2 ^ j)); lia).
  assert (2 ^ j * (p / 2 ^ j + 1) <= 2 ^ j * (x / 2 ^ j)) by (apply Z.mul_le_mono_nonneg_l; lia). lia.
Qed.

(** The buddy of a block is the start of a block, if it is inside; and it is next
    to the block if it has the same order. *)
Lemma buddy_start s L1 o k L2 e : 0 <= k → o mod 2 ^ k = 0 →
  tiles s L1 o → tiles (o + 2 ^ k) L2 e →
  s <= buddy o k → buddy o k + 2 ^ k <= e →
  ∃ t, t ∈ L1 ++ L2 ∧ t.1.1 = buddy o k.
Proof.
  intros Hk Hm H1 H2 Hs He. assert (0 < 2 ^ k) by (apply Z.pow_pos_nonneg; lia).
  destruct (buddy_spec o k Hk Hm) as [[Hm' Hb]|(Hm' & Hb & Hm'')].
  - rewrite Hb in He. destruct L2 as [|t L2]; simpl in H2; [lia|].
    exists t. split; [rewrite elem_of_app elem_of_cons; tauto|]. rewrite Hb. tauto.
  - rewrite Hb in Hs |- *. destruct (tiles_cover _ _ _ (o - 2 ^ k) H1 ltac:(lia)) as (t & Hin & Ht).
    exists t. split; [rewrite elem_of_app; tauto|].
    pose proof (tiles_in _ _ _ _ H1 Hin) as (Hok & _ & Hend). destruct t as [[p j] a]. simpl in *.
    destruct Hok as (Hj & Hpm & _).
    destruct (decide (p = o - 2 ^ k)) as [|Hne]; [done|]. exfalso.
    destruct (decide (j <= k + 1)).
    + eapply (mult_gap p (o - 2 ^ k) j); [lia|done| |lia].
      eapply mod_dvd_trans; [|exact Hm'']. lia.
    + pose proof (pow_succ k Hk).
      assert ((p + 2 ^ j) mod 2 ^ (k + 1) = 0) as Hpe.
      { apply Z.mod_divide; [lia|]. apply Z.divide_add_r.
        - apply Z.mod_divide; [lia|]. eapply mod_dvd_trans; [|exact Hpm]. lia.
        - apply pow_dvd. lia. }
      eapply (mult_gap (o - 2 ^ k) (p + 2 ^ j) (k + 1)); [lia|done|done|lia].
Qed.
Lemma tiles_last s L e t : tiles s L e → t ∈ L → t.1.1 + 2 ^ t.1.2 = e → ∃ L', L = L' ++ [t] ∧ tiles s L' t.1.1.
Proof.
  intros H (L1 & L2 & ->)%elem_of_list_split He. apply tiles_app in H as (m & H1 & (Hm & Hok & H2)).
  destruct L2 as [|t' L2].
  - exists L1. subst m. done.
  - exfalso. apply tiles_le in H2. simpl in H2. lia.
Qed.
Lemma tiles_first s L e t : tiles s L e → t ∈ L → t.1.1 = s → ∃ L', L = t :: L' ∧ tiles (s + 2 ^ t.1.2) L' e.
Proof.
  intros H (L1 & L2 & ->)%elem_of_list_split He. 
  destruct L1 as [|t' L1]; simpl in H.
  - destruct H as (?&?&?). by exists L2.
  - exfalso. destruct H as (?&Hok&H). apply tile_pos in Hok.
    assert (t ∈ L1 ++ t :: L2) as Hin by (rewrite elem_of_app elem_of_cons; tauto).
    pose proof (tiles_in _ _ _ _ H Hin) as (?&?&?). lia.
Qed.
(** Merging with the buddy. *)
Lemma buddy_adjacent s L1 o k L2 e b : 4 <= k → o mod 2 ^ k = 0 →
  tiles s L1 o → tiles (o + 2 ^ k) L2 e → (buddy o k, k, b) ∈ L1 ++ L2 →
  (∃ L2', L2 = (buddy o k, k, b) :: L2' ∧ o < buddy o k ∧ o mod 2 ^ (k + 1) = 0 ∧
     tiles (o + 2 ^ (k + 1)) L2' e) ∨
  (∃ L1', L1 = L1' ++ [(buddy o k, k, b)] ∧ buddy o k < o ∧ buddy o k mod 2 ^ (k + 1) = 0 ∧
     tiles s L1' (buddy o k) ∧ buddy o k + 2 ^ (k + 1) = o + 2 ^ k).
Proof.
  intros Hk Hm H1 H2 Hin. assert (0 < 2 ^ k) by (apply Z.pow_pos_nonneg; lia).
  pose proof (pow_succ k ltac:(lia)) as Hs.
  destruct (buddy_spec o k ltac:(lia) Hm) as [[Hm' Hb]|(Hm' & Hb & Hm'')].
  - left. apply elem_of_app in Hin as [Hin|Hin].
    { exfalso. pose proof (tiles_in _ _ _ _ H1 Hin) as (_ & _ & Hx). simpl in Hx. lia. }
    destruct (tiles_first _ _ _ _ H2 Hin) as (L2' & -> & H2'); [simpl; lia|].
    exists L2'. split; [done|]. split; [lia|]. split; [done|]. simpl in H2'. rewrite Hs.
    by replace (o + 2 * 2 ^ k) with (o + 2 ^ k + 2 ^ k) by lia.
  - right. apply elem_of_app in Hin as [Hin|Hin].
    2:{ exfalso. pose proof (tiles_in _ _ _ _ H2 Hin) as (_ & Hx & _). simpl in Hx. lia. }
    destruct (tiles_last _ _ _ _ H1 Hin) as (L1' & -> & H1'); [simpl; lia|].
    exists L1'. split; [done|]. split; [lia|]. split; [by rewrite Hb|]. split; [done|]. lia.
Qed.

(** ** Free blocks *)
Definition free_of (k : Z) (L : list tile) : list Z :=
  omap (λ t : tile, if decide (t.1.2 = k ∧ t.2 = None) then Some t.1.1 else None) L.
Lemma free_of_app k L1 L2 : free_of k (L1 ++ L2) = free_of k L1 ++ free_of k L2.
Proof. apply omap_app. Qed.
Lemma free_of_in k L o : o ∈ free_of k L ↔ (o, k, None) ∈ L.
Proof.
  unfold free_of. rewrite elem_of_list_omap. split.
  - intros ([[o' k'] a] & Hin & He). simpl in He. case_decide as Hd; [|done].
    destruct Hd as [-> ->]. by injection He as ->.
  - intros Hin. eexists. split; [exact Hin|]. simpl. rewrite decide_True //.
Qed.
Lemma free_of_cons_same k o L : free_of k ((o, k, None) :: L) = o :: free_of k L.
Proof. unfold free_of. simpl. by rewrite decide_True. Qed.
Lemma free_of_cons_ne j k o a L : (j ≠ k ∨ a ≠ None) → free_of j ((o, k, a) :: L) = free_of j L.
Proof. intros H. unfold free_of. simpl. rewrite decide_False //. simpl. intros [??]. destruct H; congruence. Qed.

(** The allocated blocks, as (offset of the header, size). *)
Definition used (L : list tile) : list (Z * Z) :=
  omap (λ t : tile, n ← t.2; Some (t.1.1, n)) L.
Lemma used_app L1 L2 : used (L1 ++ L2) = used L1 ++ used L2.
Proof. apply omap_app. Qed.
Lemma used_in L o n : (o, n) ∈ used L ↔ ∃ k, (o, k, Some n) ∈ L.
Proof.
  unfold used. rewrite elem_of_list_omap. split.
  - intros ([[o' k'] [n'|]] & Hin & He); simpl in He; [|done]. injection He as -> ->. by exists k'.
  - intros (k & Hin). eexists. by split.
Qed.
Fixpoint committed (L : list tile) : Z :=
  match L with [] => 0 | t :: L' => (match t.2 with Some _ => 2 ^ t.1.2 | None => 0 end) + committed L' end.
Lemma committed_app L1 L2 : committed (L1 ++ L2) = committed L1 + committed L2.
Proof. induction L1 as [|t L1 IH]; simpl; [done|]. rewrite IH. lia. Qed.

(** No two free buddies. *)
Definition merged (L : list tile) : Prop :=
  ∀ o k, (o, k, None) ∈ L → k < 31 → (buddy o k, k, None) ∉ L.
Lemma merged_sub L L' : (∀ o k, (o, k, None) ∈ L' → (o, k, None) ∈ L) → merged L → merged L'.
Proof. intros Hs H o k Hin Hk Hin'. apply (H o k); auto. Qed.
Lemma buddy_invol o k : buddy (buddy o k) k = o.
Proof. unfold buddy. by rewrite Z.lxor_assoc Z.lxor_nilpotent Z.lxor_0_r. Qed.
Lemma merged_insert L1 o k L2 : 0 <= k → o mod 2 ^ k = 0 → merged (L1 ++ L2) →
  (k < 31 → (buddy o k, k, None) ∉ L1 ++ L2) → buddy o k ≠ o → merged (L1 ++ (o, k, None) :: L2).
Proof.
  intros Hk Hm Hmer Hno Hne o' k' Hin Hk' Hin'.
  assert (∀ x, x ∈ L1 ++ (o, k, None) :: L2 → x = (o, k, None) ∨ x ∈ L1 ++ L2) as Hc.
  { intros x. rewrite !elem_of_app elem_of_cons. tauto. }
  apply Hc in Hin. apply Hc in Hin'.
  destruct Hin as [[= -> ->]|Hin], Hin' as [[=]|Hin'].
  - done.
  - by apply Hno.
  - subst k'. apply Hno; [done|].
    assert (o' = buddy o k) as <-; [|done]. subst o. by rewrite buddy_invol.
  - by apply (Hmer o' k').
Qed.
