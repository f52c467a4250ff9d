(** * Encoding of the values of a prefix tree in slots. *)
From Verif Require Export PrefixTreeModel.
From iris.prelude Require Import prelude options.
Open Scope Z_scope.

Local Arguments Z.pow : simpl never.
Local Arguments Z.mul : simpl never.

(** ** Tags *)
Lemma testbit_small x n i : 0 <= x < 2 ^ n → 0 <= n <= i → Z.testbit x i = false.
Proof.
  intros Hx Hi. destruct (decide (x = 0)) as [->|]; [apply Z.bits_0|].
  apply Z.bits_above_log2; [lia|]. apply Z.log2_lt_pow2; [lia|].
  eapply Z.lt_le_trans; [apply Hx|]. apply Z.pow_le_mono_r; lia.
Qed.
Lemma t_type_mod c : t_type c = c mod 8.
Proof. unfold t_type. change 7 with (Z.ones 3). by rewrite Z.land_ones. Qed.
Lemma t_value_sub c : t_value c = c - c mod 8.
Proof.
  unfold t_value. change 7 with (Z.ones 3). rewrite Z.ldiff_ones_r; [|lia].
  rewrite Z.shiftl_mul_pow2; [|lia]. rewrite Z.shiftr_div_pow2; [|lia].
  change (2 ^ 3) with 8. pose proof (Z.div_mod c 8). lia.
Qed.
Lemma mod8_add a i : a mod 8 = 0 → 0 <= i < 8 → (a + i) mod 8 = i.
Proof. intros Ha Hi. rewrite Z.add_mod; [|lia]. rewrite Ha Z.add_0_l Z.mod_mod; [|lia]. by apply Z.mod_small. Qed.
Lemma lor_tag a i : a mod 8 = 0 → 0 <= i < 8 → Z.lor a i = a + i.
Proof.
  intros Ha Hi. assert (Z.land a i = 0) as HL.
  { apply Z.bits_inj'. intros n Hn. rewrite Z.land_spec Z.bits_0.
    destruct (decide (n < 3)) as [Hn'|Hn'];
      [|rewrite (testbit_small i 3 n); [by rewrite andb_false_r|change (2 ^ 3) with 8; lia|lia]].
    replace a with (a / 8 * 2 ^ 3); [rewrite Z.mul_pow2_bits_low; [done|lia]|].
    change (2 ^ 3) with 8. pose proof (Z.div_mod a 8). lia. }
  rewrite (Z.add_nocarry_lxor a i HL). by rewrite Z.lxor_lor.
Qed.
Lemma t_tag a i : a mod 8 = 0 → 0 <= i < 8 →
  t_type (a + i) = i ∧ t_value (a + i) = a ∧ Z.lor a i = a + i.
Proof.
  intros Ha Hi. pose proof (mod8_add a i Ha Hi). rewrite t_type_mod t_value_sub. split_and!; [done|lia|by apply lor_tag].
Qed.

(** ** Integers *)
Lemma s64_id z : is_s64 z → wrap64 z = z.
Proof. unfold is_s64, wrap64. intros H. rewrite Z.mod_small; lia. Qed.
Lemma s64_ok z : is_s64 (wrap64 z).
Proof. unfold is_s64, wrap64. pose proof (Z.mod_pos_bound (z + 2 ^ 63) (2 ^ 64)). lia. Qed.
Lemma s64_u64 z : is_s64 z → wrap64 (u64 z) = z.
Proof.
  intros Hz. rewrite -{2}(s64_id z Hz). unfold wrap64, u64. f_equal.
  rewrite Zplus_mod_idemp_l. done.
Qed.
Lemma t_small_spec z : is_s64 z → t_small z = small_int z.
Proof.
  intros Hz. unfold t_small, small_int. rewrite Z.shiftr_div_pow2; [|lia].
  change 15 with (Z.ones 4). rewrite Z.land_ones; [|lia]. change (2 ^ 4) with 16.
  unfold is_s64 in Hz. pose proof (Z.div_mod z (2 ^ 60) ltac:(lia)) as E.
  pose proof (Z.mod_pos_bound z (2 ^ 60) ltac:(lia)) as Hr. set (d := z / 2 ^ 60) in *. set (r := z mod 2 ^ 60) in *.
  assert (-8 <= d < 8) as Hd by lia.
  assert (d mod 16 = if decide (0 <= d) then d else d + 16) as Em.
  { destruct (decide (0 <= d)); [apply Z.mod_small; lia|].
    rewrite -(Z.mod_add d 1 16); [|lia]. apply Z.mod_small. lia. }
  rewrite Em. change (Z.ones 4) with 15.
  apply eq_true_iff_eq. rewrite orb_true_iff andb_true_iff !bool_decide_eq_true Z.leb_le Z.ltb_lt.
  destruct (decide (0 <= d)); lia.
Qed.
Definition int_word (z : Z) : Z := u64 (8 * z) + 2.
Lemma int_word_eq z : Z.lor (u64 (Z.shiftl z 3)) 2 = int_word z.
Proof.
  unfold int_word. rewrite Z.shiftl_mul_pow2; [|lia]. change (2 ^ 3) with 8. rewrite Z.mul_comm.
  apply lor_tag; [|lia]. unfold u64. change (2 ^ 64) with (8 * 2 ^ 61).
  rewrite Zmult_mod_distr_l. rewrite Z.mul_comm. apply Z.mod_mul. lia.
Qed.
Lemma int_word_mod z : u64 (8 * z) mod 8 = 0 ∧ 0 <= u64 (8 * z) <= 2 ^ 64 - 8.
Proof.
  unfold u64. change (2 ^ 64) with (8 * 2 ^ 61). rewrite Zmult_mod_distr_l. split.
  - rewrite Z.mul_comm. apply Z.mod_mul. lia.
  - pose proof (Z.mod_pos_bound z (2 ^ 61)). lia.
Qed.
Lemma t_int_word z : small_int z = true → t_int (int_word z) = z.
Proof.
  unfold small_int. rewrite andb_true_iff Z.leb_le Z.ltb_lt. intros Hz.
  destruct (int_word_mod z) as [Hm Hb]. unfold t_int, int_word.
  destruct (t_tag (u64 (8 * z)) 2 Hm ltac:(lia)) as (_ & -> & _).
  rewrite Z.shiftr_div_pow2; [|lia]. change (2 ^ 3) with 8.
  assert (u64 (8 * z) / 8 = z mod 2 ^ 61) as ->.
  { unfold u64. change (2 ^ 64) with (8 * 2 ^ 61). rewrite Zmult_mod_distr_l Z.mul_comm Z.div_mul; lia. }
  destruct (decide (0 <= z)) as [Hp|Hp].
  - rewrite Z.mod_small; [|lia]. rewrite (testbit_small z 60 60); [done|lia|lia].
  - assert (z mod 2 ^ 61 = z + 2 ^ 61) as ->.
    { rewrite -(Z.mod_add z 1 (2 ^ 61)); [|lia]. rewrite Z.mod_small; lia. }
    replace (z + 2 ^ 61) with ((z + 2 ^ 60) + 1 * 2 ^ 60) by lia.
    assert (Z.testbit ((z + 2 ^ 60) + 1 * 2 ^ 60) 60 = true) as ->.
    { rewrite Z.testbit_true; [|lia]. rewrite Z.div_add; [|lia]. rewrite Z.div_small; [done|lia]. }
    replace (Z.lor (z + 2 ^ 60 + 1 * 2 ^ 60) (14 * 2 ^ 60)) with (z + 2 ^ 64).
    + rewrite -{2}(s64_id z); [|unfold is_s64; lia]. unfold wrap64. f_equal.
      replace (z + 2 ^ 64 + 2 ^ 63) with (z + 2 ^ 63 + 1 * 2 ^ 64) by lia. rewrite Z.mod_add; lia.
    + replace (z + 2 ^ 60 + 1 * 2 ^ 60) with (z + 2 ^ 61) by lia.
      replace (14 * 2 ^ 60) with (7 * 2 ^ 61) by lia.
      assert (Z.land (z + 2 ^ 61) (7 * 2 ^ 61) = 0) as HL.
      { apply Z.bits_inj'. intros n Hn. rewrite Z.land_spec Z.bits_0.
        destruct (decide (n < 61)); [rewrite Z.mul_pow2_bits_low; [by rewrite andb_false_r|lia]|].
        rewrite (testbit_small (z + 2 ^ 61) 61 n); [done|lia|lia]. }
      rewrite -Z.lxor_lor; [|done]. rewrite -(Z.add_nocarry_lxor _ _ HL). lia.
Qed.

(** ** Short strings *)
Lemma t_pack_bits s : ∀ v sh i, bytes_ok s → 0 <= i → 8 * dlen s <= sh + 8 →
  Z.testbit (t_pack v sh s) i = true ↔
  Z.testbit v i = true ∨ ∃ j x, s !! j = Some x ∧ 0 <= i - (sh - 8 * Z.of_nat j) ∧ Z.testbit x (i - (sh - 8 * Z.of_nat j)) = true.
Proof.
  unfold dlen. induction s as [|x s IH]; intros v sh i Hs Hi Hsh; simpl in *.
  - split; [by left|]. intros [?|(j & x & Hj & _)]; [done|by destruct j].
  - inversion Hs as [|? ? Hx Hs']; subst. rewrite IH; [|done|done|lia].
    rewrite Z.lor_spec orb_true_iff. rewrite Z.shiftl_spec; [|lia]. split.
    + intros [[H|H]|(j & y & Hj & Hp & H)]; [by left| |].
      * right. exists 0%nat, x. replace (i - (sh - 8 * Z.of_nat 0)) with (i - sh) by lia. split; [done|]. split; [|done].
        destruct (decide (0 <= i - sh)); [done|]. rewrite Z.testbit_neg_r in H; [done|lia].
      * right. exists (S j), y. replace (i - (sh - 8 * Z.of_nat (S j))) with (i - (sh - 8 - 8 * Z.of_nat j)) by lia. done.
    + intros [H|([|j] & y & Hj & Hp & H)]; [by left; left| |].
      * simpl in Hj. simplify_eq. left. right. replace (i - (sh - 8 * Z.of_nat 0)) with (i - sh) in H by lia. done.
      * right. exists j, y. replace (i - (sh - 8 * Z.of_nat (S j))) with (i - (sh - 8 - 8 * Z.of_nat j)) in * by lia. done.
Qed.
Definition short_word (s : bytes) : Z := t_pack (Z.lor (Z.shiftl (dlen s) 3) 6) 56 s.
Lemma short_tag n : 0 <= n < 8 → Z.lor (Z.shiftl n 3) 6 = 8 * n + 6.
Proof.
  intros Hn. rewrite Z.shiftl_mul_pow2; [|lia]. change (2 ^ 3) with 8. rewrite Z.mul_comm.
  apply lor_tag; [|lia]. rewrite Z.mul_comm. apply Z.mod_mul. lia.
Qed.
Lemma bool_eq_iff (a b : bool) : (a = true ↔ b = true) → a = b.
Proof. apply eq_true_iff_eq. Qed.
Lemma short_word_low s i : bytes_ok s → dlen s < 8 → 0 <= i < 8 →
  Z.testbit (short_word s) i = Z.testbit (8 * dlen s + 6) i.
Proof.
  intros Hs Hl Hi. apply bool_eq_iff. unfold short_word.
  rewrite t_pack_bits; [|done|lia|lia]. rewrite short_tag; [|unfold dlen in *; lia].
  split; [|by left]. intros [?|(j & x & Hj & Hp & H)]; [done|]. exfalso.
  apply lookup_lt_Some in Hj. unfold dlen in *. lia.
Qed.
Lemma short_word_nonneg s v sh : bytes_ok s → 0 <= v → 8 * dlen s <= sh + 8 → 0 <= t_pack v sh s.
Proof.
  unfold dlen. revert v sh. induction s as [|x s IH]; intros v sh Hs Hv Hsh; simpl in *; [done|].
  inversion Hs as [|? ? Hx Hs']; subst. apply IH; [done| |lia].
  apply Z.lor_nonneg. split; [done|]. apply Z.shiftl_nonneg. unfold is_byte in Hx. lia.
Qed.
Lemma short_word_u64 s : bytes_ok s → dlen s < 8 → is_u64 (short_word s).
Proof.
  intros Hs Hl. assert (0 <= short_word s) as Hn.
  { apply short_word_nonneg; [done| |lia]. rewrite short_tag; unfold dlen in *; lia. }
  split; [done|]. destruct (decide (short_word s = 0)) as [->|]; [lia|].
  apply Z.log2_lt_pow2; [lia|]. apply Z.nle_gt. intros Hge.
  assert (Z.testbit (short_word s) (Z.log2 (short_word s)) = true) as Hb by (apply Z.bit_log2; lia).
  unfold short_word in Hb at 1. rewrite t_pack_bits in Hb; [|done|lia|lia].
  rewrite short_tag in Hb; [|unfold dlen in *; lia]. destruct Hb as [Hb|(j & x & Hj & Hp & Hb)].
  - rewrite (testbit_small _ 8) in Hb; [done|change (2 ^ 8) with 256; unfold dlen in *; lia|lia].
  - eapply Forall_lookup_1 in Hj; [|exact Hs]. unfold is_byte in Hj.
    rewrite (testbit_small _ 8) in Hb; [done|change (2 ^ 8) with 256; lia|lia].
Qed.
Lemma short_word_type s : bytes_ok s → dlen s < 8 → t_type (short_word s) = 6.
Proof.
  intros Hs Hl. unfold t_type. apply Z.bits_inj'. intros i Hi. rewrite Z.land_spec.
  destruct (decide (i < 3)) as [H3|H3].
  - rewrite short_word_low; [|done|done|lia]. rewrite -Z.land_spec. f_equal.
    change 7 with (Z.ones 3). rewrite Z.land_ones; [|lia]. change (2 ^ 3) with 8.
    rewrite (mod8_add (8 * dlen s) 6); [done| |lia]. rewrite Z.mul_comm. apply Z.mod_mul. lia.
  - rewrite (testbit_small 7 3); [|change (2 ^ 3) with 8; lia|lia]. rewrite andb_false_r.
    symmetry. apply (testbit_small 6 3); [change (2 ^ 3) with 8; lia|lia].
Qed.
Lemma short_word_len s : bytes_ok s → dlen s < 8 → Z.land (Z.shiftr (short_word s) 3) 7 = dlen s.
Proof.
  intros Hs Hl. apply Z.bits_inj'. intros i Hi. rewrite Z.land_spec Z.shiftr_spec; [|lia].
  destruct (decide (i < 3)) as [H3|H3].
  - rewrite short_word_low; [|done|done|lia]. change 7 with (Z.ones 3).
    rewrite Z.ones_spec_low; [|lia]. rewrite andb_true_r. rewrite -Z.shiftr_spec; [|lia]. f_equal.
    rewrite Z.shiftr_div_pow2; [|lia]. change (2 ^ 3) with 8. rewrite Z.mul_comm Z.add_comm Z.div_add; [|lia]. done.
  - rewrite (testbit_small 7 3); [|change (2 ^ 3) with 8; lia|lia]. rewrite andb_false_r.
    symmetry. apply (testbit_small _ 3); [change (2 ^ 3) with 8; unfold dlen in *; lia|lia].
Qed.
Lemma short_word_byte s j x : bytes_ok s → dlen s < 8 → s !! j = Some x →
  Z.land (Z.shiftr (short_word s) (56 - 8 * Z.of_nat j)) 255 = x.
Proof.
  intros Hs Hl Hj. pose proof (lookup_lt_Some _ _ _ Hj) as Hjl. pose proof Hj as Hx. eapply Forall_lookup_1 in Hx; [|exact Hs].
  unfold is_byte in Hx. apply Z.bits_inj'. intros i Hi. rewrite Z.land_spec Z.shiftr_spec; [|lia].
  destruct (decide (i < 8)) as [H8|H8].
  - change 255 with (Z.ones 8). rewrite Z.ones_spec_low; [|lia]. rewrite andb_true_r.
    apply bool_eq_iff. unfold short_word. unfold dlen in *. rewrite t_pack_bits; [|done|lia|unfold dlen; lia].
    rewrite short_tag; [|unfold dlen; lia]. split.
    + intros [H|(j' & y & Hj' & Hp & H)].
      * rewrite (testbit_small _ 8) in H; [done|change (2 ^ 8) with 256; unfold dlen; lia|lia].
      * pose proof Hj' as Hy. eapply Forall_lookup_1 in Hy; [|exact Hs]. unfold is_byte in Hy.
        destruct (decide (j' = j)) as [->|Hne].
        { simplify_eq. replace (i + (56 - 8 * Z.of_nat j) - (56 - 8 * Z.of_nat j)) with i in H by lia. done. }
        exfalso. destruct (decide (j < j')%nat).
        { rewrite (testbit_small _ 8) in H; [done|change (2 ^ 8) with 256; lia|lia]. }
        lia.
    + intros H. right. exists j, x. replace (i + (56 - 8 * Z.of_nat j) - (56 - 8 * Z.of_nat j)) with i by lia. done.
  - rewrite (testbit_small 255 8); [|change (2 ^ 8) with 256; lia|lia]. rewrite andb_false_r.
    symmetry. apply (testbit_small _ 8); [change (2 ^ 8) with 256; lia|lia].
Qed.
Lemma t_unpack_lookup n : ∀ c sh j, (j < n)%nat → t_unpack n c sh !! j = Some (Z.land (Z.shiftr c (sh - 8 * Z.of_nat j)) 255).
Proof.
  induction n as [|n IH]; intros c sh j Hj; [lia|]. destruct j as [|j]; simpl.
  - do 3 f_equal. lia.
  - rewrite IH; [|lia]. do 3 f_equal. lia.
Qed.
Lemma t_unpack_length n c sh : length (t_unpack n c sh) = n.
Proof. revert sh. induction n as [|n IH]; intros sh; simpl; [done|]. by rewrite IH. Qed.
Lemma t_unpack_word s : bytes_ok s → dlen s < 8 → t_unpack (length s) (short_word s) 56 = s.
Proof.
  intros Hs Hl. apply list_eq. intros j. destruct (s !! j) as [x|] eqn:E.
  - rewrite t_unpack_lookup; [|by eapply lookup_lt_Some]. by rewrite (short_word_byte s j x).
  - apply lookup_ge_None in E. apply lookup_ge_None. by rewrite t_unpack_length.
Qed.

(** ** The contents of the slot of a value whose block, if it has one, is at [o] *)
Definition venc (v : pval) (o : Z) : Z :=
  match v with
  | PStr s => if dlen s <? 8 then (if dlen s =? 0 then 1 else short_word s) else o + 1
  | PInt z => if small_int z then int_word z else o + 3
  | PDouble b => if d_zero b then 4 else o + 4
  | PBool b => if b then 13 else 5
  | PNull => 21
  end.
(** Values as they are stored. *)
Definition sval_ok (v : pval) : Prop :=
  pval_ok v ∧ match v with PDouble b => d_zero b = true → b = 0 | _ => True end.
Definition blk_off_ok (v : pval) (o : Z) : Prop := o mod 8 = 0 ∧ (val_sizes v ≠ [] → 0 < o <= 2 ^ 62).
Lemma stored_ok v : pval_ok v → sval_ok (stored v).
Proof.
  intros Hv. destruct v as [s|z|b|b|]; simpl; try done. destruct (d_zero b) eqn:E; split; simpl; try done; try congruence.
Qed.
Lemma stored_id v : sval_ok v → stored v = v.
Proof. intros [_ Hv]. destruct v as [s|z|b|b|]; try done. simpl. destruct (d_zero b); [|done]. by rewrite Hv. Qed.
Definition venc_type (v : pval) : Z :=
  match v with
  | PStr s => if dlen s <? 8 then (if dlen s =? 0 then 1 else 6) else 1
  | PInt z => if small_int z then 2 else 3
  | PDouble _ => 4
  | PBool _ | PNull => 5
  end.
Lemma venc_facts v o : sval_ok v → blk_off_ok v o →
  t_type (venc v o) = venc_type v ∧ is_u64 (venc v o) ∧ venc v o ≠ 0.
Proof.
  intros [Hv _] [Ho Hb]. assert (t_type (venc v o) = venc_type v ∧ is_u64 (venc v o)) as [H1 H2].
  { destruct v as [s|z|b|b|]; simpl in *.
    - destruct (Z.ltb_spec (dlen s) 8) as [Hl|Hl].
      + destruct (Z.eqb_spec (dlen s) 0).
        * split; [done|]. unfold is_u64. lia.
        * split; [by apply short_word_type|by apply short_word_u64].
      + specialize (Hb ltac:(done)). destruct (t_tag o 1 Ho ltac:(lia)) as (-> & _). unfold is_u64. lia.
    - destruct (small_int z).
      + destruct (int_word_mod z) as [Hm Hw]. unfold int_word. destruct (t_tag _ 2 Hm ltac:(lia)) as (-> & _).
        unfold is_u64. lia.
      + specialize (Hb ltac:(done)). destruct (t_tag o 3 Ho ltac:(lia)) as (-> & _). unfold is_u64. lia.
    - destruct (d_zero b).
      + split; [done|]. unfold is_u64. lia.
      + specialize (Hb ltac:(done)). destruct (t_tag o 4 Ho ltac:(lia)) as (-> & _). unfold is_u64. lia.
    - destruct b; split; try done; unfold is_u64; lia.
    - split; [done|]. unfold is_u64. lia. }
  split_and!; [done|done|]. intros E. rewrite E in H1.
  assert (t_type 0 = 0) as E0 by done. rewrite E0 in H1.
  destruct v as [s|z|b|b|]; simpl in H1; repeat case_match; lia.
Qed.
Lemma venc_type_pos v : 0 < venc_type v < 7.
Proof. destruct v; simpl; repeat case_match; lia. Qed.
(** The block of a value. *)
Lemma venc_block v o : val_sizes v ≠ [] → blk_off_ok v o → t_value (venc v o) = o.
Proof.
  intros Hs [Ho _]. destruct v as [s|z|b|b|]; simpl in *; try done.
  - destruct (dlen s <? 8); [done|]. by destruct (t_tag o 1 Ho ltac:(lia)) as (_ & -> & _).
  - destruct (small_int z); [done|]. by destruct (t_tag o 3 Ho ltac:(lia)) as (_ & -> & _).
  - destruct (d_zero b); [done|]. by destruct (t_tag o 4 Ho ltac:(lia)) as (_ & -> & _).
Qed.
(** The value is in the slot. *)
Lemma venc_inline v o : val_sizes v = [] → venc_type v = 1 ∨ venc_type v = 3 ∨ venc_type v = 4 → t_value (venc v o) = 0.
Proof.
  intros Hs Ht. destruct v as [s|z|b|b|]; simpl in *; repeat case_match; try done; try lia.
Qed.
Lemma val_sizes_cases v : val_sizes v = [] ∨ ∃ n, val_sizes v = [n].
Proof. destruct v; simpl; repeat case_match; eauto. Qed.
