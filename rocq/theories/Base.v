(** * Machine words and bytes.

    Addresses, sizes and machine words are integers ([Z]); every place where
    the C++ code computes modulo 2^64 applies [u64] explicitly.  A byte is an
    integer in [0,256); byte strings (keys and values) are [list Z]. *)
From stdpp Require Export base list gmap.
From Coq Require Export ZArith Lia.
Global Open Scope Z_scope.

(** Wrap-around of 64-bit unsigned arithmetic ([uint64_t], [size_t]). *)
Definition u64 (x : Z) : Z := x mod 2 ^ 64.
Definition is_u64 (x : Z) : Prop := 0 <= x < 2 ^ 64.
Definition is_byte (b : Z) : Prop := 0 <= b < 256.
Definition bytes_ok (bs : list Z) : Prop := Forall is_byte bs.

(** Two's complement reading of a 64-bit word ([int64_t]). *)
Definition s64 (x : Z) : Z := if decide (x < 2 ^ 63) then x else x - 2 ^ 64.

(** Little-endian encoding of the [n] low-order bytes of [v] (x86-64/arm64). *)
Fixpoint le_bytes (n : nat) (v : Z) : list Z :=
  match n with
  | O => []
  | S n' => v mod 256 :: le_bytes n' (v / 256)
  end.

Fixpoint le_val (bs : list Z) : Z :=
  match bs with
  | [] => 0
  | b :: bs' => b + 256 * le_val bs'
  end.

(** [(x + 7) & ~7] on 64-bit words. *)
Definition round8 (x : Z) : Z := u64 (x + 7) / 8 * 8.

(** ** Facts *)
Lemma le_bytes_length n v : length (le_bytes n v) = n.
Proof. revert v; induction n; intros; simpl; auto. Qed.

Lemma le_bytes_ok n v : bytes_ok (le_bytes n v).
Proof.
  revert v; induction n as [|n IH]; intros v; constructor; [|apply IH].
  unfold is_byte. apply Z.mod_pos_bound; lia.
Qed.

Lemma le_val_bytes n v : le_val (le_bytes n v) = v mod 256 ^ Z.of_nat n.
Proof.
  revert v; induction n as [|n IH]; intros v; simpl le_bytes; simpl le_val.
  - rewrite Z.pow_0_r, Z.mod_1_r. reflexivity.
  - rewrite IH. rewrite Nat2Z.inj_succ, Z.pow_succ_r by lia.
    rewrite Z.rem_mul_r by lia. reflexivity.
Qed.

Lemma le_val_range bs : bytes_ok bs -> 0 <= le_val bs < 256 ^ Z.of_nat (length bs).
Proof.
  induction 1 as [|b bs Hb _ IH]; cbn [le_val length]; [simpl; lia|].
  rewrite Nat2Z.inj_succ, Z.pow_succ_r by lia.
  unfold is_byte in Hb. lia.
Qed.

Lemma le_bytes_val bs : bytes_ok bs -> le_bytes (length bs) (le_val bs) = bs.
Proof.
  induction 1 as [|b bs Hb _ IH]; simpl; [done|].
  unfold is_byte in Hb. rewrite Z.mul_comm, Z.mod_add by lia.
  rewrite Z.mod_small by lia. rewrite Z.div_add by lia.
  rewrite (Z.div_small b 256), Z.add_0_l by lia. f_equal. apply IH.
Qed.

Lemma u64_small x : 0 <= x < 2 ^ 64 -> u64 x = x.
Proof. unfold u64; apply Z.mod_small. Qed.
Lemma u64_range x : 0 <= u64 x < 2 ^ 64.
Proof. unfold u64; apply Z.mod_pos_bound; lia. Qed.

Lemma le_val8 v : is_u64 v -> le_val (le_bytes 8 v) = v.
Proof. intros H. rewrite le_val_bytes. apply Z.mod_small. exact H. Qed.

Lemma round8_spec x : 0 <= x < 2 ^ 64 - 8 ->
  x <= round8 x < x + 8 /\ round8 x mod 8 = 0.
Proof.
  intros H. unfold round8. rewrite u64_small by lia.
  split; [|apply Z.mod_mul; lia].
  pose proof (Z.div_mod (x + 7) 8 ltac:(lia)).
  pose proof (Z.mod_pos_bound (x + 7) 8 ltac:(lia)). lia.
Qed.
