(** * Byte-string order and binary heaps (pure). *)
From Verif Require Export PriorityQueueModel IdealSpec.
From Coq Require Export Sorting.Sorted.
From iris.prelude Require Import prelude.
From iris.prelude Require Import options.
Open Scope Z_scope.

Lemma lex_lt_irrefl a : lex_lt a a = false.
Proof. induction a as [|x a IH]; simpl; [done|]. rewrite IH Z.ltb_irrefl andb_false_r. done. Qed.
Lemma lex_lt_le a b : lex_lt a b = true → lex_le a b.
Proof.
  unfold lex_le. revert b; induction a as [|x a IH]; intros [|y b]; simpl; try done.
  destruct (Z.ltb_spec x y), (Z.eqb_spec x y), (Z.ltb_spec y x), (Z.eqb_spec y x); simpl; try done; try lia.
  apply IH.
Qed.
Lemma lex_le_refl a : lex_le a a.
Proof. apply lex_lt_irrefl. Qed.
Lemma lex_le_trans a b c : lex_le a b → lex_le b c → lex_le a c.
Proof.
  unfold lex_le. revert b c; induction a as [|x a IH]; intros [|y b] [|z c]; simpl; try done.
  destruct (Z.ltb_spec y x), (Z.eqb_spec y x), (Z.ltb_spec z y), (Z.eqb_spec z y),
    (Z.ltb_spec z x), (Z.eqb_spec z x); simpl; try done; try lia.
  apply IH.
Qed.
Lemma lex_le_antisym a b : lex_le a b → lex_le b a → a = b.
Proof.
  unfold lex_le. revert b; induction a as [|x a IH]; intros [|y b]; simpl; try done.
  destruct (Z.ltb_spec y x), (Z.eqb_spec y x), (Z.ltb_spec x y), (Z.eqb_spec x y); simpl; try done; try lia.
  intros ??. f_equal; [done|]. by apply IH.
Qed.
Lemma lex_total a b : lex_le a b ∨ lex_lt b a = true.
Proof. unfold lex_le. destruct (lex_lt b a); auto. Qed.

(** What less_locked computes. *)
Lemma memcmp_lex a b :
  match memcmp (take (Nat.min (length a) (length b)) a) (take (Nat.min (length a) (length b)) b) with
  | Lt => true | Gt => false | Eq => bool_decide (Z.of_nat (length a) < Z.of_nat (length b))
  end = lex_lt a b.
Proof.
  revert b; induction a as [|x a IH]; intros [|y b]; simpl; try done.
  destruct (Z.compare_spec x y) as [->|H|H]; simpl.
  - rewrite Z.ltb_irrefl Z.eqb_refl /=. rewrite -IH.
    destruct (memcmp _ _); try done. apply bool_decide_ext. lia.
  - destruct (Z.ltb_spec x y); [done|lia].
  - destruct (Z.ltb_spec x y), (Z.eqb_spec x y); simpl; try done; lia.
Qed.

(** ** Heaps of items; [key] gives the byte string of an item *)
Section heap.
  Context {A : Type} `{Inhabited A} (key : A → list Z).
  Notation "x ≼ y" := (lex_le (key x) (key y)) (at level 70).
  Definition par (i : nat) : nat := (i - 1) / 2.

  Lemma par_lt i : (0 < i)%nat → (par i < i)%nat.
  Proof. intros. unfold par. apply Nat.div_lt_upper_bound; lia. Qed.
  Lemma par_eq i p : (0 < i)%nat → par i = p ↔ (i = 2 * p + 1 ∨ i = 2 * p + 2)%nat.
  Proof.
    intros Hi. unfold par. pose proof (Nat.div_mod (i - 1) 2 ltac:(lia)).
    pose proof (Nat.mod_upper_bound (i - 1) 2 ltac:(lia)). lia.
  Qed.

  Definition heap_ok (L : list A) : Prop :=
    ∀ i, (0 < i < length L)%nat → L !!! par i ≼ L !!! i.
  (** Hole at [t] on its way down: nothing is known about the item at [t]. *)
  Definition heap_up (t : nat) (L : list A) : Prop :=
    (∀ i, (0 < i < length L)%nat → i ≠ t → par i ≠ t → L !!! par i ≼ L !!! i) ∧
    ((0 < t)%nat → ∀ i, (0 < i < length L)%nat → par i = t → L !!! par t ≼ L !!! i).
  (** Item at [t] possibly smaller than its parent. *)
  Definition heap_dn (t : nat) (L : list A) : Prop :=
    (∀ i, (0 < i < length L)%nat → i ≠ t → L !!! par i ≼ L !!! i) ∧
    ((0 < t)%nat → ∀ i, (0 < i < length L)%nat → par i = t → L !!! par t ≼ L !!! i).

  Definition swapl (i j : nat) (L : list A) : list A :=
    <[i := L !!! j]> (<[j := L !!! i]> L).

  Lemma swapl_length i j L : length (swapl i j L) = length L.
  Proof. unfold swapl. by rewrite !insert_length. Qed.
  Lemma swapl_lookup i j k L : (i < length L)%nat → (j < length L)%nat →
    swapl i j L !!! k = if decide (k = i) then L !!! j else if decide (k = j) then L !!! i else L !!! k.
  Proof.
    intros Hi Hj. unfold swapl. destruct (decide (k = i)) as [->|Hk].
    - rewrite list_lookup_total_insert //. by rewrite insert_length.
    - rewrite list_lookup_total_insert_ne //. destruct (decide (k = j)) as [->|Hk'].
      + by rewrite list_lookup_total_insert.
      + by rewrite list_lookup_total_insert_ne.
  Qed.
  Lemma swapl_perm i j L : (i < length L)%nat → (j < length L)%nat → swapl i j L ≡ₚ L.
  Proof.
    intros Hi Hj. destruct (decide (i = j)) as [<-|Hne].
    - unfold swapl. rewrite list_insert_insert.
      rewrite list_insert_id; [done|]. by apply list_lookup_lookup_total_lt.
    - assert (∀ i j, (i < j)%nat → (j < length L)%nat → swapl i j L ≡ₚ L) as Hlt.
      { clear -H. intros i j Hij Hj.
        destruct (lookup_lt_is_Some_2 L i ltac:(lia)) as [x Hx].
        destruct (lookup_lt_is_Some_2 L j ltac:(lia)) as [y Hy].
        unfold swapl. rewrite (list_lookup_total_correct _ _ _ Hx) (list_lookup_total_correct _ _ _ Hy).
        rewrite -(take_drop_middle L i x Hx). set (a := take i L).
        assert (length a = i) as Ha by (unfold a; rewrite take_length; lia).
        assert (drop (S i) L !! (j - S i)%nat = Some y) as Hy'.
        { rewrite lookup_drop. by replace (S i + (j - S i))%nat with j by lia. }
        rewrite -(take_drop_middle (drop (S i) L) _ y Hy'). set (b := take (j - S i) (drop (S i) L)).
        assert (length b = (j - S i)%nat) as Hb.
        { unfold b. rewrite take_length drop_length. lia. }
        set (e := drop (S (j - S i)) (drop (S i) L)).
        rewrite (insert_app_r_alt a); [|lia]. rewrite Ha.
        replace (j - i)%nat with (S (j - S i)) by lia. simpl.
        rewrite (insert_app_r_alt b); [|lia]. rewrite Hb Nat.sub_diag. simpl.
        rewrite (insert_app_r_alt a); [|lia]. rewrite Ha Nat.sub_diag. simpl.
        apply Permutation_app_head.
        etrans; [|apply Permutation_cons; [done|apply Permutation_middle]].
        etrans; [apply Permutation_cons; [done|symmetry; apply Permutation_middle]|]. apply perm_swap. }
      destruct (decide (i < j)%nat); [by apply Hlt|].
      assert (swapl i j L = swapl j i L) as ->; [|apply Hlt; lia].
      unfold swapl. by rewrite list_insert_commute.
  Qed.

  Lemma heap_dn_done t L : (t < length L)%nat → heap_dn t L →
    (t = 0%nat ∨ L !!! par t ≼ L !!! t) → heap_ok L.
  Proof.
    intros Ht [H1 _] Hd i Hi. destruct (decide (i = t)) as [->|Hne]; [|by apply H1].
    destruct Hd as [->|Hd]; [lia|done].
  Qed.
  Lemma heap_dn_step t L : (0 < t < length L)%nat → heap_dn t L →
    lex_lt (key (L !!! t)) (key (L !!! par t)) = true →
    heap_dn (par t) (swapl t (par t) L).
  Proof.
    intros Ht [H1 H2] Hlt. apply lex_lt_le in Hlt as Hle. pose proof (par_lt t ltac:(lia)) as Hp.
    set (p := par t) in *. split; rewrite swapl_length.
    - intros i Hi Hip. rewrite !swapl_lookup; [|lia|lia|lia|lia].
      pose proof (par_lt i ltac:(lia)) as Hpi.
      destruct (decide (i = t)) as [->|Hit].
      + rewrite (decide_False (P:=par t = t)); [|lia]. rewrite (decide_True (P:=par t = p)); [|done]. done.
      + rewrite (decide_False (P:=i = p)); [|done].
        destruct (decide (par i = t)) as [Hpt|Hpt]; [apply H2; [lia|lia|done]|].
        destruct (decide (par i = p)) as [Hpp|Hpp].
        * eapply lex_le_trans; [exact Hle|]. rewrite -Hpp. by apply H1.
        * by apply H1.
    - intros Hp0 i Hi Hpi. pose proof (par_lt p ltac:(lia)) as Hpp.
      pose proof (par_lt i ltac:(lia)) as Hpi'.
      rewrite !swapl_lookup; [|lia|lia|lia|lia].
      rewrite (decide_False (P:=par p = t)); [|lia]. rewrite (decide_False (P:=par p = p)); [|lia].
      assert (L !!! par p ≼ L !!! p) as Hpar by (apply H1; lia).
      destruct (decide (i = t)) as [->|Hit]; [done|].
      rewrite (decide_False (P:=i = p)); [|lia].
      eapply lex_le_trans; [exact Hpar|]. rewrite -Hpi. by apply H1.
  Qed.

  Lemma heap_up_leaf t L : (length L <= 2 * t + 1)%nat → heap_up t L → heap_dn t L.
  Proof.
    intros Hl [H1 H2]. split; [|done]. intros i Hi Hit. apply H1; [done|done|].
    intros Hp. apply par_eq in Hp; lia.
  Qed.
  (** Moving the hole to the least child [u] of [t]. *)
  Lemma heap_up_step t u L : (t < length L)%nat → (0 < u < length L)%nat → par u = t → heap_up t L →
    (∀ i, (0 < i < length L)%nat → par i = t → L !!! u ≼ L !!! i) →
    heap_up u (swapl t u L).
  Proof.
    intros Ht Hu Hut [H1 H2] Hmin. pose proof (par_lt u ltac:(lia)) as Htu. rewrite Hut in Htu.
    split; rewrite swapl_length.
    - intros i Hi Hiu Hpu. rewrite !swapl_lookup; [|lia|lia|lia|lia].
      pose proof (par_lt i ltac:(lia)) as Hpi.
      rewrite (decide_False (P:=i = u)); [|done]. rewrite (decide_False (P:=par i = u)); [|done].
      destruct (decide (i = t)) as [->|Hit].
      + rewrite decide_False; [|lia]. apply H2; [lia|lia|done].
      + destruct (decide (par i = t)) as [Hpt|Hpt]; [by apply Hmin|by apply H1].
    - intros _ i Hi Hpi. pose proof (par_lt i ltac:(lia)) as Hpi'.
      rewrite !swapl_lookup; [|lia|lia|lia|lia]. rewrite Hut.
      rewrite (decide_True (P:=t = t)); [|done].
      rewrite (decide_False (P:=i = t)); [|lia]. rewrite (decide_False (P:=i = u)); [|lia].
      rewrite -Hpi. apply H1; [done|lia|lia].
  Qed.

  Lemma heap_ok_min L i : heap_ok L → (i < length L)%nat → L !!! 0%nat ≼ L !!! i.
  Proof.
    intros Hh. induction i as [i IH] using lt_wf_ind. intros Hi.
    destruct (decide (i = 0%nat)) as [->|Hne]; [apply lex_le_refl|].
    pose proof (par_lt i ltac:(lia)). eapply lex_le_trans; [apply (IH (par i)); lia|]. apply Hh. lia.
  Qed.
  (** Adding an item at the end. *)
  Lemma heap_snoc L x : heap_ok L → heap_dn (length L) (L ++ [x]).
  Proof.
    intros Hh. split; rewrite app_length /=.
    - intros i Hi Hne. pose proof (par_lt i ltac:(lia)).
      rewrite !lookup_total_app_l; [|lia|lia]. apply Hh. lia.
    - intros Hl i Hi Hp. apply par_eq in Hp; lia.
  Qed.
  (** Replacing the root by the last item. *)
  Lemma heap_replace_root L x y : heap_ok (x :: L ++ [y]) → heap_up 0 (y :: L).
  Proof.
    intros Hh. split; [|lia]. intros i Hi Hi0 Hp0.
    specialize (Hh i). simpl in *. rewrite app_length /= in Hh.
    feed specialize Hh; [lia|].
    destruct i as [|i]; [done|]. destruct (par (S i)) as [|j] eqn:Ej; [done|].
    pose proof (par_lt (S i) ltac:(lia)). simpl in *.
    rewrite !lookup_total_app_l in Hh; [done|lia|lia].
  Qed.
End heap.

(** ** The ideal priority queue: a sorted list *)
Lemma insert_sorted_perm d l : insert_sorted d l ≡ₚ d :: l.
Proof.
  induction l as [|x l IH]; simpl; [done|]. destruct (lex_lt x d); [|done].
  rewrite IH. apply perm_swap.
Qed.
Definition lsorted (l : list (list Z)) : Prop := StronglySorted lex_le l.
Lemma insert_sorted_sorted d l : lsorted l → lsorted (insert_sorted d l).
Proof.
  induction 1 as [|x l Hl IH Hx]; simpl; [repeat constructor|].
  destruct (lex_lt x d) eqn:E.
  - constructor; [done|]. rewrite insert_sorted_perm. constructor; [by apply lex_lt_le|done].
  - constructor; [by constructor|]. constructor; [done|].
    eapply Forall_impl; [exact Hx|]. intros z Hz. by eapply lex_le_trans; [|exact Hz].
Qed.
Lemma lsorted_perm_unique l l' : lsorted l → lsorted l' → l ≡ₚ l' → l = l'.
Proof.
  intros Hl. revert l'. induction Hl as [|x l Hl IH Hx]; intros l' Hl' HP.
  - symmetry in HP. by apply Permutation_nil_r in HP.
  - destruct Hl' as [|y l' Hl' Hy]; [by apply Permutation_nil_r in HP|].
    assert (x = y) as ->.
    { apply lex_le_antisym.
      - assert (y ∈ x :: l) as Hin by (rewrite HP; by left). apply elem_of_cons in Hin as [->|Hin]; [apply lex_le_refl|].
        rewrite Forall_forall in Hx. by apply Hx.
      - assert (x ∈ y :: l') as Hin by (rewrite -HP; by left). apply elem_of_cons in Hin as [->|Hin]; [apply lex_le_refl|].
        rewrite Forall_forall in Hy. by apply Hy. }
    f_equal. apply IH; [done|]. by apply Permutation_cons_inv in HP.
Qed.
