(** * Proofs about AtomicVector. *)
From Verif Require Export AtomicVectorSpec WorldProof.
From iris.prelude Require Import prelude options.
From Coq Require Import ZArith Lia.
Open Scope Z_scope.

Definition rdm (m : gmap Z Z) (a : Z) (k : nat) : Z :=
  le_val (read_bytes (mk_pst m 0 0 0 0 0) a k).
Definition mem_ok (m : gmap Z Z) : Prop := forall a b, m !! a = Some b -> is_byte b.

Lemma rdm_read s a k : le_val (read_bytes s a k) = rdm (mem s) a k.
Proof. unfold rdm. f_equal. by apply read_bytes_mem. Qed.
Lemma rdm_ext m m' a k :
  (forall x, a <= x < a + Z.of_nat k -> m' !! x = m !! x) -> rdm m' a k = rdm m a k.
Proof.
  intros H. unfold rdm. f_equal. apply read_bytes_ext. intros x Hx. unfold bget. simpl.
  by rewrite H.
Qed.
Lemma read_bytes_okm m a k : mem_ok m -> bytes_ok (read_bytes (mk_pst m 0 0 0 0 0) a k).
Proof.
  intros Hm. revert a. induction k as [|k IH]; intros a; simpl; constructor; [|apply IH].
  unfold bget. simpl. destruct (m !! a) eqn:E; simpl; [eauto|]. unfold is_byte. lia.
Qed.
Lemma rdm_range m a k : mem_ok m -> 0 <= rdm m a k < 256 ^ Z.of_nat k.
Proof.
  intros H. unfold rdm. pose proof (le_val_range _ (read_bytes_okm m a k H)) as X.
  by rewrite read_bytes_length in X.
Qed.
Lemma rdm_write_same m a k y : rdm (write_bytes m a (le_bytes k y)) a k = y mod 256 ^ Z.of_nat k.
Proof.
  unfold rdm. pose proof (read_write m 0 0 0 0 0 a (le_bytes k y)) as H.
  rewrite le_bytes_length in H. rewrite H. apply le_val_bytes.
Qed.
Lemma rdm_write_other m a bs b k :
  b + Z.of_nat k <= a \/ a + Z.of_nat (length bs) <= b ->
  rdm (write_bytes m a bs) b k = rdm m b k.
Proof.
  intros H. apply rdm_ext. intros x Hx. rewrite write_bytes_get.
  rewrite bool_decide_eq_false_2; [done|lia].
Qed.
Lemma mem_ok_write m a bs : mem_ok m -> bytes_ok bs -> mem_ok (write_bytes m a bs).
Proof.
  intros Hm Hb x b. rewrite write_bytes_get. case_bool_decide; [|eauto].
  intros E. eapply Forall_lookup_1 in Hb; done.
Qed.
Lemma truncate_get m n a : a < n -> truncate_mem m n !! a = m !! a.
Proof.
  intros H. unfold truncate_mem. destruct (m !! a) eqn:E.
  - apply map_filter_lookup_Some. done.
  - by apply map_filter_lookup_None_2; left.
Qed.
Lemma truncate_get_ge m n a : n <= a -> truncate_mem m n !! a = None.
Proof.
  intros H. apply map_filter_lookup_None_2. right. intros x _. simpl. lia.
Qed.

  Lemma w_word_rdm W a : w_word W a = rdm (w_mem W) a 8.
  Proof. unfold w_word, w_read. by rewrite rdm_read. Qed.
  Lemma rdm_zero m a k : (forall x, a <= x -> default 0 (m !! x) = 0) -> rdm m a k = 0.
  Proof.
    intros H. unfold rdm. revert a H. induction k as [|k IH]; intros a H; simpl; [done|].
    unfold bget at 1. simpl. rewrite (IH (a + 1)); [|intros; apply H; lia].
    rewrite H; lia.
  Qed.

Section proof.
  Set Default Proof Using "All".
  Context (n : nat) (Hn : (0 < n)%nat).

  Record SI (m : gmap Z Z) (fs : Z) (v : list Z) (sz : Z) : Prop := {
    si_b : mem_ok m;
    si_size : rdm m 0 8 = sz;
    si_count : rdm m 8 8 = Z.of_nat (length v);
    si_elem : forall j x, v !! j = Some x -> rdm m (elem n (Z.of_nat j)) n = x;
    si_zero : forall a, elem n (Z.of_nat (length v)) <= a -> default 0 (m !! a) = 0;
    si_sz : 4096 <= sz <= fs;
    si_len : elem n (Z.of_nat (length v)) <= sz
  }.

  Lemma holds_SI W v : holds_vector n W v <-> SI (w_mem W) (w_fsize W) v (w_word W 0).
  Proof.
    unfold holds_vector. split.
    - intros (H1 & H2 & H3 & H4 & H5 & H6). split; try done.
      + intros j x Hj. specialize (H4 j x Hj). unfold w_read in H4. by rewrite rdm_read in H4.
      + intros a Ha. specialize (H5 a Ha). unfold w_read in H5. simpl in H5. unfold bget in H5.
        simpl in H5. congruence.
    - intros []. split; [done|]. split; [done|].
      split; [unfold w_word, w_read; by rewrite rdm_read|].
      split; [intros j x Hj; unfold w_read; rewrite rdm_read; auto|].
      split; [|done]. intros a Ha. unfold w_read. simpl. unfold bget. simpl. by rewrite si_zero0.
  Qed.

  Lemma SI_range m fs v sz : SI m fs v sz -> Forall (in_range n) v.
  Proof.
    intros []. apply Forall_lookup. intros j x Hj. rewrite <- (si_elem0 _ _ Hj).
    by apply rdm_range.
  Qed.

  Lemma elem_le i j : i <= j -> elem n i <= elem n j.
  Proof. unfold elem. nia. Qed.
  Lemma elem_S i : elem n (i + 1) = elem n i + Z.of_nat n.
  Proof. unfold elem. lia. Qed.

  (** Writing element [i]. *)
  Lemma SI_write m fs v sz i y :
    SI m fs v sz -> (i < length v)%nat ->
    SI (write_bytes m (elem n (Z.of_nat i)) (le_bytes n y)) fs
       (<[i := y mod 256 ^ Z.of_nat n]> v) sz.
  Proof.
    intros [] Hi.
    assert (He : 16 <= elem n (Z.of_nat i)) by (unfold elem; nia).
    split; rewrite ?insert_length; try done.
    - apply mem_ok_write; [done|apply le_bytes_ok].
    - rewrite rdm_write_other; [done|left; lia].
    - rewrite rdm_write_other; [done|left; lia].
    - intros j x Hj. destruct (decide (j = i)) as [->|Hne].
      + rewrite list_lookup_insert in Hj; [|done]. simplify_eq. apply rdm_write_same.
      + rewrite list_lookup_insert_ne in Hj; [|done].
        rewrite rdm_write_other; [auto|]. rewrite le_bytes_length. unfold elem.
        destruct (decide (j < i)%nat); [left|right]; nia.
    - intros a Ha. rewrite write_bytes_get. rewrite bool_decide_eq_false_2; [by apply si_zero0|].
      rewrite le_bytes_length. intros Hx.
      assert (elem n (Z.of_nat i + 1) <= elem n (Z.of_nat (length v))) by (apply elem_le; lia).
      rewrite elem_S in H. lia.
  Qed.

  Lemma SI_valid m fs v sz pr l i :
    SI m fs v sz -> (i < length v)%nat -> elem n (Z.of_nat i + 1) <= p_mapped pr ->
    valid (mk_pst m fs (p_mapped pr) (p_epoch pr) (p_max pr) l) (elem n (Z.of_nat i)) n = true.
  Proof.
    intros [] Hi Hm. unfold valid. apply bool_decide_eq_true. simpl.
    assert (elem n (Z.of_nat i + 1) <= elem n (Z.of_nat (length v))) by (apply elem_le; lia).
    rewrite elem_S in H, Hm. unfold elem in *. lia.
  Qed.

  (** What a process knows about the length of the vector and the pool's size:
      the exact values, or a lower bound for the length. *)
  Definition knows (exact : bool) (lo : Z) (slo : Z * Z) (v : list Z) (sf : Z * Z) : Prop :=
    if exact then Z.of_nat (length v) = lo /\ sf = slo else lo <= Z.of_nat (length v).

  (** A step of a process [ch]anging the length or size is allowed only to the
      expander. *)
  Definition changes (ch : bool) (v : list Z) (sf : Z * Z) (v' : list Z) (sf' : Z * Z) : Prop :=
    if ch then (length v <= length v')%nat
    else length v' = length v /\ sf' = sf.

  (** What happened to the call [c]: [cm] is its result once it has taken effect. *)
  Definition fin (exact : bool) (c : acall) (r : ares) (lo : Z) (slo : Z * Z) (cm : option ares) : Prop :=
    cm = Some r \/
    (cm = None /\ forall v sf, knows exact lo slo v sf -> Forall (in_range n) v ->
       vobj n v c r v).

  Fixpoint awp {A} (exact ch : bool) (c : acall) (p : aprog A) (pr : proc) (lo : Z) (slo : Z * Z)
      (cm : option ares) (Q : A -> proc -> Z -> (Z * Z) -> option ares -> Prop) : Prop :=
    match p with
    | ARet r => Q r pr lo slo cm
    | AThrow e => fin exact c (RExn e) lo slo cm
    | AUndef => False
    | ANoFuel => False
    | AOp e k =>
        forall m fs l v sz, SI m fs v sz -> knows exact lo slo v (sz, fs) ->
        exists x s, aexec e (mk_pst m fs (p_mapped pr) (p_epoch pr) (p_max pr) l) = Some (x, s) /\
          4096 <= mapped s /\
          exists v' sz' lo' slo' cm',
            SI (mem s) (fsize s) v' sz' /\ changes ch v (sz, fs) v' (sz', fsize s) /\
            knows exact lo' slo' v' (sz', fsize s) /\
            (cm' = cm /\ v' = v \/ exists r, cm = None /\ cm' = Some r /\ vobj n v c r v') /\
            awp exact ch c (k x) (Proc (mapped s) (maxsz s) (epoch s)) lo' slo' cm' Q
    end.

  Local Lemma changes_refl ch v sz : changes ch v sz v sz.
  Proof. destruct ch; simpl; lia || done. Qed.

  Lemma awp_bind {A B} exact ch c (p : aprog A) (k : A -> aprog B) pr lo slo cm Q :
    awp exact ch c p pr lo slo cm (fun a pr lo slo cm => awp exact ch c (k a) pr lo slo cm Q) ->
    awp exact ch c (abind p k) pr lo slo cm Q.
  Proof.
    revert pr lo slo cm. induction p as [| | | |e q IH]; intros pr lo slo cm; simpl; try done.
    intros H m fs l v sz HS HK. destruct (H m fs l v sz HS HK) as (x & s & Hx & Hm &
      v' & sz' & lo' & slo' & cm' & H1 & H2 & H3 & H4 & H5).
    exists x, s. split; [done|]. split; [done|]. exists v', sz', lo', slo', cm'.
    split; [done|]. split; [done|]. split; [done|]. split; [done|]. by apply IH.
  Qed.

  (** An action that only looks. *)
  Lemma awp_look {A} exact ch c e (k : Z -> aprog A) pr lo slo cm Q :
    4096 <= p_mapped pr ->
    (forall m fs l v sz, SI m fs v sz -> knows exact lo slo v (sz, fs) ->
       exists x, aexec e (mk_pst m fs (p_mapped pr) (p_epoch pr) (p_max pr) l) =
         Some (x, mk_pst m fs (p_mapped pr) (p_epoch pr) (p_max pr) l) /\
       exists lo' slo', knows exact lo' slo' v (sz, fs) /\ awp exact ch c (k x) pr lo' slo' cm Q) ->
    awp exact ch c (AOp e k) pr lo slo cm Q.
  Proof.
    intros Hm H m fs l v sz HS HK. destruct (H m fs l v sz HS HK) as (x & Hx & lo' & slo' & HK' & Hw).
    exists x, (mk_pst m fs (p_mapped pr) (p_epoch pr) (p_max pr) l). split; [done|].
    split; [done|]. exists v, sz, lo', slo', cm. split; [done|]. split; [apply changes_refl|].
    split; [done|]. split; [by left|]. simpl. by destruct pr.
  Qed.

  Lemma aexec_load0 m fs v sz pr l :
    SI m fs v sz -> 4096 <= p_mapped pr ->
    exec (ELoad 8 0) (mk_pst m fs (p_mapped pr) (p_epoch pr) (p_max pr) l) =
      Some (sz, mk_pst m fs (p_mapped pr) (p_epoch pr) (p_max pr) l).
  Proof.
    intros [] Hm. cbn [exec].
    assert (valid (mk_pst m fs (p_mapped pr) (p_epoch pr) (p_max pr) l) 0 8 = true) as ->.
    { unfold valid. apply bool_decide_eq_true. simpl. lia. }
    by rewrite rdm_read si_size0.
  Qed.
  Lemma aexec_load8 m fs v sz pr l :
    SI m fs v sz -> 4096 <= p_mapped pr ->
    exec (ELoad 8 8) (mk_pst m fs (p_mapped pr) (p_epoch pr) (p_max pr) l) =
      Some (Z.of_nat (length v), mk_pst m fs (p_mapped pr) (p_epoch pr) (p_max pr) l).
  Proof.
    intros [] Hm. cbn [exec].
    assert (valid (mk_pst m fs (p_mapped pr) (p_epoch pr) (p_max pr) l) 8 8 = true) as ->.
    { unfold valid. apply bool_decide_eq_true. simpl. lia. }
    by rewrite rdm_read si_count0.
  Qed.

  (** check_size_and_remap *)
  Lemma awp_check exact ch c pr lo slo cm (Q : unit -> proc -> Z -> (Z * Z) -> option ares -> Prop) :
    4096 <= p_mapped pr ->
    (forall pr', 4096 <= p_mapped pr' -> elem n lo <= p_mapped pr' -> p_max pr' = p_max pr ->
       (exact = true -> p_mapped pr' = slo.1) -> Q tt pr' lo slo cm) ->
    awp exact ch c (lift check_size_and_remap) pr lo slo cm Q.
  Proof.
    intros Hm Hk. unfold check_size_and_remap.
    apply awp_look; [done|]. intros m fs l v sz HS HK.
    exists (p_mapped pr). split; [done|]. exists lo, slo. split; [done|].
    simpl bind. rewrite bool_decide_eq_false_2; [|lia].
    apply awp_look; [done|]. clear m fs l v sz HS HK. intros m fs l v sz HS HK.
    exists sz. split; [by eapply aexec_load0|]. exists lo, slo. split; [done|].
    assert (Hlo : elem n lo <= sz).
    { destruct HS. etrans; [|exact si_len0]. apply elem_le. destruct exact; simpl in HK; lia. }
    assert (Hsz : 4096 <= sz) by (destruct HS; lia).
    assert (Hex : exact = true -> sz = slo.1) by (intros ->; simpl in HK; destruct HK as [_ <-]; done).
    case_bool_decide as Heq.
    - apply Hk; [done|lia|done|]. intros E. rewrite <- Heq. auto.
    - cbn [bind remap lift]. clear m fs l v HS HK. intros m fs l v sz' HS HK.
      eexists _, _. split; [reflexivity|]. split; [done|].
      exists v, sz', lo, slo, cm. split; [done|]. split; [apply changes_refl|]. split; [done|].
      split; [by left|]. simpl bind. rewrite bool_decide_eq_false_2; [|lia].
      apply Hk; simpl; done.
  Qed.

  (** at(index): out of range, or an address that stays accessible. *)
  Lemma awp_at exact ch c i pr lo slo cm (Q : Z -> proc -> Z -> (Z * Z) -> option ares -> Prop) :
    4096 <= p_mapped pr -> 0 <= i -> (exact = false -> i < lo) ->
    (exact = true -> lo <= i -> fin exact c (RExn OutOfRange) lo slo cm) ->
    (i < lo -> forall pr', 4096 <= p_mapped pr' -> elem n (i + 1) <= p_mapped pr' ->
       Q (elem n i) pr' lo slo cm) ->
    awp exact ch c (av_at n i) pr lo slo cm Q.
  Proof.
    intros Hm Hi Hex Hout Hin. unfold av_at. apply awp_bind. apply awp_check; [done|].
    intros pr' Hm' Hlo Hmax Hx. apply awp_bind. cbn [lift load64].
    apply awp_look; [done|]. intros m fs l v sz HS HK.
    exists (Z.of_nat (length v)). split; [by eapply aexec_load8|]. exists lo, slo. split; [done|].
    cbn [lift awp]. case_bool_decide as Hc; cbn [awp].
    - destruct exact; simpl in HK; [apply Hout; [done|lia]|]. specialize (Hex eq_refl). lia.
    - destruct exact; simpl in HK.
      + apply Hin; [lia|done|]. etrans; [apply elem_le|exact Hlo]. lia.
      + specialize (Hex eq_refl). apply Hin; [lia|done|]. etrans; [apply elem_le|exact Hlo]. lia.
  Qed.

  Lemma knows_lo exact lo slo v sz : knows exact lo slo v sz -> lo <= Z.of_nat (length v).
  Proof. destruct exact; simpl; lia. Qed.
  Lemma knows_length exact lo slo v v' sz :
    length v' = length v -> knows exact lo slo v sz -> knows exact lo slo v' sz.
  Proof. unfold knows. by intros ->. Qed.

  (** One atomic access of element [i], at which the call takes effect. *)
  Lemma awp_element {A} exact ch c i e (k : Z -> aprog A) f (res : Z -> ares) pr lo slo Q :
    4096 <= p_mapped pr -> 0 <= i -> i < lo -> elem n (i + 1) <= p_mapped pr ->
    (forall s, valid s (elem n i) n = true -> exists y, aexec e s =
       Some (y, set_mem s (write_bytes (mem s) (elem n i)
          (le_bytes n (f (le_val (read_bytes s (elem n i) n)))))) /\
       awp exact ch c (k y) pr lo slo (Some (res (le_val (read_bytes s (elem n i) n)))) Q) ->
    (forall v x, Forall (in_range n) v -> v !! Z.to_nat i = Some x -> i < Z.of_nat (length v) ->
       vobj n v c (res x) (<[Z.to_nat i := f x mod 256 ^ Z.of_nat n]> v)) ->
    awp exact ch c (AOp e k) pr lo slo None Q.
  Proof.
    intros Hm Hi Hlo Hel He Hv m fs l v sz HS HK.
    pose proof (knows_lo _ _ _ _ _ HK) as Hlen.
    assert (Hin : (Z.to_nat i < length v)%nat) by lia.
    destruct (lookup_lt_is_Some_2 v (Z.to_nat i) Hin) as [x Hx].
    pose proof (SI_valid m fs v sz pr l (Z.to_nat i) HS Hin) as Hval.
    rewrite Z2Nat.id in Hval; [|done]. specialize (Hval Hel).
    destruct (He _ Hval) as (y & Hy & Hk).
    assert (Hrd : le_val (read_bytes (mk_pst m fs (p_mapped pr) (p_epoch pr) (p_max pr) l)
      (elem n i) n) = x).
    { rewrite rdm_read. simpl. pose proof (si_elem _ _ _ _ HS _ _ Hx) as H.
      rewrite Z2Nat.id in H; done. }
    rewrite Hrd in Hy Hk.
    eexists _, _. split; [exact Hy|]. split; [done|]. simpl.
    exists (<[Z.to_nat i := f x mod 256 ^ Z.of_nat n]> v), sz, lo, slo, (Some (res x)).
    split.
    { pose proof (SI_write m fs v sz (Z.to_nat i) (f x) HS Hin) as H.
      rewrite Z2Nat.id in H; done. }
    split; [destruct ch; simpl; rewrite insert_length; [lia|done]|].
    split; [eapply knows_length; [|done]; by rewrite insert_length|].
    split. { right. exists (res x). split; [done|]. split; [done|].
      apply Hv; [by eapply SI_range|done|lia]. }
    by destruct pr.
  Qed.

  (** The same for an access that does not write. *)
  Lemma awp_element_load {A} exact ch c i (k : Z -> aprog A) (res : Z -> ares) pr lo slo Q :
    4096 <= p_mapped pr -> 0 <= i -> i < lo -> elem n (i + 1) <= p_mapped pr ->
    (forall x, awp exact ch c (k x) pr lo slo (Some (res x)) Q) ->
    (forall v x, Forall (in_range n) v -> v !! Z.to_nat i = Some x -> i < Z.of_nat (length v) ->
       vobj n v c (res x) v) ->
    awp exact ch c (AOp (APool (ELoad n (elem n i))) k) pr lo slo None Q.
  Proof.
    intros Hm Hi Hlo Hel Hk Hv m fs l v sz HS HK.
    pose proof (knows_lo _ _ _ _ _ HK) as Hlen.
    assert (Hin : (Z.to_nat i < length v)%nat) by lia.
    destruct (lookup_lt_is_Some_2 v (Z.to_nat i) Hin) as [x Hx].
    pose proof (SI_valid m fs v sz pr l (Z.to_nat i) HS Hin) as Hval.
    rewrite Z2Nat.id in Hval; [|done]. specialize (Hval Hel).
    cbn [aexec exec]. rewrite Hval.
    assert (Hrd : le_val (read_bytes (mk_pst m fs (p_mapped pr) (p_epoch pr) (p_max pr) l)
      (elem n i) n) = x).
    { rewrite rdm_read. simpl. pose proof (si_elem _ _ _ _ HS _ _ Hx) as H.
      rewrite Z2Nat.id in H; done. }
    rewrite Hrd. eexists _, _. split; [reflexivity|]. split; [done|]. simpl.
    exists v, sz, lo, slo, (Some (res x)). split; [done|]. split; [apply changes_refl|].
    split; [done|]. split.
    { right. exists (res x). split; [done|]. split; [done|].
      apply Hv; [by eapply SI_range|done|lia]. }
    destruct pr. apply Hk.
  Qed.

  Definition final exact c (r : ares) (pr : proc) (lo : Z) (slo : Z * Z) (cm : option ares) : Prop :=
    fin exact c r lo slo cm.

  (** The element operations. *)
  Lemma awp_rmw_op {B} exact ch c i f (post : Z -> aprog B) (res : Z -> ares) pr lo slo Q :
    4096 <= p_mapped pr -> 0 <= i -> (exact = false -> i < lo) ->
    (forall v, Z.of_nat (length v) <= i -> vobj n v c (RExn OutOfRange) v) ->
    (forall v x, Forall (in_range n) v -> v !! Z.to_nat i = Some x -> i < Z.of_nat (length v) ->
       vobj n v c (res x) (<[Z.to_nat i := f x mod 256 ^ Z.of_nat n]> v)) ->
    (forall x pr', awp exact ch c (post x) pr' lo slo (Some (res x)) Q) ->
    awp exact ch c (abind (abind (av_at n i) (fun a => rmw n a f)) post) pr lo slo None Q.
  Proof.
    intros Hm Hi Hex Hout Hv Hk. apply awp_bind, awp_bind. apply awp_at; [done|done|done| |].
    - intros -> Hlo. right. split; [done|]. intros v sz [Hlen _] _. apply Hout. lia.
    - intros Hlo pr' Hm' Hel. unfold rmw. eapply (awp_element _ _ _ i _ _ f res); try done.
      intros s Hval. eexists. split.
      + cbn [aexec]. rewrite Hval. done.
      + apply Hk.
  Qed.
  Lemma awp_load_op {B} exact ch c i (post : Z -> aprog B) (res : Z -> ares) pr lo slo Q :
    4096 <= p_mapped pr -> 0 <= i -> (exact = false -> i < lo) ->
    (forall v, Z.of_nat (length v) <= i -> vobj n v c (RExn OutOfRange) v) ->
    (forall v x, Forall (in_range n) v -> v !! Z.to_nat i = Some x -> i < Z.of_nat (length v) ->
       vobj n v c (res x) v) ->
    (forall x pr', awp exact ch c (post x) pr' lo slo (Some (res x)) Q) ->
    awp exact ch c (abind (av_load n i) post) pr lo slo None Q.
  Proof.
    intros Hm Hi Hex Hout Hv Hk. apply awp_bind. unfold av_load. apply awp_bind.
    apply awp_at; [done|done|done| |].
    - intros -> Hlo. right. split; [done|]. intros v sz [Hlen _] _. apply Hout. lia.
    - intros Hlo pr' Hm' Hel. unfold load. cbn [lift].
      eapply (awp_element_load _ _ _ i _ res); try done. intros x. apply Hk.
  Qed.

  (** ** Bits *)
  Lemma bits_pos : 0 < bits n.
  Proof. unfold bits. lia. Qed.
  Lemma pow_bits : 256 ^ Z.of_nat n = 2 ^ bits n.
  Proof. unfold bits. rewrite Z.pow_mul_r; [done|lia|lia]. Qed.
  Definition bpos (b : Z) : Z := bits n - 1 - b mod bits n.
  Lemma bpos_range b : 0 <= bpos b < bits n.
  Proof. unfold bpos. pose proof bits_pos. pose proof (Z.mod_pos_bound b (bits n)). lia. Qed.
  Lemma mask_spec b : mask_for_bit n b = 2 ^ bpos b.
  Proof.
    unfold mask_for_bit. rewrite Z.shiftl_1_l. f_equal. unfold bpos. lia.
  Qed.
  Lemma land_mask x b : bool_decide (Z.land x (mask_for_bit n b) <> 0) = Z.testbit x (bpos b).
  Proof.
    rewrite mask_spec. pose proof (bpos_range b) as Hb.
    assert (Z.land x (2 ^ bpos b) = if Z.testbit x (bpos b) then 2 ^ bpos b else 0) as ->.
    { apply Z.bits_inj'. intros q Hq. rewrite Z.land_spec Z.pow2_bits_eqb; [|lia].
      destruct (Z.eqb_spec (bpos b) q) as [<-|Hne].
      - destruct (Z.testbit x (bpos b)); [|by rewrite Z.bits_0].
        rewrite Z.pow2_bits_true; [done|lia].
      - rewrite andb_false_r. destruct (Z.testbit x (bpos b)); [|by rewrite Z.bits_0].
        rewrite Z.pow2_bits_false; done. }
    destruct (Z.testbit x (bpos b)).
    - apply bool_decide_eq_true. assert (0 < 2 ^ bpos b) by (apply Z.pow_pos_nonneg; lia). lia.
    - apply bool_decide_eq_false. lia.
  Qed.
  Lemma vbit_at v b i x : 0 <= b -> i = b / bits n -> v !! Z.to_nat i = Some x ->
    vbit n v b = Z.testbit x (bpos b).
  Proof. intros Hb -> Hx. unfold vbit, bpos. by rewrite Hx. Qed.

  Lemma bit_upd v b x y new :
    0 <= b -> Forall (in_range n) v -> v !! Z.to_nat (b / bits n) = Some x ->
    (forall q, 0 <= q < bits n ->
       Z.testbit y q = if decide (q = bpos b) then new (Z.testbit x q) else Z.testbit x q) ->
    let v' := <[Z.to_nat (b / bits n) := y mod 256 ^ Z.of_nat n]> v in
    length v' = length v /\ Forall (in_range n) v' /\
    forall b', 0 <= b' ->
      vbit n v' b' = if decide (b' = b) then new (vbit n v b) else vbit n v b'.
  Proof.
    intros Hb HF Hx Hy v'. pose proof bits_pos as HN.
    assert (Hpow : 0 < 256 ^ Z.of_nat n) by (apply Z.pow_pos_nonneg; lia).
    split; [by apply insert_length|]. split.
    { apply Forall_insert; [done|]. unfold in_range. apply Z.mod_pos_bound. done. }
    intros b' Hb'. destruct (decide (b' / bits n = b / bits n)) as [Hq|Hq].
    - assert (v' !! Z.to_nat (b' / bits n) = Some (y mod 256 ^ Z.of_nat n)) as Hv'.
      { rewrite Hq. apply list_lookup_insert. by eapply lookup_lt_Some. }
      rewrite (vbit_at v' b' _ _ Hb' eq_refl Hv').
      rewrite (vbit_at v b _ _ Hb eq_refl Hx).
      rewrite pow_bits Z.mod_pow2_bits_low; [|apply bpos_range].
      rewrite Hy; [|apply bpos_range].
      assert (Hbb : bpos b' = bpos b <-> b' = b).
      { unfold bpos. pose proof (Z.div_mod b (bits n)). pose proof (Z.div_mod b' (bits n)).
        split; [|by intros ->]. intros E. rewrite H0; [|lia]. rewrite H; [|lia]. rewrite Hq. lia. }
      destruct (decide (bpos b' = bpos b)) as [E|E].
      + rewrite decide_True; [|tauto]. by rewrite E.
      + rewrite decide_False; [|tauto]. rewrite <- Hq in Hx.
        by rewrite (vbit_at v b' _ _ Hb' eq_refl Hx).
    - rewrite decide_False; [|intros ->; done].
      assert (0 <= b / bits n) by (apply Z.div_pos; lia).
      assert (0 <= b' / bits n) by (apply Z.div_pos; lia).
      unfold vbit, v'. rewrite list_lookup_insert_ne; [done|]. lia.
  Qed.

  (** ** expand *)

  Lemma SI_grow m fs v sz fs' :
    SI m fs v sz -> sz <= fs' ->
    SI (if bool_decide (fs' < fs) then truncate_mem m fs' else m) fs' v sz.
  Proof.
    intros [] Hfs. case_bool_decide as Hc; [|split; try done; lia].
    assert (HT : forall a, a < sz -> truncate_mem m fs' !! a = m !! a)
      by (intros a Ha; apply truncate_get; lia).
    split; try done; try lia.
    - intros a b. destruct (decide (a < fs')).
      + rewrite truncate_get; [|done]. eauto.
      + rewrite truncate_get_ge; [done|lia].
    - rewrite <- si_size0. apply rdm_ext. intros x Hx. apply HT. lia.
    - rewrite <- si_count0. apply rdm_ext. intros x Hx. apply HT. lia.
    - intros j x Hj. rewrite <- (si_elem0 _ _ Hj). apply rdm_ext. intros y Hy. apply HT.
      assert (elem n (Z.of_nat j + 1) <= elem n (Z.of_nat (length v))).
      { apply elem_le. apply lookup_lt_Some in Hj. lia. }
      rewrite elem_S in H. lia.
    - intros a Ha. destruct (decide (a < fs')).
      + rewrite truncate_get; [|done]. eauto.
      + rewrite truncate_get_ge; [done|lia].
  Qed.

  Lemma SI_set_size m fs v sz y :
    SI m fs v sz -> sz <= y <= fs -> y < 2 ^ 64 ->
    SI (write_bytes m 0 (le_bytes 8 y)) fs v y.
  Proof.
    intros [] Hy Hy64.
    split; try done; try lia.
    - apply mem_ok_write; [done|apply le_bytes_ok].
    - rewrite rdm_write_same. apply Z.mod_small. change (256 ^ Z.of_nat 8) with (2 ^ 64). lia.
    - rewrite rdm_write_other; [done|right; rewrite le_bytes_length; lia].
    - intros j x Hj. rewrite rdm_write_other; [auto|].
      right. rewrite le_bytes_length. unfold elem. nia.
    - intros a Ha. rewrite write_bytes_get. rewrite bool_decide_eq_false_2; [by apply si_zero0|].
      rewrite le_bytes_length. unfold elem in Ha. nia.
  Qed.

  Lemma SI_set_count m fs v sz c :
    SI m fs v sz -> Z.of_nat (length v) <= c -> elem n c <= sz -> c < 2 ^ 64 ->
    SI (write_bytes m 8 (le_bytes 8 c)) fs (v ++ replicate (Z.to_nat c - length v) 0) sz.
  Proof.
    intros [] Hc Hsz Hc64.
    assert (Hlen : Z.of_nat (length (v ++ replicate (Z.to_nat c - length v) 0)) = c).
    { rewrite app_length replicate_length. lia. }
    split; rewrite ?Hlen; try done; try lia.
    - apply mem_ok_write; [done|apply le_bytes_ok].
    - rewrite rdm_write_other; [done|left; lia].
    - rewrite rdm_write_same. apply Z.mod_small. change (256 ^ Z.of_nat 8) with (2 ^ 64). lia.
    - intros j x Hj. rewrite rdm_write_other; [|right; rewrite le_bytes_length; unfold elem; nia].
      apply lookup_app_Some in Hj as [Hj|[Hj1 Hj2]]; [auto|].
      apply lookup_replicate in Hj2 as [-> _]. apply rdm_zero. intros y Hy. apply si_zero0.
      etrans; [|exact Hy]. apply elem_le. lia.
    - intros a Ha. rewrite write_bytes_get. rewrite bool_decide_eq_false_2.
      + apply si_zero0. etrans; [|exact Ha]. apply elem_le. lia.
      + rewrite le_bytes_length. unfold elem in Ha. nia.
  Qed.

  Lemma round_page_ge x : 0 <= x -> x + 4095 < 2 ^ 64 -> x <= round_page x < 2 ^ 64.
  Proof.
    intros H1 H2. unfold round_page. rewrite (u64_small (x + 4095)); [|lia].
    unfold PAGE. pose proof (Z.div_mod (x + 4095) 4096). pose proof (Z.mod_pos_bound (x + 4095) 4096).
    lia.
  Qed.

  (** Pool::expand by the only process that expands. *)
  Lemma awp_pool_expand cnt req pr lo slo (Q : unit -> proc -> Z -> (Z * Z) -> option ares -> Prop) :
    4096 <= p_mapped pr -> p_mapped pr = slo.1 -> lo < cnt -> 0 <= req -> req + 4095 < 2 ^ 64 ->
    (forall pr' slo', 4096 <= p_mapped pr' -> req <= slo'.1 -> Q tt pr' lo slo' None) ->
    awp true true (CExpand cnt) (lift (pool_expand req)) pr lo slo None Q.
  Proof.
    intros Hm Hs Hlo Hr0 Hr64 HQ. unfold pool_expand.
    pose proof (round_page_ge req Hr0 Hr64) as Hrp. set (y := round_page req) in *.
    assert (Hthrow : forall slo, fin true (CExpand cnt) (RExn RuntimeError) lo slo None).
    { intros slo'. right. split; [done|]. intros v sz [Hl _] _. simpl.
      rewrite bool_decide_eq_false_2; [|lia]. by right. }
    apply awp_look; [done|]. intros m fs l v sz HS HK.
    exists (p_max pr). split; [done|]. exists lo, slo. split; [done|]. simpl bind.
    case_bool_decide; [apply Hthrow|].
    apply awp_look; [done|]. clear m fs l v sz HS HK. intros m fs l v sz HS HK.
    exists (p_mapped pr). split; [done|]. exists lo, slo. split; [done|]. simpl bind.
    case_bool_decide as Hy; [apply HQ; [done|lia]|].
    (* ftruncate *)
    clear m fs l v sz HS HK. cbn [lift bind ftruncate]. intros m fs l v sz HS HK.
    cbn [aexec exec oslim fsize mem mapped epoch maxsz].
    case_bool_decide as Hl; cbn [bool_decide].
    2:{ eexists _, _. split; [reflexivity|]. split; [done|]. exists v, sz, lo, slo, None.
        split; [done|]. split; [apply changes_refl|]. split; [done|]. split; [by left|].
        rewrite bool_decide_eq_true_2; [|done]. apply Hthrow. }
    eexists _, _. split; [reflexivity|]. split; [done|]. exists v, sz, lo, (slo.1, y), None.
    split. { cbn [mem fsize]. apply SI_grow; [done|]. destruct HK as [_ <-]. simpl in Hs. lia. }
    split; [simpl; lia|]. split; [destruct HK as [? <-]; done|]. split; [by left|].
    rewrite bool_decide_eq_false_2; [|lia].
    (* the size *)
    cbn [bind store64 store lift mapped maxsz epoch]. clear m fs l HS Hl HK.
    intros m fs l v1 sz1 HS [HK1 HK2]. cbn [aexec exec mapped epoch maxsz p_mapped p_epoch p_max].
    assert (valid (mk_pst m fs (p_mapped pr) (p_epoch pr) (p_max pr) l) 0 8 = true) as ->.
    { unfold valid. apply bool_decide_eq_true. simpl. destruct HS. lia. }
    destruct slo as [ss sf]. simpl in Hs, HK2. injection HK2 as -> ->.
    eexists _, _. split; [reflexivity|]. split; [done|]. exists v1, y, lo, (y, y), None.
    split. { cbn [mem fsize set_mem]. apply SI_set_size with ss; [done|lia|lia]. }
    split; [simpl; lia|]. split; [done|]. split; [by left|].
    cbn [mapped maxsz epoch set_mem]. clear m l HS.
    destruct pr as [pm px pe]. cbn [p_mapped p_max p_epoch] in *.
    apply awp_check; [done|]. intros pr' Hm' _ _ Hy'. apply HQ; [done|]. simpl. lia.
  Qed.

  Lemma awp_count_cas cnt pr lo slo (Q : Z -> proc -> Z -> Z * Z -> option ares -> Prop) :
    4096 <= p_mapped pr -> lo < cnt -> elem n cnt <= slo.1 -> cnt < 2 ^ 64 ->
    Q lo pr cnt slo (Some RVoid) ->
    awp true true (CExpand cnt)
      (rmw 8 8 (fun c => if decide (c = lo) then cnt else c)) pr lo slo None Q.
  Proof.
    intros Hm Hlo Hel Hc HQ m fs l v sz HS [HK1 HK2]. destruct slo as [ss sf].
    simpl in Hel. injection HK2 as -> ->. cbn [aexec].
    assert (valid (mk_pst m sf (p_mapped pr) (p_epoch pr) (p_max pr) l) 8 8 = true) as ->.
    { unfold valid. apply bool_decide_eq_true. simpl. destruct HS. lia. }
    eexists _, _. split; [reflexivity|]. split; [done|]. cbn [mem fsize set_mem].
    rewrite rdm_read. cbn [mem]. rewrite (si_count _ _ _ _ HS) HK1. rewrite decide_True; [|done].
    exists (v ++ replicate (Z.to_nat cnt - length v) 0), ss, cnt, (ss, sf), (Some RVoid).
    split; [apply SI_set_count; (done || lia)|].
    split; [simpl; rewrite app_length; lia|].
    split; [simpl; rewrite app_length replicate_length; split; [lia|done]|].
    split. { right. exists RVoid. split; [done|]. split; [done|]. simpl.
      rewrite bool_decide_eq_false_2; [|lia]. by left. }
    by destruct pr.
  Qed.

  Context (F : nat) (HF : (0 < F)%nat).

  Lemma awp_expand cnt pr lo slo :
    4096 <= p_mapped pr -> args_ok n (CExpand cnt) ->
    awp true true (CExpand cnt) (call_prog n F (CExpand cnt)) pr lo slo None
      (final true (CExpand cnt)).
  Proof.
    intros Hm [Hc0 Hc64]. cbn [call_prog]. apply awp_bind. unfold av_expand. apply awp_bind.
    unfold load64, load. cbn [lift]. apply awp_look; [done|]. intros m fs l v sz HS [HK1 HK2].
    exists (Z.of_nat (length v)). split; [by eapply aexec_load8|]. exists lo, slo. split; [done|].
    rewrite HK1. cbn [awp lift].
    destruct F as [|f]; [lia|]. cbn [av_expand_loop].
    rewrite (u64_small (16 + cnt * Z.of_nat n)); [|unfold elem in Hc64; nia].
    case_bool_decide as Hlt.
    - apply awp_bind, awp_check; [done|]. intros pr1 Hm1 _ _ Hs1.
      apply awp_bind, awp_pool_expand; [done|auto|done|unfold elem in Hc64; nia| |].
      { unfold elem in Hc64. lia. }
      intros pr2 slo2 Hm2 Hs2. apply awp_bind, awp_count_cas; [done|done|by unfold elem| |].
      { unfold elem in Hc64. nia. }
      rewrite bool_decide_eq_true_2; [|done]. by left.
    - right. split; [done|]. intros v1 sf [Hl1 _] _. simpl.
      rewrite bool_decide_eq_true_2; [done|lia].
  Qed.

  Lemma awp_call exact ch c pr lo slo :
    4096 <= p_mapped pr -> args_ok n c ->
    (is_expand c -> exact = true /\ ch = true) ->
    (exact = false -> forall j, call_index n c = Some j -> j < lo) ->
    awp exact ch c (call_prog n F c) pr lo slo None (final exact c).
  Proof.
    intros Hm Harg Hexp Hidx.
    assert (Hb0 : forall b, 0 <= b -> 0 <= b / bits n)
      by (intros b Hb; apply Z.div_pos; [done|apply bits_pos]).
    assert (Hload : forall i, 0 <= i -> (exact = false -> i < lo) ->
      awp exact ch (CLoad i) (call_prog n F (CLoad i)) pr lo slo None (final exact (CLoad i))).
    { intros i Hi Hlo. cbn [call_prog]. apply (awp_load_op _ _ _ _ _ RVal); try done.
      - intros v Hv. simpl. rewrite bool_decide_eq_false_2; [done|lia].
      - intros v x HFv Hx Hl. simpl. rewrite bool_decide_eq_true_2; [|done].
        exists x. split; [done|]. split; [done|].
        eapply Forall_lookup_1 in HFv; [|done].
        rewrite Z.mod_small; [|done]. by rewrite list_insert_id.
      - by left. }
    destruct c as [|i|i y|i y|i e d|i d|i d|i k|i k|i k|b|b x|b|cnt]; simpl in Harg, Hidx.
    - cbn [call_prog]. unfold av_size, load64, load. cbn [abind lift].
      intros m fs l v sz HS HK.
      eexists _, _. split; [by eapply aexec_load8|]. split; [done|].
      exists v, sz, lo, slo, (Some (RVal (Z.of_nat (length v)))). split; [done|].
      split; [apply changes_refl|]. split; [done|]. split; [|by left].
      right. eexists. split; [done|]. split; [done|]. done.
    - apply Hload; [lia|auto].
    - (* store *)
      cbn [call_prog]. apply awp_bind. unfold av_store. apply awp_bind.
      apply awp_at; [done|lia|auto| |].
      + intros -> Hlo. right. split; [done|]. intros v sf [Hlen _] _. simpl.
        rewrite bool_decide_eq_false_2; [done|lia].
      + intros Hlo pr' Hm' Hel. unfold store. cbn [lift].
        eapply (awp_element _ _ _ i _ _ (fun _ => y) (fun _ => RVoid)); try (done || lia).
        * intros s Hval. eexists. split; [cbn [aexec exec]; by rewrite Hval|]. by left.
        * intros v x HFv Hx Hl. simpl. rewrite bool_decide_eq_true_2; [|done]. by exists x.
    - apply (awp_rmw_op _ _ _ _ _ _ RVal); [done|lia|auto| | |by left].
      + intros v Hv. simpl. rewrite bool_decide_eq_false_2; [done|lia].
      + intros v x HFv Hx Hl. simpl. rewrite bool_decide_eq_true_2; [|done]. by exists x.
    - apply (awp_rmw_op _ _ _ _ _ _ RVal); [done|lia|auto| | |by left].
      + intros v Hv. simpl. rewrite bool_decide_eq_false_2; [done|lia].
      + intros v x HFv Hx Hl. simpl. rewrite bool_decide_eq_true_2; [|done]. by exists x.
    - apply (awp_rmw_op _ _ _ _ _ _ RVal); [done|lia|auto| | |by left].
      + intros v Hv. simpl. rewrite bool_decide_eq_false_2; [done|lia].
      + intros v x HFv Hx Hl. simpl. rewrite bool_decide_eq_true_2; [|done]. by exists x.
    - apply (awp_rmw_op _ _ _ _ _ _ RVal); [done|lia|auto| | |by left].
      + intros v Hv. simpl. rewrite bool_decide_eq_false_2; [done|lia].
      + intros v x HFv Hx Hl. simpl. rewrite bool_decide_eq_true_2; [|done]. by exists x.
    - apply (awp_rmw_op _ _ _ _ _ _ RVal); [done|lia|auto| | |by left].
      + intros v Hv. simpl. rewrite bool_decide_eq_false_2; [done|lia].
      + intros v x HFv Hx Hl. simpl. rewrite bool_decide_eq_true_2; [|done]. by exists x.
    - apply (awp_rmw_op _ _ _ _ _ _ RVal); [done|lia|auto| | |by left].
      + intros v Hv. simpl. rewrite bool_decide_eq_false_2; [done|lia].
      + intros v x HFv Hx Hl. simpl. rewrite bool_decide_eq_true_2; [|done]. by exists x.
    - apply (awp_rmw_op _ _ _ _ _ _ RVal); [done|lia|auto| | |by left].
      + intros v Hv. simpl. rewrite bool_decide_eq_false_2; [done|lia].
      + intros v x HFv Hx Hl. simpl. rewrite bool_decide_eq_true_2; [|done]. by exists x.
    - (* load_bit *)
      cbn [call_prog]. unfold av_load_bit. apply awp_bind.
      apply (awp_load_op _ _ _ _ _ (fun x => RFlag (Z.testbit x (bpos b))));
        [done|apply Hb0; lia|auto| | |].
      + intros v Hv. simpl. rewrite bool_decide_eq_false_2; [done|lia].
      + intros v x HFv Hx Hl. simpl. rewrite bool_decide_eq_true_2; [|done].
        split; [by rewrite (vbit_at v b _ _ (proj1 Harg) eq_refl Hx)|].
        split; [done|]. split; [done|]. intros b' Hb'. by destruct (decide (b' = b)) as [->|].
      + intros x pr'. left. by rewrite land_mask.
    - (* store_bit *)
      cbn [call_prog]. unfold av_store_bit. destruct x.
      + apply awp_bind.
        apply (awp_rmw_op _ _ _ _ _ _ (fun x => RFlag (Z.testbit x (bpos b))));
          [done|apply Hb0; lia|auto| | |].
        * intros v Hv. simpl. rewrite bool_decide_eq_false_2; [done|lia].
        * intros v x HFv Hx Hl. simpl. rewrite bool_decide_eq_true_2; [|done].
          split; [by rewrite (vbit_at v b _ _ (proj1 Harg) eq_refl Hx)|].
          apply (bit_upd v b x _ (fun _ => true)); [lia|done|done|].
          intros q Hq. rewrite Z.lor_spec mask_spec Z.pow2_bits_eqb; [|pose proof (bpos_range b); lia].
          destruct (decide (q = bpos b)) as [->|Hne]; [rewrite Z.eqb_refl; apply orb_true_r|].
          destruct (Z.eqb_spec (bpos b) q); [congruence|apply orb_false_r].
        * intros x pr'. left. by rewrite land_mask.
      + apply awp_bind.
        apply (awp_rmw_op _ _ _ _ _ _ (fun x => RFlag (Z.testbit x (bpos b))));
          [done|apply Hb0; lia|auto| | |].
        * intros v Hv. simpl. rewrite bool_decide_eq_false_2; [done|lia].
        * intros v x HFv Hx Hl. simpl. rewrite bool_decide_eq_true_2; [|done].
          split; [by rewrite (vbit_at v b _ _ (proj1 Harg) eq_refl Hx)|].
          apply (bit_upd v b x _ (fun _ => false)); [lia|done|done|].
          intros q Hq. rewrite Z.land_spec Z.lnot_spec; [|lia].
          rewrite mask_spec Z.pow2_bits_eqb; [|pose proof (bpos_range b); lia].
          destruct (decide (q = bpos b)) as [->|Hne]; [rewrite Z.eqb_refl; apply andb_false_r|].
          destruct (Z.eqb_spec (bpos b) q); [congruence|apply andb_true_r].
        * intros x pr'. left. by rewrite land_mask.
    - (* xor_bit *)
      cbn [call_prog]. unfold av_xor_bit. apply awp_bind.
      apply (awp_rmw_op _ _ _ _ _ _ (fun x => RFlag (negb (Z.testbit x (bpos b)))));
        [done|apply Hb0; lia|auto| | |].
      + intros v Hv. simpl. rewrite bool_decide_eq_false_2; [done|lia].
      + intros v x HFv Hx Hl. simpl. rewrite bool_decide_eq_true_2; [|done].
        split; [by rewrite (vbit_at v b _ _ (proj1 Harg) eq_refl Hx)|].
        apply (bit_upd v b x _ negb); [lia|done|done|].
        intros q Hq. rewrite Z.lxor_spec mask_spec Z.pow2_bits_eqb; [|pose proof (bpos_range b); lia].
        destruct (decide (q = bpos b)) as [->|Hne]; [rewrite Z.eqb_refl; apply xorb_true_r|].
        destruct (Z.eqb_spec (bpos b) q); [congruence|apply xorb_false_r].
      + intros x pr'. left. by rewrite land_mask.
    - destruct Hexp as [-> ->]; [done|]. by apply awp_expand.
  Qed.

  (** ** The system *)
  Inductive mode := Static | Dyn.
  Definition exact_of (md : mode) (c : acall) : bool :=
    match md with Static => true | Dyn => bool_decide (is_expand c) end.
  Definition ch_of (md : mode) (c : acall) : bool :=
    match md with Static => false | Dyn => bool_decide (is_expand c) end.
  Definition may_of (md : mode) : astate -> nat -> acall -> Prop :=
    match md with Static => no_expand n | Dyn => serial_expand n end.
  Definition pend (c : acall) (cm : option ares) : pending :=
    match cm with None => PCalled c | Some r => PDone r end.

  Record AInv (md : mode) (st : astate) (v : list Z) (P : gmap nat (pending (C:=acall) (R:=ares))) : Prop := {
    ai_SI : SI (w_mem (a_w st)) (w_fsize (a_w st)) v (w_word (a_w st) 0);
    ai_procs : processes_ok (a_w st);
    ai_run : forall i c p, a_run st !! i = Some (c, p) ->
      exists pr lo slo cm, w_procs (a_w st) !! i = Some pr /\
        knows (exact_of md c) lo slo v (w_word (a_w st) 0, w_fsize (a_w st)) /\
        awp (exact_of md c) (ch_of md c) c p pr lo slo cm (final (exact_of md c) c) /\
        P !! i = Some (pend c cm);
    ai_one : forall i c p j c' p', a_run st !! i = Some (c, p) -> a_run st !! j = Some (c', p') ->
      is_expand c -> is_expand c' -> j = i;
    ai_idle : forall i, a_run st !! i = None -> P !! i = None
  }.

  Lemma knows_changes md c c' lo slo v sf v' sf' :
    (is_expand c -> ~ is_expand c') -> changes (ch_of md c) v sf v' sf' ->
    knows (exact_of md c') lo slo v sf -> knows (exact_of md c') lo slo v' sf'.
  Proof.
    intros Hne Hch HK. destruct (ch_of md c) eqn:E; simpl in Hch.
    - destruct md as [|]; [done|]. simpl in E. apply bool_decide_eq_true in E.
      simpl in *. rewrite bool_decide_eq_false_2 in HK |- *; [|auto]. simpl in *. lia.
    - destruct Hch as [Hl ->]. by eapply knows_length.
  Qed.


  Lemma AInv_step md st h st' v P :
    AInv md st v P -> astep n F (may_of md) st h st' ->
    exists v' P', AInv md st' v' P' /\
      forall h' v2, linearizable (vobj n) P' v' h' v2 -> linearizable (vobj n) P v (h ++ h') v2.
  Proof.
    intros HI Hst. destruct HI as [HS Hp Hr Ho1 Hid].
    destruct Hst as [st i pr c Hi Hrun Hmay|st i pr c e k r s Hi Hrun Hex|st i c r Hrun|
      st i c e Hrun|st i|st i mx W Hi Ho].
    - (* call *)
      exists v, (<[i := PCalled c]> P). split.
      + split; [done|done| | |].
        * intros j c' p Hj. simpl in Hj. destruct (decide (j = i)) as [->|Hne].
          -- rewrite lookup_insert in Hj. injection Hj as <- <-.
             exists pr, (Z.of_nat (length v)), (w_word (a_w st) 0, w_fsize (a_w st)), None.
             split; [done|]. split; [destruct (exact_of md c); simpl; (done || lia)|].
             split; [|by rewrite lookup_insert].
             destruct md as [|]; simpl in Hmay.
             ++ destruct Hmay as [Ha Hne]. apply awp_call; [by eapply Hp|done|done|done].
             ++ destruct Hmay as (Ha & _ & Hix). apply awp_call; [by eapply Hp|done| |].
                ** intros Hexp. simpl. by rewrite bool_decide_eq_true_2.
                ** intros _ j Hj. apply Hix in Hj. rewrite w_word_rdm in Hj.
                   by rewrite (si_count _ _ _ _ HS) in Hj.
          -- rewrite lookup_insert_ne in Hj; [|done]. rewrite lookup_insert_ne; [|done].
             by apply Hr.
        * intros j1 c1 p1 j2 c2 p2 H1 H2 E1 E2. simpl in H1, H2.
          destruct md as [|]; simpl in Hmay; cycle 1.
          { destruct Hmay as (_ & Hone & _).
            destruct (decide (j1 = i)) as [->|N1], (decide (j2 = i)) as [->|N2]; [done| | |].
            - rewrite lookup_insert in H1. injection H1 as <- <-.
              rewrite lookup_insert_ne in H2; [|done]. by destruct (Hone E1 _ _ _ H2).
            - rewrite lookup_insert in H2. injection H2 as <- <-.
              rewrite lookup_insert_ne in H1; [|done]. by destruct (Hone E2 _ _ _ H1).
            - rewrite lookup_insert_ne in H1; [|done]. rewrite lookup_insert_ne in H2; [|done].
              eauto. }
          destruct Hmay as [_ Hne].
          destruct (decide (j1 = i)) as [->|N1], (decide (j2 = i)) as [->|N2]; [done| | |].
          -- rewrite lookup_insert in H1. injection H1 as <- <-. done.
          -- rewrite lookup_insert in H2. injection H2 as <- <-. done.
          -- rewrite lookup_insert_ne in H1; [|done]. rewrite lookup_insert_ne in H2; [|done].
             eauto.
        * intros j Hj. simpl in Hj. destruct (decide (j = i)) as [->|Hne].
          -- by rewrite lookup_insert in Hj.
          -- rewrite lookup_insert_ne in Hj; [|done]. rewrite lookup_insert_ne; [|done]. auto.
      + intros h' v2 H. apply lin_call; [auto|done].
    - (* an action *)
      destruct (Hr i c _ Hrun) as (pr' & lo & slo & cm & Hi' & HK & Hw & HP).
      rewrite Hi in Hi'. injection Hi' as <-.
      destruct (Hw (w_mem (a_w st)) (w_fsize (a_w st)) (w_lim (a_w st)) v _ HS HK)
        as (x & s' & Hx & Hm & v' & sz' & lo' & slo' & cm' & HS' & Hch & HK' & Hcm & Hw').
      change (aexec e (view (a_w st) pr) = Some (x, s')) in Hx. rewrite Hex in Hx.
      injection Hx as <- <-.
      assert (Hsz : w_word (leave (a_w st) i s) 0 = sz').
      { rewrite w_word_rdm. simpl. by destruct HS'. }
      exists v', (<[i := pend c cm']> P). split.
      + split.
        * simpl a_w. rewrite Hsz. done.
        * intros j q. simpl. destruct (decide (j = i)) as [->|Hne].
          -- rewrite lookup_insert. intros [= <-]. done.
          -- rewrite lookup_insert_ne; [|done]. apply Hp.
        * intros j c' p Hj. simpl in Hj. simpl a_w. rewrite Hsz. simpl w_fsize. simpl w_procs.
          destruct (decide (j = i)) as [->|Hne].
          -- rewrite lookup_insert in Hj. injection Hj as <- <-.
             exists (Proc (mapped s) (maxsz s) (epoch s)), lo', slo', cm'.
             rewrite !lookup_insert. done.
          -- rewrite lookup_insert_ne in Hj; [|done]. rewrite !lookup_insert_ne; [|done|done].
             destruct (Hr j c' p Hj) as (pr2 & lo2 & slo2 & cm2 & H1 & H2 & H3 & H4).
             exists pr2, lo2, slo2, cm2. split; [done|]. split; [|done].
             eapply knows_changes; [|done|done]. intros E1 E2. apply Hne.
             exact (Ho1 _ _ _ _ _ _ Hrun Hj E1 E2).
        * intros j1 c1 p1 j2 c2 p2 H1 H2 E1 E2. simpl in H1, H2.
          destruct (decide (j1 = i)) as [->|N1], (decide (j2 = i)) as [->|N2]; [done| | |].
          -- rewrite lookup_insert in H1. injection H1 as <- <-.
             rewrite lookup_insert_ne in H2; [|done]. eauto.
          -- rewrite lookup_insert in H2. injection H2 as <- <-.
             rewrite lookup_insert_ne in H1; [|done]. eauto.
          -- rewrite lookup_insert_ne in H1; [|done]. rewrite lookup_insert_ne in H2; [|done].
             eauto.
        * intros j Hj. simpl in Hj. destruct (decide (j = i)) as [->|Hne].
          -- by rewrite lookup_insert in Hj.
          -- rewrite lookup_insert_ne in Hj; [|done]. rewrite lookup_insert_ne; [|done]. auto.
      + intros h' v2 H. simpl. destruct Hcm as [[-> ->]|(r' & -> & -> & Hv)].
        * rewrite insert_id in H; done.
        * eapply lin_effect; [exact HP|exact Hv|exact H].
    - (* return *)
      destruct (Hr i c _ Hrun) as (pr' & lo & slo & cm & Hi' & HK & Hw & HP).
      exists v, (delete i P). split.
      + split; [done|done| | |].
        * intros j c' p Hj. simpl in Hj. apply lookup_delete_Some in Hj as [Hne Hj].
          rewrite lookup_delete_ne; [|done]. by apply Hr.
        * intros j1 c1 p1 j2 c2 p2 H1 H2. simpl in H1, H2. apply lookup_delete_Some in H1 as [_ H1].
          apply lookup_delete_Some in H2 as [_ H2]. eauto.
        * intros j Hj. simpl in Hj. apply lookup_delete_None in Hj as [<-|Hj].
          -- by rewrite lookup_delete.
          -- apply lookup_delete_None. auto.
      + intros h' v2 H. simpl. destruct Hw as [->|[-> Hv]].
        * by apply lin_return.
        * eapply lin_effect; [exact HP|eapply Hv; [exact HK|by eapply SI_range]|].
          apply lin_return; [by rewrite lookup_insert|]. by rewrite delete_insert_delete.
    - (* exception *)
      destruct (Hr i c _ Hrun) as (pr' & lo & slo & cm & Hi' & HK & Hw & HP).
      exists v, (delete i P). split.
      + split; [done|done| | |].
        * intros j c' p Hj. simpl in Hj. apply lookup_delete_Some in Hj as [Hne Hj].
          rewrite lookup_delete_ne; [|done]. by apply Hr.
        * intros j1 c1 p1 j2 c2 p2 H1 H2. simpl in H1, H2. apply lookup_delete_Some in H1 as [_ H1].
          apply lookup_delete_Some in H2 as [_ H2]. eauto.
        * intros j Hj. simpl in Hj. apply lookup_delete_None in Hj as [<-|Hj].
          -- by rewrite lookup_delete.
          -- apply lookup_delete_None. auto.
      + intros h' v2 H. simpl. destruct Hw as [->|[-> Hv]].
        * by apply lin_return.
        * eapply lin_effect; [exact HP|eapply Hv; [exact HK|by eapply SI_range]|].
          apply lin_return; [by rewrite lookup_insert|]. by rewrite delete_insert_delete.
    - (* death *)
      exists v, (delete i P). split.
      + split; [done| | | |].
        * intros j q. simpl. intros Hj. apply lookup_delete_Some in Hj as [Hne Hj]. by eapply Hp.
        * intros j c' p Hj. simpl in Hj. apply lookup_delete_Some in Hj as [Hne Hj].
          simpl a_w. simpl w_procs. rewrite !lookup_delete_ne; [|done|done].
          destruct (Hr j c' p Hj) as (pr2 & lo2 & slo2 & cm2 & H1 & H2 & H3 & H4).
          by exists pr2, lo2, slo2, cm2.
        * intros j1 c1 p1 j2 c2 p2 H1 H2. simpl in H1, H2. apply lookup_delete_Some in H1 as [_ H1].
          apply lookup_delete_Some in H2 as [_ H2]. eauto.
        * intros j Hj. simpl in Hj. apply lookup_delete_None in Hj as [<-|Hj].
          -- by rewrite lookup_delete.
          -- apply lookup_delete_None. auto.
      + intros h' v2 H. simpl. by apply lin_die.
    - (* a new process *)
      unfold open_by, pool_open in Ho. simpl in Ho. destruct HS as [].
      rewrite bool_decide_eq_false_2 in Ho; [|lia]. simpl in Ho. injection Ho as <-.
      exists v, P. split; [|done]. split; [done| | |done|done].
      + intros j q. simpl. destruct (decide (j = i)) as [->|Hne].
        * rewrite lookup_insert. intros [= <-]. simpl. lia.
        * rewrite lookup_insert_ne; [|done]. apply Hp.
      + intros j c' p Hj. simpl in Hj. simpl a_w. simpl w_procs.
        destruct (Hr j c' p Hj) as (pr2 & lo2 & slo2 & cm2 & H1 & H2 & H3 & H4).
        exists pr2, lo2, slo2, cm2. split; [|done].
        rewrite lookup_insert_ne; [done|]. intros ->. congruence.
  Qed.

  Lemma AInv_steps md st h st' v P :
    AInv md st v P -> asteps n F (may_of md) st h st' ->
    exists v' P', AInv md st' v' P' /\ linearizable (vobj n) P v h v'.
  Proof.
    intros HI Hst. revert v P HI. induction Hst as [|st h st1 h' st2 H1 H2 IH]; intros v P HI.
    - exists v, P. split; [done|]. constructor.
    - destruct (AInv_step _ _ _ _ _ _ HI H1) as (v1 & P1 & HI1 & Hl).
      destruct (IH _ _ HI1) as (v2 & P2 & HI2 & Hl2). exists v2, P2. split; [done|]. auto.
  Qed.

  Lemma AInv_fine md st v P : AInv md st v P -> ~ goes_wrong st.
  Proof.
    intros [HS Hp Hr Ho1 Hid] (i & pr & c & Hi & [H|[H|(e & k & H & Hx)]]).
    - destruct (Hr _ _ _ H) as (?&?&?&?&_&_&[]&_).
    - destruct (Hr _ _ _ H) as (?&?&?&?&_&_&[]&_).
    - destruct (Hr _ _ _ H) as (pr' & lo & slo & cm & Hi' & HK & Hw & HP).
      rewrite Hi in Hi'. injection Hi' as <-.
      destruct (Hw (w_mem (a_w st)) (w_fsize (a_w st)) (w_lim (a_w st)) v _ HS HK)
        as (x & s' & Hx' & _).
      change (aexec e (view (a_w st) pr) = Some (x, s')) in Hx'. congruence.
  Qed.

  Lemma AInv_init md W v :
    holds_vector n W v -> processes_ok W -> AInv md (AState W ∅) v ∅.
  Proof.
    intros HS Hp. apply holds_SI in HS. split; [done|done| | |done].
    - intros i c p. simpl. by rewrite lookup_empty.
    - intros i c p j c' p'. simpl. by rewrite lookup_empty.
  Qed.
  Lemma AInv_holds md st v P : AInv md st v P -> holds_vector n (a_w st) v.
  Proof. intros []. by apply holds_SI. Qed.
End proof.
