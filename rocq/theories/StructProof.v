(** * One operation on one object, for every kind of object. *)
From Verif Require Export StructSpec QueueProof PriorityQueueProof HashRest PrefixMain TreeNeat.
From iris.proofmode Require Import tactics.
From iris.prelude Require Import options.
Open Scope Z_scope.
Open Scope prog_scope.
Set Default Proof Using "All".

(** The limits describe the allocator. *)
Record limits_ok {RR : Rep} {PR : PoolRep} {al} (S : alloc_spec al) (lm : alloc_limits) : Prop := LimitsOk {
  lo_size : ∀ n, request_ok lm n → as_size_ok S n;
  lo_leaky : ∀ n, as_leaky S n → n <= leaky_upto lm;
  lo_max : max_request lm <= 2 ^ 61;
  lo_min : 0 <= min_request lm;
  lo_odd : odd_offsets lm = as_odd8 S }.

Lemma space_nonneg l : Forall (λ n, 0 <= n) l → 0 <= space l.
Proof. induction 1 as [|x l]; [done|]. change (space (x :: l)) with (room x + space l). unfold room. lia. Qed.

Lemma sum_sz_slot p : sum_sz (slot_blocks p) = slot_bytes (slot_abs p).
Proof.
  destruct p as [b ns]. unfold slot_blocks, slot_bytes, slot_abs, node_pairs. cbn [fst snd].
  induction ns as [|y ns IH]; [done|]. cbn [map concat foldr]. rewrite sum_sz_app IH.
  destruct b; unfold node_blocks, sum_sz; simpl; lia.
Qed.
Lemma h_rep_footprint hsh o t B : h_rep hsh o t B ⊢ ⌜sum_sz B = h_bytes t⌝.
Proof.
  iIntros "(%bits & %so & %P & %H & _)". iPureIntro. destruct H as (-> & _ & _ & _ & HB).
  rewrite (sum_sz_perm _ _ HB). unfold h_blocks, h_bytes. rewrite map_length.
  change (sum_sz (?a :: ?b :: ?l)) with (a.2 + (b.2 + sum_sz l)). cbn [snd].
  assert (sum_sz (concat (map slot_blocks P)) = foldr (λ s n, slot_bytes s + n) 0 (map slot_abs P)) as ->; [|lia].
  clear. induction P as [|p P IH]; [done|]. cbn [map concat foldr]. by rewrite sum_sz_app IH sum_sz_slot.
Qed.

Section hash_function.
Context {hash : HashFn}.

Definition vrep (o : Z) (v : value) (B : blocks) : hPropI :=
  match v with
  | VQueue l => q_rep o l B
  | VPrio l => pq_rep o l B
  | VBlob b => (⌜B = [(o, dlen b)]⌝ ∗ pts o b)%I
  | VHash t => h_rep hash o t B
  | VTree t ok => (⌜ok = true → neat t⌝ ∗ t_rep o t B)%I
  end.

Definition is_new (k : kind) (v : value) : Prop :=
  match k with
  | KQueue => v = VQueue []
  | KPrio => v = VPrio []
  | KBlob n => ∃ b, v = VBlob b ∧ dlen b = n
  | KHash bits => v = VHash (h_new bits)
  | KTree => v = VTree t_new true
  end.

Lemma vrep_base o v B : vrep o v B ⊢ ⌜∃ n, (o, n) ∈ B⌝.
Proof.
  destruct v as [l|l|b|t|t ok]; simpl.
  - iIntros "(%ns & [-> %HB] & _)". iPureIntro. exists 48. rewrite HB. by left.
  - iIntros "(%cap & %arr & %L & %G & %Hpure & Hq)". iPureIntro. exists 24.
    destruct Hpure as (_&_&_&_&_&->). by left.
  - iIntros "[-> _]". iPureIntro. exists (dlen b). by left.
  - iIntros "(%bits & %so & %P & %H & _)". iPureIntro. destruct H as (_&_&_&_&HB). exists 24. rewrite HB. by left.
  - iIntros "[_ R]". iDestruct (t_rep_base with "R") as %H. iPureIntro. by exists 2080.
Qed.
Lemma vrep_footprint o v B n : footprint v = Some n → vrep o v B ⊢ ⌜sum_sz B = n⌝.
Proof.
  destruct v as [l|l|b|t|t ok]; simpl; intros Hn; try done; simplify_eq.
  - rewrite q_rep_blocks. iIntros "[-> _]". done.
  - iIntros "[-> _]". iPureIntro. unfold sum_sz. simpl. lia.
  - apply h_rep_footprint.
  - iIntros "[_ R]". by iApply t_rep_bytes.
Qed.

Lemma pts_cut o b k n : 0 <= k ∧ 0 <= n ∧ k + n <= dlen b →
  (pts o b ⊣⊢ pts o (take (Z.to_nat k) b) ∗ pts (o + k) (take (Z.to_nat n) (drop (Z.to_nat k) b)) ∗
    pts (o + k + n) (drop (Z.to_nat k + Z.to_nat n) b)) ∧
  Z.of_nat (length (take (Z.to_nat n) (drop (Z.to_nat k) b))) = n.
Proof.
  unfold dlen. intros H.
  assert (Z.of_nat (length (take (Z.to_nat n) (drop (Z.to_nat k) b))) = n) as Hl.
  { rewrite take_length drop_length. lia. }
  split; [|done].
  rewrite -{1}(take_drop (Z.to_nat k) b) pts_app take_length.
  replace (o + Z.of_nat (Z.to_nat k `min` length b)) with (o + k) by lia.
  rewrite -{1}(take_drop (Z.to_nat n) (drop (Z.to_nat k) b)) pts_app Hl drop_drop. done.
Qed.

Section rep.
  Context {RR : Rep} {PR : PoolRep} {al : allocator} (S : alloc_spec al) (lm : alloc_limits) (HL : limits_ok S lm) (c : cfg).
  Context (F : nat) (HF : 2 ^ 62 <= Z.of_nat F).
  Notation ainv := (ainv S c).

  Definition leaks (l : list Z) : Prop := given_back lm l = false.
  Lemma leaks_in n l : n ∈ l → as_leaky S n → leaks l.
  Proof.
    intros Hin Hl. unfold leaks, given_back. apply not_true_iff_false. rewrite forallb_forall.
    intros H. pose proof (H n) as H'. rewrite -elem_of_list_In in H'. specialize (H' Hin).
    apply Z.ltb_lt in H'. pose proof (lo_leaky _ _ HL n Hl). lia.
  Qed.

  Lemma ext_id r P s : 0 <= r → ext c r P s s.
  Proof. intros Hr. eapply ext_weaken; [apply ext_refl|lia|done]. Qed.

  Lemma request1 n : Forall (request_ok lm) [n] → 0 <= n <= 2 ^ 61 ∧ as_size_ok S n ∧ space [n] = room n.
  Proof.
    intros Hn. inversion Hn as [|? ? Hr]; subst. split; [|split]; [|by apply (lo_size _ _ HL)|simpl; lia].
    pose proof (lo_max _ _ HL). pose proof (lo_min _ _ HL). unfold request_ok in Hr. lia.
  Qed.
  Lemma request_in n l : Forall (request_ok lm) l → n ∈ l → 0 <= n <= 2 ^ 61 ∧ as_size_ok S n.
  Proof.
    intros Hl Hin. rewrite Forall_forall in Hl. specialize (Hl _ Hin).
    pose proof (lo_max _ _ HL). pose proof (lo_min _ _ HL). split; [|by apply (lo_size _ _ HL)].
    unfold request_ok in Hl. lia.
  Qed.

  (** [J] are blocks that are lost when memory runs out. *)
  Lemma wp_create k Bf s Φ Ψ : sensible_kind lm k →
    ainv Bf s -∗
    ((∀ o v B' s', ⌜ext c (space (create_requests k)) False s s' ∧ 320 < o <= 2 ^ 62 ∧ is_new k v⌝ -∗
        ainv (B' ++ Bf) s' -∗ vrep o v B' -∗ Φ o) ∧
     (∀ s' J, ⌜¬ grow_allowed c (s_m s + space (create_requests k)) ∧ ext c (space (create_requests k)) False s s' ∧
          (creation_may_lose k = false → J = [])⌝ -∗
        ainv (J ++ Bf) s' -∗ raws J -∗ Ψ RuntimeError)) -∗
    wp (create_prog al k) Φ Ψ.
  Proof.
    iIntros ([Hk Hkk]) "H W".
    destruct k as [| |n|bits|]; simpl create_prog; simpl create_requests in *.
    1,2,3: destruct (request1 _ Hk) as (Hn0 & Hs & ->).
    - iApply (wp_q_create with "H"); [done|]. iSplit.
      + iIntros (o B' s' [Hext Ho]) "H R". iDestruct "W" as "[W _]".
        iApply ("W" $! o (VQueue []) with "[] H R"). iPureIntro. split; [done|]. split; [lia|done].
      + iIntros (Hg) "H". iDestruct "W" as "[_ W]". iApply ("W" $! _ [] with "[] H []"); [|by rewrite /raws]. iPureIntro.
        split; [done|]. split; [apply ext_id; unfold room; lia|done].
    - iApply (wp_pq_create with "H"); [done|]. iSplit.
      + iIntros (o B' s' [Hext Ho]) "H R". iDestruct "W" as "[W _]".
        iApply ("W" $! o (VPrio []) with "[] H R"). iPureIntro. split; [done|]. split; [lia|done].
      + iIntros (Hg) "H". iDestruct "W" as "[_ W]". iApply ("W" $! _ [] with "[] H []"); [|by rewrite /raws]. iPureIntro.
        split; [done|]. split; [apply ext_id; unfold room; lia|done].
    - iApply bind_ret_r. iApply (wp_allocate with "H"); [done|]. iSplit.
      + iIntros (o s' (Hext & Ho1 & _ & Ho2)) "H (%bs & %Hbs & R)". iApply wp_ret. iDestruct "W" as "[W _]".
        iApply ("W" $! o (VBlob bs) [(o, n)] with "[] H [R]").
        * iPureIntro. split; [done|]. split; [lia|exists bs; split; [done|unfold dlen; lia]].
        * simpl. iFrame. iPureIntro. unfold dlen. do 2 f_equal. lia.
      + iIntros (Hg) "H". iDestruct "W" as "[_ W]". iApply ("W" $! _ [] with "[] H []"); [|by rewrite /raws]. iPureIntro.
        split; [done|]. split; [apply ext_id; unfold room; lia|done].
    - destruct (request_in 24 _ Hk ltac:(by left)) as [_ H24].
      destruct (request_in (16 * 2 ^ bits) _ Hk ltac:(right; by left)) as [_ Hsz].
      assert (space [24; 16 * 2 ^ bits] = room 24 + room (16 * 2 ^ bits)) as -> by (unfold space; simpl; lia).
      iApply (wp_h_create S c hash F HF with "H"); [done|done|done|]. iSplit.
      + iIntros (o B' s' [Hext Ho]) "H R". iDestruct "W" as "[W _]".
        iApply ("W" $! o (VHash (h_new bits)) with "[] H R"). iPureIntro. split; [done|]. split; [lia|done].
      + iIntros (s' J [Hg Hext]) "H HJ". iDestruct "W" as "[_ W]". iApply ("W" with "[] H HJ"). done.
    - destruct (request1 _ Hk) as (Hn0 & Hs & ->). iApply (wp_t_create (ne:=0) with "H"); [done|done|]. iSplit.
      + iIntros (o s' [Hext Ho]) "[H T]". iDestruct "W" as "[W _]".
        iApply ("W" $! o (VTree t_new true) with "[] H [T]"); [|iSplit; [iPureIntro; intros _; apply neat_new|by iApply root_only_rep]]. iPureIntro. split; [done|]. split; [lia|done].
      + iIntros (Hg) "H". iDestruct "W" as "[_ W]". iApply ("W" $! _ [] with "[] H []"); [|by rewrite /raws]. iPureIntro.
        split; [done|]. split; [apply ext_id; unfold room; lia|done].
  Qed.

  (** Opening the base object. *)
  Lemma wp_open_base `{!BaseFree S} k p Bf s Φ Ψ : sensible_kind lm k → is_u64 (s_bo s) → open_base_prog al k = Some p →
    ainv Bf s -∗
    ((⌜s_bo s ≠ 0⌝ -∗ ainv Bf s -∗ Φ (s_bo s)) ∧
     (∀ o v B' s', ⌜s_bo s = 0 ∧ s_bo s' = o ∧
          ext c (space (create_requests k)) False s (Ast (s_K s') 0 (s_m s') (s_e s')) ∧
          320 < o <= 2 ^ 62 ∧ is_new k v⌝ -∗
        ainv (B' ++ Bf) s' -∗ vrep o v B' -∗ Φ o) ∧
     (∀ s' J, ⌜s_bo s = 0 ∧ ¬ grow_allowed c (s_m s + space (create_requests k)) ∧
          ext c (space (create_requests k)) False s s' ∧ (creation_may_lose k = false → J = [])⌝ -∗
        ainv (J ++ Bf) s' -∗ raws J -∗ Ψ RuntimeError)) -∗
    wp p Φ Ψ.
  Proof.
    iIntros ([Hk Hkk] Hbo Hp) "H W".
    destruct k as [| |n|bits|]; simpl open_base_prog in *; simplify_eq; simpl create_requests in *.
    1,2: destruct (request1 _ Hk) as (Hn0 & Hs & ->).
    - iApply (wp_q_open_base with "H"); [done|done|]. iSplit; [by iDestruct "W" as "[$ _]"|]. iSplit.
      + iIntros (o B' s' (Hb & Hb' & Hext & Ho)) "H R". iDestruct "W" as "[_ [W _]]".
        iApply ("W" $! o (VQueue []) with "[] H R"). iPureIntro. split_and!; try done; lia.
      + iIntros ([Hb Hg]) "H". iDestruct "W" as "[_ [_ W]]". iApply ("W" $! _ [] with "[] H []"); [|by rewrite /raws]. iPureIntro.
        split; [done|]. split; [done|]. split; [apply ext_id; unfold room; lia|done].
    - iApply (wp_pq_open_base with "H"); [done|done|]. iSplit; [by iDestruct "W" as "[$ _]"|]. iSplit.
      + iIntros (o B' s' (Hb & Hb' & Hext & Ho)) "H R". iDestruct "W" as "[_ [W _]]".
        iApply ("W" $! o (VPrio []) with "[] H R"). iPureIntro. split_and!; try done; lia.
      + iIntros ([Hb Hg]) "H". iDestruct "W" as "[_ [_ W]]". iApply ("W" $! _ [] with "[] H []"); [|by rewrite /raws]. iPureIntro.
        split; [done|]. split; [done|]. split; [apply ext_id; unfold room; lia|done].
    - destruct (request_in 24 _ Hk ltac:(by left)) as [_ H24].
      destruct (request_in (16 * 2 ^ bits) _ Hk ltac:(right; by left)) as [_ Hsz].
      assert (space [24; 16 * 2 ^ bits] = room 24 + room (16 * 2 ^ bits)) as -> by (unfold space; simpl; lia).
      iApply (wp_h_open_base S c hash F HF with "H"); [done|done|done|done|]. iSplit; [by iDestruct "W" as "[$ _]"|]. iSplit.
      + iIntros (o B' s' (Hb & Hb' & Hext & Ho)) "H R". iDestruct "W" as "[_ [W _]]".
        iApply ("W" $! o (VHash (h_new bits)) with "[] H R"). iPureIntro. split; [done|]. split; [done|]. split; [done|]. split; [lia|done].
      + iIntros (s' J (Hb & Hg & Hext)) "H HJ". iDestruct "W" as "[_ [_ W]]". iApply ("W" with "[] H HJ"). done.
    - destruct (request1 _ Hk) as (Hn0 & Hs & ->). iApply (wp_t_open_base (ne:=0) with "H"); [done|done|done|]. iSplit; [by iDestruct "W" as "[$ _]"|]. iSplit.
      + iIntros (o s' (Hb & Hb' & Hext & Ho)) "[H T]". iDestruct "W" as "[_ [W _]]".
        iApply ("W" $! o (VTree t_new true) with "[] H [T]"); [|iSplit; [iPureIntro; intros _; apply neat_new|by iApply root_only_rep]]. iPureIntro.
        split; [done|]. split; [done|]. split; [done|]. split; [lia|done].
      + iIntros ([Hb Hg]) "H". iDestruct "W" as "[_ [_ W]]". iApply ("W" $! _ [] with "[] H []"); [|by rewrite /raws]. iPureIntro.
        split; [done|]. split; [done|]. split; [apply ext_id; unfold room; lia|done].
  Qed.

  (** Any operation. *)
  Definition op_post o v x Bf s (Φ : result → hPropI) (Ψ : exn → hPropI) : hPropI :=
    ((∀ r v' B' s', ⌜ideal v x = Some (Return r v') ∧ ext c (space (requests v x)) (leaks (frees v x)) s s'⌝ -∗
        ainv (B' ++ Bf) s' -∗ vrep o v' B' -∗ Φ r) ∧
     (∀ e v' B' J s', ⌜(ideal v x = Some (Raise e) ∨
          (e = RuntimeError ∧ requests v x ≠ [] ∧ ¬ grow_allowed c (s_m s + space (requests v x)))) ∧
          left_by v x e v' ∧
          ext c (space (requests v x)) (may_lose lm v x e = true) s s' ∧ (may_lose lm v x e = false → J = [])⌝ -∗
        ainv (J ++ B' ++ Bf) s' -∗ vrep o v' B' -∗ raws J -∗ Ψ e))%I.
  (** Objects other than trees are unchanged by a failure. *)
  Definition plain_post o v x Bf s (Φ : result → hPropI) (Ψ : exn → hPropI) : hPropI :=
    ((∀ r v' B' s', ⌜ideal v x = Some (Return r v') ∧ ext c (space (requests v x)) (leaks (frees v x)) s s'⌝ -∗
        ainv (B' ++ Bf) s' -∗ vrep o v' B' -∗ Φ r) ∧
     (∀ e B' J s', ⌜(ideal v x = Some (Raise e) ∨
          (e = RuntimeError ∧ requests v x ≠ [] ∧ ¬ grow_allowed c (s_m s + space (requests v x)))) ∧
          ext c (space (requests v x)) False s s' ∧ (may_lose lm v x e = false → J = [])⌝ -∗
        ainv (J ++ B' ++ Bf) s' -∗ vrep o v B' -∗ raws J -∗ Ψ e))%I.
  Lemma op_post_plain o v x Bf s Φ Ψ : (∀ e, left_by v x e v) → op_post o v x Bf s Φ Ψ ⊢ plain_post o v x Bf s Φ Ψ.
  Proof.
    iIntros (H1) "W". iSplit; [by iDestruct "W" as "[W _]"|]. iDestruct "W" as "[_ W]".
    iIntros (e B' J s' (Ha & Hb & Hc)) "H R J". iApply ("W" with "[] H R J"). iPureIntro.
    split; [done|]. split; [done|]. split; [|done]. eapply ext_weaken; [exact Hb|done|done].
  Qed.

  Lemma wp_op_plain o v x B Bf s Φ Ψ : (∀ t ok, v ≠ VTree t ok) → ideal v x ≠ None → sensible lm v x →
    (needs_steady_pool v x = true → ¬ grow_allowed c (s_m s + 1)) →
    ainv (B ++ Bf) s -∗ vrep o v B -∗ plain_post o v x Bf s Φ Ψ -∗ wp (op_prog al F o x) Φ Ψ.
  Proof.
    iIntros (Hnt Hid (Ha & Hr & Hh) Hst) "H R W". unfold plain_post.
    destruct v as [l|l|b|t|t ok]; [| | | |by destruct (Hnt t ok)]; destruct x as [f d|f| | | |d| | | |k d|k n| |k w ck|k ck|k|k| | | |k dl|k fadd dl|y]; try done; simpl vrep;
      cbn [op_prog]; cbn [ideal requests frees args_ok handled needs_steady_pool] in *; iApply wp_bind.
    - inversion Hr as [|? ? Hr' _]; subst. pose proof (lo_max _ _ HL). unfold request_ok in Hr'.
      iApply (wp_q_push with "H R"); [done|unfold dlen in *; lia|by apply (lo_size _ _ HL)|].
      assert (space [16 + dlen d] = q_need d) as -> by (unfold space, q_need; simpl; lia). iSplit.
      + iIntros (B' s' Hext) "H R". iApply wp_ret. iDestruct "W" as "[W _]".
        iApply ("W" $! _ (VQueue _) with "[] H R"). iPureIntro. split; [done|]. by eapply ext_weaken.
      + iIntros (Hg) "H R". iDestruct "W" as "[_ W]". iApply ("W" $! _ _ [] with "[] H R []"); [|by rewrite /raws]. iPureIntro.
        split; [by right|]. split; [apply ext_id; unfold q_need, room, dlen; lia|done].
    - iApply (wp_q_pop with "H R"). iSplit.
      + iIntros (d l' B' s' [Hp Hext]) "H R". iApply wp_ret. iDestruct "W" as "[W _]". rewrite Hp.
        iApply ("W" $! _ (VQueue _) with "[] H R"). iPureIntro. split; [done|].
        eapply ext_weaken; [exact Hext|done|]. apply leaks_in. by left.
      + iIntros (Hp) "H R". iDestruct "W" as "[_ W]". rewrite Hp. iApply ("W" $! _ _ [] with "[] H R []"); [|by rewrite /raws]. iPureIntro.
        split; [by left|]. split; [by apply ext_id|done].
    - iApply (wp_q_size with "H R"). iIntros "H R". iApply wp_ret. iDestruct "W" as "[W _]".
      iApply ("W" $! _ (VQueue l) with "[] H R"). iPureIntro. split; [done|by apply ext_id].
    - iApply (wp_q_bytes with "H R"). iIntros "H R". iApply wp_ret. iDestruct "W" as "[W _]".
      iApply ("W" $! _ (VQueue l) with "[] H R"). iPureIntro. split; [done|by apply ext_id].
    - iApply (wp_q_verify with "H R"); [done|]. iIntros "H R". iApply wp_ret. iDestruct "W" as "[W _]".
      iApply ("W" $! _ (VQueue l) with "[] H R"). iPureIntro. split; [done|by apply ext_id].
    - set (rq := [256] ++ _) in *.
      assert (pq_need (length l) d <= space rq ∧ (∀ n, n = 256 ∨ n = 16 * Z.of_nat (length l) ∧ 0 < n → n ∈ rq) ∧ dlen d ∈ rq) as (Hsp & Hrq & Hrd).
      { unfold rq, pq_need. case_bool_decide as Hl; simpl.
        - subst l. simpl. unfold room, dlen. split; [lia|]. split; [|set_solver].
          intros n [->|[? ?]]; [set_solver|lia].
        - unfold room, dlen. split; [lia|]. split; [|set_solver]. intros n [->|[-> _]]; set_solver. }
      rewrite Forall_forall in Hr.
      iApply (wp_pq_push with "H R"); [done|by apply (lo_size _ _ HL), Hr| |].
      { intros n _ Hn. apply (lo_size _ _ HL), Hr, Hrq, Hn. }
      iSplit.
      + iIntros (B' s' Hext) "H R". iApply wp_ret. iDestruct "W" as "[W _]".
        iApply ("W" $! _ (VPrio _) with "[] H R"). iPureIntro. split; [done|]. by eapply ext_weaken.
      + iIntros (B' s' [Hg Hext]) "H R". iDestruct "W" as "[_ W]". iApply ("W" $! _ _ [] with "[] H R []"); [|by rewrite /raws]. iPureIntro.
        split; [|split; [by eapply ext_weaken|done]]. right. split; [done|]. split; [unfold rq; done|].
        intros Hg'. apply Hg. eapply grow_allowed_mono; [|exact Hg']. lia.
    - iApply (wp_pq_pop with "H R"). iSplit.
      + iIntros (d l' B' s' [Hp Hext]) "H R". iApply wp_ret. iDestruct "W" as "[W _]". rewrite Hp.
        iApply ("W" $! _ (VPrio _) with "[] H R"). iPureIntro. split; [done|].
        eapply ext_weaken; [exact Hext|done|]. apply leaks_in. by left.
      + iIntros (Hp) "H R". iDestruct "W" as "[_ W]". rewrite Hp. iApply ("W" $! _ _ [] with "[] H R []"); [|by rewrite /raws]. iPureIntro.
        split; [by left|]. split; [by apply ext_id|done].
    - iApply (wp_pq_clear with "H R"). iIntros (B' s' Hext) "H R". iApply wp_ret. iDestruct "W" as "[W _]".
      iApply ("W" $! _ (VPrio []) with "[] H R"). iPureIntro. split; [done|].
      eapply ext_weaken; [exact Hext|done|]. intros (d & Hd & Hl). eapply leaks_in; [|exact Hl].
      apply elem_of_list_fmap. by exists d.
    - iApply (wp_pq_size with "H R"). iIntros "H R". iApply wp_ret. iDestruct "W" as "[W _]".
      iApply ("W" $! _ (VPrio l) with "[] H R"). iPureIntro. split; [done|by apply ext_id].
    - case_bool_decide as Hk; [|done]. iDestruct "R" as "[-> R]".
      destruct (pts_cut o b k (dlen d)) as [-> Hlen]; [unfold dlen in *; lia|].
      iDestruct "R" as "(R1 & R2 & R3)".
      iApply bind_ret_r. iApply (wp_store_bytes_b _ (o + k + dlen d) with "[R2]"); [done|unfold dlen; lia| |].
      { iApply (pts_raw with "R2"). rewrite Hlen. lia. }
      iIntros "R2". iApply wp_ret. iApply wp_ret. iDestruct "W" as "[W _]".
      iApply ("W" $! _ (VBlob _) with "[] H").
      { iPureIntro. split; [done|]. by apply ext_id. }
      simpl. iSplit.
      { iPureIntro. do 2 f_equal. unfold dlen in *. rewrite !app_length take_length drop_length. lia. }
      rewrite !pts_app. iFrame "R1". rewrite take_length. 
      replace (o + Z.of_nat (Z.to_nat k `min` length b)) with (o + k) by (unfold dlen in *; lia). iFrame "R2".
      replace (Z.to_nat k + Z.to_nat (dlen d))%nat with (Z.to_nat k + length d)%nat by (unfold dlen; lia).
      unfold dlen. done.
    - case_bool_decide as Hk; [|done]. iDestruct "R" as "[-> R]".
      destruct (pts_cut o b k n) as [HP Hlen]; [lia|]. rewrite {1}HP.
      iDestruct "R" as "(R1 & R2 & R3)".
      iApply bind_ret_r. iApply (wp_load_bytes_b with "R2"); [lia|].
      iIntros "R2". iApply wp_ret. iApply wp_ret. iDestruct "W" as "[W _]".
      iApply ("W" $! _ (VBlob _) with "[] H").
      { iPureIntro. split; [done|]. by apply ext_id. }
      simpl. iSplit; [done|]. rewrite HP. iFrame.
    - iDestruct "R" as "[-> R]". iApply bind_ret_r. iApply (wp_block_size with "H"); [by left|].
      iIntros "H". iApply wp_ret. iApply wp_ret. iDestruct "W" as "[W _]".
      iApply ("W" $! _ (VBlob b) with "[] H [R]").
      { iPureIntro. split; [done|]. by apply ext_id. }
      simpl. by iFrame.
      - (* insert *)
      destruct Ha as [Hk Hv]. destruct (request_in (dlen k + dlen w) _ Hr ltac:(by left)) as [Hn Hs].
      destruct (request_in 24 _ Hr ltac:(right; by left)) as [_ H24].
      assert (space [dlen k + dlen w; 24; 24] = room (dlen k + dlen w) + room 24 + room 24) as -> by (unfold space; simpl; lia).
      iApply (wp_h_insert with "H R"); [done|done|done|done|lia|done|]. iSplit; [|iSplit].
      + iIntros (s' B' [Hc Hext]) "H R". iApply wp_ret. iDestruct "W" as "[W _]". rewrite Hc.
        iApply ("W" $! _ (VHash _) with "[] H R"). iPureIntro. split; [done|].
        eapply ext_weaken; [exact Hext|done|]. intros (w0 & Hw0 & Hl). rewrite Hw0. eapply leaks_in; [by left|exact Hl].
      + iIntros (Hc) "H R". iApply wp_ret. iDestruct "W" as "[W _]". rewrite Hc.
        iApply ("W" $! _ (VHash _) with "[] H R"). iPureIntro. split; [done|]. apply ext_id. unfold room; lia.
      + iIntros (s' J (Hc & Hext & Hg)) "H R HJ". iDestruct "W" as "[_ W]". iApply ("W" with "[] H R HJ"). iPureIntro.
        split; [by right|done].
    - (* erase *)
      rewrite (lo_odd _ _ HL) in Hh. iApply (wp_h_erase with "H R"); [done|done|]. iSplit.
      + iIntros (s' B' [Hc Hext]) "H R". iApply wp_ret. iDestruct "W" as "[W _]". rewrite Hc.
        iApply ("W" $! _ (VHash _) with "[] H R"). iPureIntro. split; [done|].
        eapply ext_weaken; [exact Hext|done|]. intros (w0 & Hw0 & Hl). rewrite Hw0. destruct Hl as [Hl|[-> Hl]].
        * eapply leaks_in; [|exact Hl]. by left.
        * eapply leaks_in; [|exact Hl]. right. by left.
      + iIntros (Hc) "H R". iApply wp_ret. iDestruct "W" as "[W _]". rewrite Hc.
        iApply ("W" $! _ (VHash _) with "[] H R"). iPureIntro. split; [done|]. by apply ext_id.
    - iApply (wp_h_exists with "H R"); [done|]. iIntros "H R". iApply wp_ret. iDestruct "W" as "[W _]".
      iApply ("W" $! _ (VHash t) with "[] H R"). iPureIntro. split; [done|by apply ext_id].
    - iApply (wp_h_at with "H R"); [done|]. iSplit.
      + iIntros (w Hw) "H R". iApply wp_ret. iDestruct "W" as "[W _]". rewrite Hw.
        iApply ("W" $! _ (VHash t) with "[] H R"). iPureIntro. split; [done|by apply ext_id].
      + iIntros (Hw) "H R". iDestruct "W" as "[_ W]". rewrite Hw.
        iApply ("W" $! _ _ [] with "[] H R []"); [|by rewrite /raws]. iPureIntro.
        split; [by left|]. split; [by apply ext_id|done].
    - iApply (wp_h_size with "R"). iIntros "R". iApply wp_ret. iDestruct "W" as "[W _]".
      iApply ("W" $! _ (VHash t) with "[] H R"). iPureIntro. split; [done|by apply ext_id].
    - iApply (wp_h_clear with "H R"); [done|]. iIntros (B' s' Hext) "H R". iApply wp_ret. iDestruct "W" as "[W _]".
      iApply ("W" $! _ (VHash _) with "[] H R"). iPureIntro. split; [done|].
      eapply ext_weaken; [exact Hext|done|]. intros (n & Hn & Hl). by eapply leaks_in.
    - iApply (wp_h_iterate with "H R"); [done|]. iIntros "H R". iApply wp_ret. iDestruct "W" as "[W _]".
      iApply ("W" $! _ (VHash t) with "[] H R"). iPureIntro. split; [done|by apply ext_id].
    - (* incr *)
      assert (h_get hash t k = None → as_size_ok S (dlen k + 8) ∧ dlen k + 8 <= 2 ^ 61 ∧ as_size_ok S 24 ∧ ¬ grow_allowed c (s_m s + 1)) as Habs.
      { intros Hnone. rewrite Hnone in Hr. destruct (request_in (dlen k + 8) _ Hr ltac:(by left)) as [Hn Hs].
        destruct (request_in 24 _ Hr ltac:(right; by left)) as [_ H24].
        split; [done|]. split; [lia|]. split; [done|]. apply Hst. by rewrite bool_decide_eq_true_2. }
      set (rq := match h_get hash t k with Some _ => [] | None => _ end).
      assert (space rq = match h_get hash t k with Some _ => 0 | None => room (dlen k + 8) + room 24 + room 24 end) as ->.
      { unfold rq. destruct (h_get hash t k); [done|]. unfold space; simpl; lia. }
      unfold h_incr_int. iApply wp_bind.
      iApply (wp_h_incr with "H R"); [done|done|apply le_bytes_ok|apply le_bytes_length| |done| |].
      { intros n f d Hf Hd. unfold int_add in Hf. case_bool_decide; simplify_eq.
        split; [apply le_bytes_ok|]. unfold dlen. rewrite le_bytes_length. lia. }
      { exact Habs. }
      change (int_add dl) with (add_int dl). iSplit; [|iSplit].
      + iIntros (s' B' d [Hd Hext]) "H R". iApply wp_ret. iApply wp_ret. iDestruct "W" as "[W _]". rewrite Hd.
        iApply ("W" $! _ (VHash _) with "[] H R"). iPureIntro. split; [done|]. by eapply ext_weaken.
      + iIntros (Hd) "H R". iDestruct "W" as "[_ W]". rewrite Hd.
        iApply ("W" $! _ _ [] with "[] H R []"); [|by rewrite /raws]. iPureIntro.
        split; [by left|]. split; [apply ext_id; destruct (h_get hash t k); unfold room, dlen; lia|done].
      + iIntros (s' J (Hc & Hext & Hg)) "H R HJ". iDestruct "W" as "[_ W]". iApply ("W" with "[] H R HJ"). iPureIntro.
        unfold rq. rewrite Hc. split; [by right|done].
    - (* incr of a float *)
      destruct Ha as (Hk & Hd8 & Hdl).
      assert (h_get hash t k = None → as_size_ok S (dlen k + 8) ∧ dlen k + 8 <= 2 ^ 61 ∧ as_size_ok S 24 ∧ ¬ grow_allowed c (s_m s + 1)) as Habs.
      { intros Hnone. rewrite Hnone in Hr. destruct (request_in (dlen k + 8) _ Hr ltac:(by left)) as [Hn Hs].
        destruct (request_in 24 _ Hr ltac:(right; by left)) as [_ H24].
        split; [done|]. split; [lia|]. split; [done|]. apply Hst. by rewrite bool_decide_eq_true_2. }
      set (rq := match h_get hash t k with Some _ => [] | None => _ end).
      assert (space rq = match h_get hash t k with Some _ => 0 | None => room (dlen k + 8) + room 24 + room 24 end) as ->.
      { unfold rq. destruct (h_get hash t k); [done|]. unfold space; simpl; lia. }
      unfold h_incr_float.
      iApply (wp_h_incr with "H R"); [done|done|done|done| |done| |].
      { intros n f d Hf Hd. unfold float_add in Hf. case_bool_decide; simplify_eq.
        split; [apply le_bytes_ok|]. unfold dlen. rewrite le_bytes_length. lia. }
      { exact Habs. }
      change (float_add fadd dl) with (add_float fadd dl). iSplit; [|iSplit].
      + iIntros (s' B' d [Hd Hext]) "H R". iApply wp_ret. iDestruct "W" as "[W _]". rewrite Hd.
        iApply ("W" $! _ (VHash _) with "[] H R"). iPureIntro. split; [done|]. by eapply ext_weaken.
      + iIntros (Hd) "H R". iDestruct "W" as "[_ W]". rewrite Hd.
        iApply ("W" $! _ _ [] with "[] H R []"); [|by rewrite /raws]. iPureIntro.
        split; [by left|]. split; [apply ext_id; destruct (h_get hash t k); unfold room, dlen; lia|done].
      + iIntros (s' J (Hc & Hext & Hg)) "H R HJ". iDestruct "W" as "[_ W]". iApply ("W" with "[] H R HJ"). iPureIntro.
        unfold rq. rewrite Hc. split; [by right|done].
  Qed.

  Lemma wp_op_tree o t ok y B Bf s Φ Ψ : sensible lm (VTree t ok) (OTree y) →
    ainv (B ++ Bf) s -∗ vrep o (VTree t ok) B -∗ op_post o (VTree t ok) (OTree y) Bf s Φ Ψ -∗ wp (op_prog al F o (OTree y)) Φ Ψ.
  Proof.
    iIntros ((Ha & Hr & Hh)) "H [%Hok R] W". iDestruct (t_rep_wf with "R") as %Hwf. cbn [op_prog vrep]. iApply wp_bind.
    assert (lk S (frees (VTree t ok) (OTree y)) → leaks (frees (VTree t ok) (OTree y))) as Hlk.
    { intros (n & Hn & Hl). by eapply leaks_in. }
    iApply (wp_tree S c F HF with "H R"); [exact Ha| |exact Hh|].
    { eapply Forall_impl; [exact Hr|]. apply (lo_size _ _ HL). }
    iSplit.
    - iIntros (r t' B' s' [Hi Hext]) "H R". iApply wp_ret. iDestruct "W" as "[W _]".
      iApply ("W" $! _ (VTree t' ok) with "[] H [R]"); [|iSplit; [iPureIntro; intros E; eapply neat_kept; [exact Hwf|by apply Hok|exact Hi]|done]]. iPureIntro. cbn [ideal]. rewrite Hi. split; [done|].
      eapply ext_weaken; [exact Hext|done|exact Hlk].
    - iIntros (e t' B' s' (Hi & Hleft & Hext)) "H R". iDestruct "W" as "[_ W]".
      iApply ("W" $! _ (VTree t' (ok && negb (bool_decide (e = RuntimeError)))) B' [] with "[] H [R] []"); [| |by rewrite /raws].
      2:{ iFrame "R". iPureIntro. intros [E1 E2]%andb_true_iff. destruct (bool_decide_reflect (e = RuntimeError)) as [|Hne]; [done|].
        rewrite (t_left_same t y e t' Hne Hleft). by apply Hok. }
      iPureIntro. cbn [ideal]. split; [|split; [|split]].
      + destruct Hi as [Hi|Hi]; [left; by rewrite Hi|by right].
      + exists t'. done.
      + eapply ext_weaken; [exact Hext|done|]. intros [-> Hl]. cbn [may_lose]. rewrite (Hlk Hl). done.
      + done.
  Qed.

  Lemma wp_op o v x B Bf s Φ Ψ : ideal v x ≠ None → sensible lm v x →
    (needs_steady_pool v x = true → ¬ grow_allowed c (s_m s + 1)) →
    ainv (B ++ Bf) s -∗ vrep o v B -∗ op_post o v x Bf s Φ Ψ -∗ wp (op_prog al F o x) Φ Ψ.
  Proof.
    iIntros (Hid Hs Hst) "H R W". destruct ((ltac:(destruct v as [| | | |t ok]; [right; by intros (? & ? & ?)..|left; eauto]) : (∃ t ok, v = VTree t ok) ∨ ¬ (∃ t ok, v = VTree t ok))) as [(t & ok & ->)|Hnt].
    - destruct x as [| | | | | | | | | | | | | | | | | | | | |y]; try done. by iApply (wp_op_tree with "H R W").
    - iApply (wp_op_plain with "H R"); [|done|done|done|].
      + intros t ok ->. apply Hnt. eauto.
      + iApply (op_post_plain with "W"). intros e. destruct v as [| | | |t ok]; [done..|]. destruct Hnt. eauto.
  Qed.

  (** Freeing a raw block. *)
  Lemma wp_free_blob o b B Bf s Φ Ψ :
    ainv (B ++ Bf) s -∗ vrep o (VBlob b) B -∗
    (∀ s', ⌜ext c 0 (leaks [dlen b]) s s'⌝ -∗ ainv Bf s' -∗ Φ tt) -∗ wp (al_free al o) Φ Ψ.
  Proof.
    iIntros "H [-> R] W". iApply bind_ret_r. iApply (wp_free with "H [R]").
    { iApply (pts_raw with "R"). unfold dlen. lia. }
    iIntros (s' Hext) "H". iApply wp_ret. iApply ("W" with "[] H"). iPureIntro.
    eapply ext_weaken; [exact Hext|done|]. apply leaks_in. by left.
  Qed.
End rep.
End hash_function.
