(** * PrefixTree over a SimpleAllocator: what a crash leaves.  Making nodes. *)
From Verif Require Export PrefixCrash.
From iris.proofmode Require Import tactics.
From iris.prelude Require Import options.
Open Scope Z_scope.
Open Scope prog_scope.

Local Arguments Z.pow : simpl never.
Local Arguments Z.mul : simpl never.
Local Arguments Z.add : simpl never.
Local Arguments u64 : simpl never.

(** ** Programs that do not write *)
Lemma q_catch {A} (p : prog A) h : quiet p → (∀ e, quiet (h e)) → quiet (catch p h).
Proof. intros Hp Hh. induction Hp; cbn [catch]; try by constructor. apply Hh. Qed.
Lemma q_if {A} (b : bool) (p q : prog A) : quiet p → quiet q → quiet (if b then p else q).
Proof. by destruct b. Qed.
Ltac qt_step :=
  match goal with
  | H : quiet ?p |- quiet ?p => exact H
  | H : _ |- quiet _ => solve [apply H]
  | |- quiet (bind _ _) => apply q_bind; [|intros ?]
  | |- quiet (load _ _) => apply q_load
  | |- quiet (load64 _) => apply q_load
  | |- quiet (load8 _) => apply q_load
  | |- quiet (load_bytes _ _) => apply q_load_bytes
  | |- quiet (Ret _) => constructor
  | |- quiet (Throw _) => constructor
  | |- quiet Undef => constructor
  | |- quiet NoFuel => constructor
  | |- quiet (Op _ _) => constructor; [done|intros ?]
  | |- quiet (if ?b then _ else _) => destruct b
  | |- quiet (match ?x with _ => _ end) => destruct x
  | |- quiet (let '(_, _) := ?x in _) => destruct x
  end.
Ltac qt := repeat qt_step.
Lemma q_t_walk parent node nodes k : quiet (t_walk parent node nodes k).
Proof. revert parent node nodes. induction k as [|c k IH]; intros parent node nodes; cbn [t_walk]; qt. Qed.
Lemma q_t_find base k : quiet (t_find base k).
Proof. unfold t_find, t_traverse. apply q_bind; [apply q_t_walk|]. intros []; qt. Qed.
Section quiet.
  Context (al : allocator) (Hal : ∀ o, quiet (al_block_size al o)) (F : nat).
  Set Default Proof Using "All".
  Lemma q_t_lookup c : quiet (t_lookup al c).
  Proof. unfold t_lookup. qt. Qed.
  Lemma q_t_allowed base c : quiet (t_allowed al base c).
  Proof.
    destruct c as [c|]; [|constructor]. unfold t_allowed, t_check. apply q_bind; [apply q_t_find|]. intros slot.
    apply q_if; [qt|]. apply q_bind; [qt|]. intros x. apply q_if; [qt|]. apply q_bind; [apply q_t_lookup|]. intros. qt.
  Qed.
  Lemma q_t_descend node nodes k : quiet (t_descend node nodes k).
  Proof. revert node nodes. induction k as [|c k IH]; intros node nodes; cbn [t_descend]; qt. Qed.
  Lemma q_t_scan G slot_id nodes : quiet (t_scan G slot_id nodes).
  Proof. revert slot_id nodes. induction G as [|G IH]; intros slot_id nodes; cbn [t_scan]; qt. Qed.
  Lemma q_t_key_of nodes : quiet (t_key_of nodes).
  Proof. induction nodes as [|n nodes IH]; cbn [t_key_of]; qt. Qed.
  Lemma q_t_next base cur : quiet (t_next_key_value al F base cur).
  Proof.
    unfold t_next_key_value. apply q_bind; [qt|]. intros v. apply q_if; [apply q_bind; [apply q_t_lookup|intros; qt]|].
    apply q_bind; [destruct cur; [apply q_t_descend|qt]|]. intros [slot_id nodes].
    apply q_bind; [apply q_t_scan|]. intros [[c s] ns]. apply q_if; [qt|].
    apply q_bind; [apply q_t_key_of|]. intros. apply q_bind; [apply q_t_lookup|intros; qt].
  Qed.
  Lemma q_t_iterate base G cur : quiet (t_iterate_from al F G base cur).
  Proof.
    revert cur. induction G as [|G IH]; intros cur; cbn [t_iterate_from]; [constructor|].
    apply q_bind.
    - apply q_catch; [apply q_bind; [apply q_t_next|intros; qt]|]. intros e. apply q_if; constructor.
    - intros [[k v]|]; [|constructor]. apply q_bind; [apply IH|]. intros. constructor.
  Qed.
  Lemma q_t_or_end {A} (p : prog A) : quiet p → quiet (t_or_end p).
  Proof using. intros H. apply q_catch; [apply q_bind; [exact H|intros; constructor]|]. intros e. apply q_if; constructor. Qed.
  Lemma q_t_walk_slot parent node last k : quiet (t_walk_slot parent node last k).
  Proof using. revert parent node last. induction k as [|c k IH]; intros parent node last; cbn [t_walk_slot]; qt. Qed.
  Lemma q_t_sum_slots f n a ret : (∀ x, quiet (f x)) → quiet (t_sum_slots f n a ret).
  Proof using. intros H. revert a ret. induction n as [|n IH]; intros a ret; cbn [t_sum_slots]; qt. Qed.
  Lemma q_t_nodes_below G c : quiet (t_nodes_below G c).
  Proof using. revert c. induction G as [|G IH]; intros c; cbn [t_nodes_below]; qt; by apply q_t_sum_slots. Qed.
  Lemma q_t_bytes_below G c : quiet (t_bytes_below al G c).
  Proof. revert c. induction G as [|G IH]; intros c; cbn [t_bytes_below]; qt; by apply q_t_sum_slots. Qed.
End quiet.
Lemma q_sa_block_size o : quiet (sa_block_size o).
Proof. unfold sa_block_size. qt. Qed.
Lemma q_any_child n a : quiet (t_any_child n a).
Proof. revert a. induction n as [|n IH]; intros a; cbn [t_any_child]; qt. Qed.

(** ** Programs that write to one block *)
Lemma si_zero x y n : ∀ a, x <= a → a + 8 * Z.of_nat n <= y → stores_in x y (t_zero n a).
Proof.
  induction n as [|n IH]; intros a H1 H2; cbn [t_zero]; [constructor|].
  apply si_bind; [apply si_store1; lia|]. intros _. apply IH; lia.
Qed.
Lemma si_copy x y n : ∀ f a, x <= a → a + 8 * Z.of_nat n <= y → stores_in x y (t_copy n f a).
Proof.
  induction n as [|n IH]; intros f a H1 H2; cbn [t_copy]; [constructor|].
  apply si_bind; [apply si_quiet, q_load|]. intros v.
  apply si_bind; [apply si_store1; lia|]. intros _. apply IH; lia.
Qed.
Lemma si_init_node x y o s e ps v : x <= o → o + 16 <= y → stores_in x y (t_init_node o s e ps v).
Proof.
  intros H1 H2. unfold t_init_node. repeat (apply si_bind; [|intros _]); apply si_store1; simpl; lia.
Qed.
Local Opaque t_init_node.

(** Two programs that do the same. *)
Definition peq {A} (p q : prog A) : Prop :=
  ∀ s, run p s = run q s ∧ ∀ s', crash_state p s s' ↔ crash_state q s s'.
Lemma peq_refl {A} (p : prog A) : peq p p.
Proof. by intros s. Qed.
Lemma peq_sym {A} (p q : prog A) : peq p q → peq q p.
Proof. intros H s. destruct (H s) as [H1 H2]. split; [by symmetry|]. intros s'. by rewrite H2. Qed.
Lemma peq_trans {A} (p q r : prog A) : peq p q → peq q r → peq p r.
Proof. intros H1 H2 s. destruct (H1 s) as [Ha Hb], (H2 s) as [Hc Hd]. split; [congruence|]. intros s'. by rewrite Hb. Qed.
Lemma peq_op {A} e (f g : _ → prog A) : (∀ v, peq (f v) (g v)) → peq (Op e f) (Op e g).
Proof.
  intros H s. split.
  - cbn [run]. destruct (exec e s) as [[v s1]|]; [|done]. apply H.
  - intros s'. cbn [crash_state]. destruct (exec e s) as [[v s1]|]; [|done]. by rewrite (proj2 (H v s1) s').
Qed.
Lemma peq_bind {A B} (p : prog A) (f g : A → prog B) : (∀ x, peq (f x) (g x)) → peq (bind p f) (bind p g).
Proof.
  intros H. induction p as [| | | |e k IH]; [apply H|apply peq_refl|apply peq_refl|apply peq_refl|].
  exact (peq_op e (λ v, bind (k v) f) (λ v, bind (k v) g) IH).
Qed.
Lemma peq_assoc {A B D} (p : prog A) (q : A → prog B) (r : B → prog D) : peq (bind (bind p q) r) (bind p (λ x, bind (q x) r)).
Proof.
  induction p as [| | | |e k IH]; [apply peq_refl|apply peq_refl|apply peq_refl|apply peq_refl|].
  exact (peq_op e (λ v, bind (bind (k v) q) r) (λ v, bind (k v) (λ x, bind (q x) r)) IH).
Qed.
Lemma wpc_peq {A} (p q : prog A) C Φ Ψ : peq p q → wpc C p Φ Ψ ⊢ wpc C q Φ Ψ.
Proof.
  intros HE. apply hp_entails. intros h. rewrite !hp_wpc. intros H hf s Hd Hr.
  destruct (H hf s Hd Hr) as [Ho Hc]. destruct (HE s) as [H1 H2]. split; [by rewrite -H1|]. intros s' ?. apply Hc. by apply H2.
Qed.
Ltac peqt :=
  repeat first
    [ apply peq_refl
    | match goal with
      | |- peq (bind (bind _ _) _) _ => eapply peq_trans; [apply peq_assoc|]
      | |- peq _ (bind (bind _ _) _) => apply peq_sym; eapply peq_trans; [apply peq_assoc|]; apply peq_sym
      | |- peq (bind (Ret ?a) ?k) _ => change (bind (Ret a) k) with (k a); cbv beta iota
      | |- peq _ (bind (Ret ?a) ?k) => change (bind (Ret a) k) with (k a); cbv beta iota
      | |- peq (bind ?p _) (bind ?p _) => apply peq_bind; intros ?
      end ].

Section make.
  Context (F : nat) (HF : 2 ^ 62 <= Z.of_nat F) (cf : cfg) (b : Z) (R : blocks) (bo : Z).
  Context (good : gmap bytes pval → Prop).
  Notation al := (simple_allocator F).
  Notation S := (simple_spec F HF).
  Notation ainv := (ainv S cf).
  Notation tl := (PrefixCrash.tl b).
  Notation ex := (ex F HF cf b R bo).
  Notation st := (ex None None).
  Notation TC := (TC cf b R bo good).

  (** A new node is filled and then linked; [X] is its range and offset. *)
  Lemma crash_new_node {A : Type} (M : vlmap) (N : ndmap) (p : bytes) (c : Z) (rp : Z * Z) (po : Z) (X : Z * Z) (W : Z → prog unit) (K K0 : Z → prog A) :
    (∀ new, crash TC (W new ;; s <- load8 po ;; store64 (po + 16 + 8 * (c - s)) new ;; K new) ⊢ crash TC (K0 new)) →
    good (vls M) → N !! p = Some (rp, po) → in_range rp c → 0 <= X.1 ∧ X.1 <= X.2 ∧ X.2 <= 255 →
    (∀ d r0 o0, N !! (p ++ [c]) = Some (r0, o0) → in_range r0 d → in_range X d) →
    (∀ new, stores_in new (new + node_bytes X) (W new)) →
    (∀ new Φ, 0 < new → raw new (new + node_bytes X) -∗ tnodes M N -∗
       (tnodes M N -∗ node_at M (<[p ++ [c] := (X, new)]> N) (p ++ [c]) (X, new) -∗ Φ tt) -∗ wp (W new) Φ (λ _, True)) →
    st M N -∗
    (∀ new, ⌜N !! (p ++ [c]) = None⌝ -∗ st M (<[p ++ [c] := (X, new)]> N) -∗ crash TC (K new)) -∗
    (∀ (new : Z) (r0 : Z * Z) (o0 : Z) (s : ast), ⌜N !! (p ++ [c]) = Some (r0, o0) ∧ s_bo s = bo⌝ -∗
       ainv ((o0, node_bytes r0) :: tblocks b M (<[p ++ [c] := (X, new)]> N) ++ R) s -∗ raw o0 (o0 + node_bytes r0) -∗
       tl M (<[p ++ [c] := (X, new)]> N) -∗ crash TC (K new)) -∗
    crash TC (new <- al_allocate al (node_bytes X) ;; K0 new).
  Proof using.
    intros HK0 HG Hp Hc HX Hsub HW1 HW2. iIntros "(%s & (%Hbo & _) & H & _ & _ & T) W1". iIntros "W2". cbn [yblk app].
    assert (0 <= node_bytes X <= 2 ^ 62) as HnX by (unfold node_bytes; lia).
    iApply (crash_allocate F HF cf TC (tl M N) with "H T"); [done|rewrite Hbo; by apply TC_intro|].
    iIntros (new s' (Ho1 & Ho2 & Ho3 & Hs')) "H Rw T". rewrite Hbo in Hs'.
    assert (ainv ((new, node_bytes X) :: tblocks b M N ++ R) s' ∗ tl M N ∗ raw new (new + node_bytes X) ⊢ TC) as HC.
    { iIntros "(H & T & Rw)". iApply (TC_intro cf b R bo good M N HG). iSplitR "T"; [|done]. rewrite -Hs'. iApply acr_leak. iApply (ainv_acr F HF cf with "H"). }
    iApply HK0. iApply (crash_local TC (ainv ((new, node_bytes X) :: tblocks b M N ++ R) s' ∗ tl M N) new (new + node_bytes X) with "[H T Rw]").
    - apply HW1.
    - rewrite -HC. iIntros "[[H T] Rw]". iSplitL "H"; [done|]. iSplitL "T"; done.
    - iSplitR "Rw"; [|done]. iSplitL "H"; done.
    - iIntros "[[H (%HT & C1 & C2 & T & V)] Rw]". iApply (HW2 with "Rw T"); [lia|]. iIntros "T X".
      set (k := p ++ [c]) in *. set (N' := <[k := (X, new)]> N) in *.
      assert (tok b M N') as HT'.
      { apply (tok_set b M N p c rp po); try done. split; [done|]. unfold node_bytes in Ho3. lia. }
      assert (∀ w, word (po + 16 + 8 * (c - rp.1)) w -∗ (word (po + 16 + 8 * (c - rp.1)) w -∗ tnodes M N) -∗
          node_at M N' k (X, new) -∗ ainv ((new, node_bytes X) :: tblocks b M N ++ R) s' -∗ (∃ w, word b w) -∗ (∃ w, word (b + 8) w) -∗ tvals M -∗ TC) as HC2.
      { iIntros (w) "Wd T X H C1 C2 V". iApply HC. iSplitL "H"; [done|]. iSplitR "X".
        - iSplit; [done|]. iFrame "C1 C2 V". by iApply "T".
        - iApply (node_raw with "X"). lia. }
      iApply (crash_load8 TC (tnodes M N ∗ node_at M N' k (X, new) ∗ ainv ((new, node_bytes X) :: tblocks b M N ++ R) s' ∗ (∃ w, word b w) ∗ (∃ w, word (b + 8) w) ∗ tvals M)%I with "[H T X C1 C2 V]").
      + iIntros "(T & X & H & C1 & C2 & V)". iDestruct (slot_read M N p _ _ _ Hp Hc with "T") as "[Wd T]".
        iApply (HC2 with "Wd T X H C1 C2 V").
      + iIntros "(T & _)". iDestruct (node_acc M N p _ Hp with "T") as "[($ & _) _]".
      + iFrame "T X H C1 C2 V".
      + iIntros "(T & X & H & C1 & C2 & V)".
        iDestruct (parent_acc _ _ _ _ _ _ Hp Hc with "T") as "(Hold & Wc & T)". fold k.
        iApply crash_store64; [unfold is_u64; lia|]. iExists _. iFrame "Wc". iSplit.
        * iIntros "Wc". iApply (HC2 with "Wc [T Hold] X H C1 C2 V"). iIntros "Wc".
          assert (∃ X0 : option nd, X0 = N !! k) as [X0 HX0] by (by eexists). rewrite -HX0. iSpecialize ("T" $! X0).
          assert (partial_alter (λ _ : option nd, X0) k N = N) as HE by (apply partial_alter_self_alt; done).
          rewrite HE. iApply ("T" with "Wc Hold").
        * iIntros "Wc". iSpecialize ("T" $! (Some (X, new))).
          change (partial_alter (λ _ : option nd, Some (X, new)) k N) with N'.
          assert (sword M N' k = new) as Hsq by (unfold sword, N'; by rewrite lookup_insert).
          iSpecialize ("T" with "[Wc] X"); [by rewrite Hsq|].
          assert (k ≠ []) as Hk0 by (unfold k; by destruct p).
          destruct (N !! k) as [[r0 o0]|] eqn:E.
          -- iApply ("W2" $! new r0 o0 s' with "[//] [H] [Hold]").
             ++ iApply (ainv_perm with "H"). unfold N'. rewrite -(insert_delete_insert N).
                rewrite (tblocks_ins b M (delete k N) k _ Hk0); [|apply lookup_delete].
                rewrite (tblocks_del b M N k _ Hk0 E). cbn [fst snd app]. apply perm_swap.
             ++ iApply (node_raw with "Hold"). by destruct (tok_rng _ _ _ _ _ _ HT E) as (_ & ? & _).
             ++ iSplit; [done|]. iFrame "C1 C2 T V".
          -- iApply ("W1" $! new with "[//]"). iExists s'. iSplit; [done|]. iSplitL "H".
             { iApply (ainv_perm with "H"). unfold N'. cbn [yblk app]. by rewrite (tblocks_ins b M N k _ Hk0). }
             iSplit; [done|]. iSplit; [done|]. iSplit; [done|]. iFrame "C1 C2 T V".
  Qed.

  Definition fill (c s e no s' e' ps v new : Z) : prog unit :=
    t_init_node new s' e' ps v ;;
    (if bool_decide (c < s)
     then t_zero (Z.to_nat (s - s')) (new + 16) ;;
          t_copy (Z.to_nat (e - s + 1)) (no + 16) (new + 16 + 8 * (s - s'))
     else t_copy (Z.to_nat (e - s + 1)) (no + 16) (new + 16) ;;
          t_zero (Z.to_nat (e' - e)) (new + 16 + 8 * (e - s + 1))).
  Lemma wp_fill (M : vlmap) (N : ndmap) (q : bytes) (r : Z * Z) (no c s' e' : Z) (new : Z) Φ :
    tok b M N → N !! q = Some (r, no) → is_byte c → (c < r.1 ∧ s' = c ∧ e' = r.2 ∨ c > r.2 ∧ s' = r.1 ∧ e' = c) →
    raw new (new + node_bytes (s', e')) -∗ tnodes M N -∗
    (tnodes M N -∗ node_at M (<[q := ((s', e'), new)]> N) q ((s', e'), new) -∗ Φ tt) -∗
    wp (fill c r.1 r.2 no s' e' (lastc q) (vword M q) new) Φ (λ _, True).
  Proof using. clear F HF.
    intros HT Hq Hc Hcase. iIntros "R T W". destruct (tok_rng _ _ _ _ _ _ HT Hq) as (Hr0 & Hr1 & Hr2).
    unfold fill, node_bytes in *. cbn [fst snd].
    iDestruct (node_acc _ _ _ _ Hq with "T") as "[(P1 & P2 & P3 & Rr & Wv & Ws) T]".
    iDestruct (word_u64 with "Wv") as %Hvu. iDestruct (pts_bytes_ok with "P3") as %Hlb.
    iDestruct (raw_split _ (new + 16) with "R") as "[R1 R]"; [lia|].
    assert (is_byte s' ∧ is_byte e' ∧ is_byte (lastc q)) as (Hb1 & Hb2 & Hb3).
    { unfold is_byte in *. inversion Hlb as [|? ? Hl _]; subst. unfold is_byte in Hl. lia. }
    iApply (wp_t_init_node with "R1"); [done|done|done|done|]. iIntros "Q1 Q2 Q3 Q4 Q5".
    set (f := λ c0, sword M N (q ++ [c0])).
    assert (∀ c0, ¬ in_range r c0 → f c0 = 0) as Hf0.
    { intros c0 Hc0. unfold f. destruct (tok_out _ _ _ _ _ _ _ HT Hq Hc0). by apply sword_none. }
    assert (length (map f (chars r)) = Z.to_nat (r.2 - r.1 + 1)) as Hlen by (rewrite map_length; unfold chars; by rewrite seqZ_length).
    iAssert (tnodes M N -∗ wds (new + 16) (map f (chars (s', e'))) -∗ Φ tt)%I with "[W Q1 Q2 Q3 Q4 Q5]" as "W".
    { iIntros "T Ws". iApply ("W" with "T"). unfold node_at. cbn [fst snd]. iFrame.
      assert (map f (chars (s', e')) = map (λ c0, sword M (<[q := ((s', e'), new)]> N) (q ++ [c0])) (chars (s', e'))) as <-; [|done].
      apply map_ext. intros c0. unfold f, sword. rewrite lookup_insert_ne; [done|]. apply ne_snoc. }
    destruct (bool_decide_reflect (c < r.1)) as [Hlt|Hge].
    - assert (s' = c ∧ e' = r.2) as [-> ->] by lia.
      iDestruct (raw_split _ (new + 16 + 8 * (r.1 - c)) with "R") as "[R1 R]"; [lia|].
      iApply (wp_t_zero with "R1"); [lia|]. iIntros "Wz". iApply bind_ret_r.
      iApply (wp_t_copy _ _ (no + 16) _ (new + (16 + 8 * (r.2 - c + 1))) with "Ws R"); [by rewrite Hlen|lia|].
      iIntros "Ws Wn". iApply wp_ret. iApply ("W" with "[T P1 P2 P3 Rr Wv Ws]"); [iApply "T"; iFrame|].
      assert (map f (chars (c, r.2)) = repeat 0 (Z.to_nat (r.1 - c)) ++ map f (chars r)) as ->.
      { unfold chars. cbn [fst snd]. replace (r.2 - c + 1) with ((r.1 - c) + (r.2 - r.1 + 1)) by lia.
        rewrite seqZ_app; [|lia|lia]. rewrite map_app. f_equal; [|do 2 f_equal; lia].
        rewrite map_zeros; [by rewrite seqZ_length|]. intros d0 Hd0. apply elem_of_seqZ in Hd0. apply Hf0.
        unfold in_range. lia. }
      rewrite words_app. iFrame "Wz". rewrite repeat_length. replace (8 * Z.of_nat (Z.to_nat (r.1 - c))) with (8 * (r.1 - c)) by lia. done.
    - assert (s' = r.1 ∧ e' = c) as [-> ->] by lia.
      iDestruct (raw_split _ (new + 16 + 8 * (r.2 - r.1 + 1)) with "R") as "[R1 R]"; [lia|].
      iApply (wp_t_copy _ _ (no + 16) _ (new + 16 + 8 * (r.2 - r.1 + 1)) with "Ws R1"); [by rewrite Hlen|lia|].
      iIntros "Ws Wn". iApply bind_ret_r. iApply (wp_t_zero with "R"); [lia|]. iIntros "Wz".
      iApply wp_ret. iApply ("W" with "[T P1 P2 P3 Rr Wv Ws]"); [iApply "T"; iFrame|].
      assert (map f (chars (r.1, c)) = map f (chars r) ++ repeat 0 (Z.to_nat (c - r.2))) as ->.
      { unfold chars. cbn [fst snd]. replace (c - r.1 + 1) with ((r.2 - r.1 + 1) + (c - r.2)) by lia.
        rewrite seqZ_app; [|lia|lia]. rewrite map_app. f_equal.
        rewrite map_zeros; [by rewrite seqZ_length|]. intros d0 Hd0. apply elem_of_seqZ in Hd0. apply Hf0.
        unfold in_range. lia. }
      rewrite words_app. iFrame "Wn". rewrite Hlen. replace (8 * Z.of_nat (Z.to_nat (r.2 - r.1 + 1))) with (8 * (r.2 - r.1 + 1)) by lia. done.
  Qed.
  Lemma si_fill c s e no s' e' ps v new : 0 <= s → s <= e → (c < s ∧ s' = c ∧ e' = e ∨ c > e ∧ s' = s ∧ e' = c) →
    stores_in new (new + node_bytes (s', e')) (fill c s e no s' e' ps v new).
  Proof using. clear F HF.
    intros H1 H2 H3. unfold fill, node_bytes. cbn [fst snd]. apply si_bind; [apply si_init_node; lia|]. intros _.
    destruct (bool_decide_reflect (c < s)); (apply si_bind; [|intros _]); (apply si_zero || apply si_copy); lia.
  Qed.

  (** Widening the range of a node. *)
  Lemma crash_t_extend {A : Type} (M : vlmap) (N : ndmap) (q : bytes) (r : Z * Z) (no par c : Z) (K : Z → prog A) :
    good (vls M) → N !! q = Some (r, no) → is_byte c →
    (q = [] ∨ ∃ q' d r', q = q' ++ [d] ∧ N !! q' = Some (r', par) ∧ in_range r' d) →
    st M N -∗
    (∀ (N' : ndmap) (r' : Z * Z) (no' : Z), ⌜N' !! q = Some (r', no') ∧ in_range r' c ∧ (∀ j, j ≠ q → N' !! j = N !! j)⌝ -∗
       st M N' -∗ crash TC (K no')) -∗
    crash TC (y <- t_extend al par no c ;; K y).
  Proof using.
    iIntros (HG Hq Hc Hpar) "T W". unfold t_extend. wpn. iDestruct (ex_tok with "T") as %HT.
    iApply (crash_node0 with "T"); [done|done|]. iIntros "T". wpn.
    iApply (crash_node8 _ _ _ _ _ _ _ _ _ _ _ _ _ _ 1 r.2 with "T"); [done|done|tauto|]. iIntros "T". wpn.
    destruct (tok_rng _ _ _ _ _ _ HT Hq) as (Hr0 & Hr1 & Hr2).
    destruct (bool_decide_reflect (c < r.1 ∨ c > r.2)) as [Hnr|Hin].
    2:{ wpn. iApply ("W" $! N r no with "[] T"). iPureIntro. split; [done|]. split; [|done]. unfold in_range; lia. }
    assert (q ≠ []) as Hq0.
    { intros ->. rewrite (tk_root _ _ _ HT) in Hq. simplify_eq. simpl in *. unfold is_byte in Hc. lia. }
    destruct Hpar as [?|(q' & d & rp & -> & Hp & Hd)]; [done|].
    set (s' := if bool_decide (c < r.1) then c else r.1). set (e' := if bool_decide (c < r.1) then r.2 else c).
    assert (c < r.1 ∧ s' = c ∧ e' = r.2 ∨ c > r.2 ∧ s' = r.1 ∧ e' = c) as Hcase.
    { unfold s', e'. case_bool_decide; lia. }
    clearbody s' e'. wpn.
    iApply (crash_node8 _ _ _ _ _ _ _ _ _ _ _ _ _ _ 2 (lastc (q' ++ [d])) with "T"); [done|done|tauto|]. iIntros "T". wpn.
    iApply (crash_node_value with "T"); [done|done|]. iIntros "T". wpn.
    set (ps := lastc (q' ++ [d])). assert (ps = d) as Hps by apply lastc_snoc.
    replace (16 + 8 * (e' - s' + 1)) with (node_bytes (s', e')) by done.
    iApply (crash_new_node M N q' d rp par (s', e') (fill c r.1 r.2 no s' e' ps (vword M (q' ++ [d]))) (λ new, al_free al no ;; K new) with "T").
    - intros new. apply wpc_peq. rewrite /fill Hps. peqt.
    - done.
    - done.
    - done.
    - cbn [fst snd]. unfold is_byte in Hc. lia.
    - intros d0 r0 o0. rewrite Hq. intros [= <- <-]. unfold in_range. cbn [fst snd]. lia.
    - intros new. apply si_fill; lia.
    - iIntros (new Φ Hnew) "Rw T W". iApply (wp_fill with "Rw T W"); done.
    - iIntros (new ?). congruence.
    - iIntros (new r0 o0 s [Hr Hs]) "H Rw T". rewrite Hq in Hr. injection Hr as <- <-.
      iApply (crash_free F HF cf TC (tl M (<[q' ++ [d] := ((s', e'), new)]> N)) with "H Rw T").
      + rewrite Hs. by apply TC_intro.
      + iIntros (s1 Hs1) "H T". wpn. iApply ("W" $! (<[q' ++ [d] := ((s', e'), new)]> N) (s', e') new with "[]").
        * iPureIntro. split; [by rewrite lookup_insert|]. split; [unfold in_range; cbn [fst snd]; lia|].
          intros j Hj. by rewrite lookup_insert_ne.
        * iExists s1. iSplit; [by rewrite Hs1 Hs|]. iSplitL "H"; [done|]. iSplit; [done|]. iSplit; [done|]. done.
  Qed.
  Local Opaque t_extend.

  (** The nodes of the rest of a key. *)
  Lemma crash_t_chain {A : Type} (M : vlmap) (k : bytes) : ∀ (N : ndmap) (q : bytes) (c : Z) (r : Z * Z) (no : Z) (K : Z → prog A),
    good (vls M) → N !! q = Some (r, no) → in_range r c → N !! (q ++ [c]) = None → bytes_ok (c :: k) →
    st M N -∗
    (∀ N' : ndmap, ⌜has_place N' (q ++ c :: k)⌝ -∗ st M N' -∗ crash TC (K (place N' (q ++ c :: k)))) -∗
    crash TC (y <- t_chain_nodes al b no c k ;; K y).
  Proof using.
    induction k as [|c' k IH]; intros N q c r no K HG Hq Hc Hqc Hk; iIntros "T W"; cbn [t_chain_nodes]; wpn;
      iDestruct (ex_tok with "T") as %HT.
    - iApply (crash_node0 with "T"); [done|done|]. iIntros "T". wpn.
      rewrite -(place_child _ _ _ _ _ Hqc Hq). iApply ("W" $! N with "[] T"). iPureIntro. right. by exists q, c, r, no.
    - inversion Hk as [|? ? Hkc Hk']; subst. inversion Hk' as [|? ? Hkc' _]; subst.
      iApply (crash_node0 with "T"); [done|done|]. iIntros "T". wpn.
      iApply (crash_child with "T"); [done|done|done|]. iIntros "T". wpn.
      assert (sword M N (q ++ [c]) = vword M (q ++ [c])) as Hsw by (unfold sword; by rewrite Hqc). rewrite Hsw.
      change 24 with (node_bytes (0, 0)). replace (node_bytes (0, 0)) with (node_bytes (c', c')) by (unfold node_bytes; cbn [fst snd]; lia).
      iApply (crash_new_node M N q c r no (c', c') (λ new, t_init_node new c' c' c (vword M (q ++ [c])) ;; store64 (new + 16) 0)
        (λ new, t_nodes_add b 1 ;; y <- t_chain_nodes al b new c' k ;; K y) with "T [W]").
      + intros new. apply wpc_peq. peqt.
      + done.
      + done.
      + done.
      + unfold is_byte in Hkc'. cbn [fst snd]. lia.
      + rewrite Hqc. done.
      + intros new. unfold node_bytes. cbn [fst snd]. apply si_bind; [apply si_init_node; lia|]. intros _. apply si_store1; lia.
      + iIntros (new Φ Hnew) "Rw T W". unfold node_bytes. cbn [fst snd].
        iDestruct (raw_split _ (new + 16) with "Rw") as "[R1 Rw]"; [lia|].
        iDestruct (raw_word with "Rw") as "[%w0 Ws]"; [lia|].
        iDestruct (slot_read M N q _ _ _ Hq Hc with "T") as "[Wd T]". iDestruct (word_u64 with "Wd") as %Hu. rewrite Hsw in Hu.
        iSpecialize ("T" with "Wd").
        iApply (wp_t_init_node with "R1"); [done|done|done|done|]. iIntros "Q1 Q2 Q3 Q4 Q5".
        iApply bind_ret_r. iApply (wp_store64 with "Ws"); [done|]. iIntros "Ws". iApply wp_ret. iApply ("W" with "T").
        destruct (tok_no_node _ _ _ _ [c'] HT Hqc) as [Hno1 Hno2]. specialize (Hno2 ltac:(done)).
        assert ((<[q ++ [c] := ((c', c'), new)]> N) !! ((q ++ [c]) ++ [c']) = None) as Hno1'.
        { rewrite lookup_insert_ne; [done|]. apply ne_snoc. }
        unfold node_at. cbn [fst snd]. rewrite lastc_snoc. iFrame.
        assert (chars (c', c') = [c']) as ->.
        { unfold chars. cbn [fst snd]. replace (c' - c' + 1) with 1 by lia. unfold seqZ. simpl. done. }
        cbn [List.map]. rewrite sword_none; [|done|done]. unfold wds. rewrite big_sepL_singleton.
        by replace (new + 16 + 8 * Z.of_nat 0) with (new + 16) by lia.
      + iIntros (new _) "T". iApply (crash_nodes_add with "T"); [done|]. iIntros "T".
        iApply (IH (<[q ++ [c] := ((c', c'), new)]> N) (q ++ [c]) c' (c', c') new with "T"); [done| | | |done|].
        * by rewrite lookup_insert.
        * unfold in_range. cbn [fst snd]. lia.
        * rewrite lookup_insert_ne; [|apply ne_snoc]. apply (tok_no_node _ _ _ _ [c'] HT Hqc).
        * rewrite -assoc. iIntros (N' HN') "T". iApply ("W" $! N' with "[//] T").
      + iIntros (new r0 o0 s [Hr _]). congruence.
  Qed.
  (** Walking from the root and making what is missing. *)
  Lemma crash_t_make {A : Type} (M : vlmap) (N : ndmap) (k : bytes) (K : Z → prog A) :
    good (vls M) → bytes_ok k →
    st M N -∗
    (∀ N' : ndmap, ⌜has_place N' k⌝ -∗ st M N' -∗ crash TC (K (place N' k))) -∗
    crash TC (y <- t_make al b k ;; K y).
  Proof using.
    iIntros (HG Hk) "T W". unfold t_make, t_traverse. wpn. iDestruct (ex_tok with "T") as %HT.
    pose proof (tk_root _ _ _ HT) as Hroot.
    iApply (crash_quiet TC (st M N) _ (walk_post M N [] k _ _) with "T").
    - apply q_t_walk.
    - by apply ex_TC.
    - rewrite ex_nodes. iIntros "[T _]". iApply bind_ret_r. iApply (wp_t_walk with "T"); [done|exact Hroot|]. iIntros (w Hw) "_".
      iApply wp_ret. done.
    - iIntros (w Hw) "T". destruct w as [slot ns|par no rest]; unfold walk_post in Hw; cbn [app] in Hw; wpn.
      + destruct Hw as (-> & Hpl & _). by iApply ("W" $! N with "[//] T").
      + destruct Hw as (q & c & k' & r & -> & -> & Hq & Hqc & _ & Hpar & _). apply Forall_app in Hk as [_ Hk]. wpn.
        iApply (crash_t_extend M N q r no par c with "T"); [done|done|by inversion Hk| |].
        { destruct Hpar as [[-> _]|Hpar]; [by left|by right]. }
        iIntros (N' r' no' (H1 & H2 & H3)) "T".
        iApply (crash_t_chain with "T"); [done|done|done| |done|done].
        rewrite H3; [done|]. apply snoc_ne. done.
  Qed.
End make.
