(** * PrefixTree: the order of the keys. *)
From Verif Require Export TreeSpec HeapPure.
From iris.prelude Require Import prelude options.
Open Scope Z_scope.

Lemma lex_app q a b : lex_lt (q ++ a) (q ++ b) = lex_lt a b.
Proof. induction q as [|x q IH]; simpl; [done|]. by rewrite Z.ltb_irrefl Z.eqb_refl IH. Qed.
Lemma lex_nil a : lex_lt a [] = false.
Proof. by destruct a. Qed.
Lemma lex_outside_l q k x : (∀ rest, k ≠ q ++ rest) → lex_lt k (q ++ x) = lex_lt k q.
Proof.
  revert k. induction q as [|c q IH]; intros k Hk; [by destruct (Hk k)|]. destruct k as [|d k]; [done|]. simpl.
  destruct (Z.eqb_spec d c) as [->|Hd]; [|done]. simpl. rewrite IH; [done|]. intros rest ->. by destruct (Hk rest).
Qed.
Lemma lex_outside_r q k x : (∀ rest, k ≠ q ++ rest) → lex_lt (q ++ x) k = lex_lt q k.
Proof.
  revert k. induction q as [|c q IH]; intros k Hk; [by destruct (Hk k)|]. destruct k as [|d k]; [done|]. simpl.
  destruct (Z.eqb_spec c d) as [->|Hd]; [|done]. simpl. rewrite IH; [done|]. intros rest ->. by destruct (Hk rest).
Qed.
Lemma lex_trich a b : lex_lt a b = false → lex_lt b a = false → a = b.
Proof.
  revert b. induction a as [|x a IH]; intros [|y b]; simpl; try done.
  destruct (Z.ltb_spec x y), (Z.ltb_spec y x), (Z.eqb_spec x y), (Z.eqb_spec y x); simpl; try done; try lia.
  intros H1 H2. subst. f_equal. auto.
Qed.
Lemma lex_trans a b c : lex_lt a b = true → lex_lt b c = true → lex_lt a c = true.
Proof.
  revert b c. induction a as [|x a IH]; intros [|y b] [|z c]; simpl; try done.
  intros H1 H2. apply orb_true_iff in H1, H2. apply orb_true_iff.
  rewrite !andb_true_iff !Z.ltb_lt !Z.eqb_eq in H1 H2 |- *.
  destruct H1 as [H1|[H1 H1']], H2 as [H2|[H2 H2']]; [left; lia..|]. right. split; [lia|]. eauto.
Qed.
Lemma lex_asym a b : lex_lt a b = true → lex_lt b a = false.
Proof.
  intros H. destruct (lex_lt b a) eqn:E; [|done]. pose proof (lex_trans _ _ _ H E) as Hx. by rewrite lex_lt_irrefl in Hx.
Qed.
Lemma outside_dec (q k : bytes) : (∃ rest, k = q ++ rest) ∨ (∀ rest, k ≠ q ++ rest).
Proof.
  destruct (decide (q `prefix_of` k)) as [[r ->]|H]; [left; by exists r|]. right. intros r ->. apply H. by exists r.
Qed.

(** [from P k]: [k] is not before [P]. *)
Definition from (P k : bytes) : bool := negb (lex_lt k P).
Lemma from_self P : from P P = true.
Proof. unfold from. by rewrite lex_lt_irrefl. Qed.
Lemma bool_iff (a b : bool) : (a = true ↔ b = true) → a = b.
Proof. destruct a, b; naive_solver. Qed.
(** Moving the position over keys that are not there. *)
Lemma from_slots q a a' k : a <= a' → (∀ d rest, k = q ++ d :: rest → a <= d < a' → False) → from (q ++ [a]) k = from (q ++ [a']) k.
Proof.
  intros Ha Hno. unfold from. f_equal. destruct (outside_dec q k) as [[rest ->]|Ho].
  - rewrite !lex_app. destruct rest as [|d rest]; [done|]. specialize (Hno d rest eq_refl). simpl. rewrite lex_nil.
    rewrite !andb_false_r !orb_false_r. apply bool_iff. rewrite !Z.ltb_lt. lia.
  - by rewrite !lex_outside_l.
Qed.
Lemma from_enter q a k : k ≠ q → (∀ d rest, k = q ++ d :: rest → d < a → False) → from q k = from (q ++ [a]) k.
Proof.
  intros Hk Hno. unfold from. f_equal. destruct (outside_dec q k) as [[rest ->]|Ho].
  - rewrite -{2}(app_nil_r q) !lex_app. destruct rest as [|d rest]; [by rewrite app_nil_r in Hk|]. specialize (Hno d rest eq_refl).
    simpl. rewrite lex_nil andb_false_r orb_false_r. symmetry. apply Z.ltb_ge. lia.
  - by rewrite !lex_outside_l.
Qed.
Lemma from_leave p c a k : (∀ d rest, k = p ++ c :: d :: rest → a <= d → False) →
  from ((p ++ [c]) ++ [a]) k = from (p ++ [c + 1]) k.
Proof.
  intros Hno. unfold from. f_equal. rewrite -app_assoc. destruct (outside_dec p k) as [[rest ->]|Ho].
  - rewrite !lex_app. destruct rest as [|e rest]; [done|]. simpl. rewrite lex_nil andb_false_r orb_false_r.
    destruct (Z.eqb_spec e c) as [->|He].
    + rewrite Z.ltb_irrefl. simpl. rewrite (proj2 (Z.ltb_lt c (c + 1))); [|lia].
      destruct rest as [|d rest]; [done|]. specialize (Hno d rest eq_refl). simpl. rewrite lex_nil andb_false_r orb_false_r.
      apply Z.ltb_lt. lia.
    + simpl. rewrite orb_false_r. apply bool_iff. rewrite !Z.ltb_lt. lia.
  - by rewrite !lex_outside_l.
Qed.
(** The position of a key that is followed. *)
Lemma lex_pos p w a k : (∀ d rest, k = p ++ d :: rest → lex_lt w (d :: rest) = negb (d <? a)) →
  lex_lt (p ++ w) k = from (p ++ [a]) k.
Proof.
  intros H. unfold from. destruct (outside_dec p k) as [[rest ->]|Ho].
  - rewrite !lex_app. destruct rest as [|d rest]; [by rewrite lex_nil|]. rewrite (H d rest eq_refl). simpl.
    by rewrite lex_nil andb_false_r orb_false_r.
  - rewrite lex_outside_l // lex_outside_r //. destruct (lex_lt p k) eqn:E1.
    + by rewrite (lex_asym _ _ E1).
    + destruct (lex_lt k p) eqn:E2; [done|]. destruct (Ho []). rewrite app_nil_r. by apply lex_trich.
Qed.

(** ** The items in order *)
Definition klt (x y : bytes * pval) : Prop := lex_lt x.1 y.1 = true.
Lemma insert_item_perm x l : insert_item x l ≡ₚ x :: l.
Proof. induction l as [|y l IH]; simpl; [done|]. destruct (lex_lt y.1 x.1); [|done]. rewrite IH. constructor. Qed.
Lemma insert_item_sorted x l : StronglySorted klt l → x.1 ∉ l.*1 → StronglySorted klt (insert_item x l).
Proof.
  induction 1 as [|y l Hs IH Hy]; intros Hx; simpl; [by repeat constructor|].
  destruct (lex_lt y.1 x.1) eqn:E.
  - constructor.
    + apply IH. intros Hin. apply Hx. by right.
    + eapply (Forall_Permutation_proper klt) || idtac. apply Forall_forall. intros z Hz.
      apply (elem_of_Permutation_proper _ _ _ (insert_item_perm x l)) in Hz. apply elem_of_cons in Hz as [->|Hz]; [done|].
      rewrite Forall_forall in Hy. by apply Hy.
  - assert (klt x y) as Hxy.
    { unfold klt. destruct (lex_lt x.1 y.1) eqn:E2; [done|]. destruct Hx. rewrite (lex_trich _ _ E2 E). left. }
    constructor; [by constructor|]. constructor; [done|]. eapply Forall_impl; [exact Hy|]. intros z Hz. by eapply lex_trans.
Qed.
Lemma items_perm (l : list (bytes * pval)) : foldr insert_item [] l ≡ₚ l.
Proof. induction l as [|x l IH]; simpl; [done|]. by rewrite insert_item_perm IH. Qed.
Lemma t_items_perm m : t_items m ≡ₚ map_to_list m.
Proof. apply items_perm. Qed.
Lemma t_items_sorted m : StronglySorted klt (t_items m).
Proof.
  unfold t_items. pose proof (NoDup_fst_map_to_list m) as Hn. induction (map_to_list m) as [|x l IH]; simpl; [constructor|].
  apply NoDup_cons in Hn as [Hx Hn]. apply insert_item_sorted; [by apply IH|]. by rewrite (items_perm l).
Qed.
Lemma elem_of_items m k v : (k, v) ∈ t_items m ↔ m !! k = Some v.
Proof. rewrite t_items_perm. apply elem_of_map_to_list. Qed.

Definition t_rest (m : gmap bytes pval) (cur : option bytes) : list (bytes * pval) :=
  List.filter (λ x, is_after cur x.1) (t_items m).
Lemma t_rest_none m : t_rest m None = t_items m.
Proof. unfold t_rest. induction (t_items m); simpl; [done|]. by f_equal. Qed.
Lemma filter_all {A} (f : A → bool) l : Forall (λ x, f x = true) l → List.filter f l = l.
Proof. induction 1 as [|x l Hx _ IH]; simpl; [done|]. by rewrite Hx IH. Qed.
Lemma sorted_rest l cur k v r : StronglySorted klt l →
  List.filter (λ x, is_after cur x.1) l = (k, v) :: r → List.filter (λ x, is_after (Some k) x.1) l = r.
Proof.
  induction 1 as [|y l Hs IH Hy]; simpl; [done|]. destruct (is_after cur y.1) eqn:E.
  - intros [= -> <-]. cbn [fst]. rewrite lex_lt_irrefl. rewrite !filter_all; [done| |].
    + eapply Forall_impl; [exact Hy|]. intros z Hz. destruct cur; simpl in *; [|done]. by eapply lex_trans.
    + done.
  - intros Hr. specialize (IH Hr). assert ((k, v) ∈ (k, v) :: r) as Hin by left. rewrite -Hr in Hin.
    apply elem_of_list_In, filter_In in Hin as [Hin _]. apply elem_of_list_In in Hin. rewrite Forall_forall in Hy. specialize (Hy _ Hin).
    simpl in IH. rewrite (lex_asym y.1 k Hy) in E |- * || rewrite (lex_asym y.1 k Hy). done.
Qed.
Lemma t_rest_cons m cur k v r : t_rest m cur = (k, v) :: r → t_rest m (Some k) = r.
Proof. apply sorted_rest, t_items_sorted. Qed.
Lemma t_next_head m cur : t_next m cur = head (t_rest m cur).
Proof. done. Qed.
Lemma t_next_none m cur : (∀ k, is_Some (m !! k) → is_after cur k = false) → t_next m cur = None.
Proof.
  intros H. rewrite t_next_head. destruct (t_rest m cur) as [|[k v] r] eqn:E; [done|].
  assert ((k, v) ∈ t_rest m cur) as Hin by (rewrite E; left). apply elem_of_list_In, filter_In in Hin as [Hin Ha].
  apply elem_of_list_In, elem_of_items in Hin. simpl in Ha. rewrite H in Ha; [done|eauto].
Qed.
Lemma t_next_some m cur k v : m !! k = Some v → is_after cur k = true →
  (∀ k', is_Some (m !! k') → is_after cur k' = true → lex_lt k' k = false) → t_next m cur = Some (k, v).
Proof.
  intros Hk Ha Hmin. rewrite t_next_head. assert ((k, v) ∈ t_rest m cur) as Hin.
  { apply elem_of_list_In, filter_In. split; [|done]. by apply elem_of_list_In, elem_of_items. }
  destruct (t_rest m cur) as [|[k' v'] r] eqn:E; [by apply elem_of_nil in Hin|]. simpl.
  assert ((k', v') ∈ t_rest m cur) as Hin' by (rewrite E; left). apply elem_of_list_In, filter_In in Hin' as [Hin' Ha'].
  apply elem_of_list_In, elem_of_items in Hin'. apply elem_of_cons in Hin as [[= -> ->]|Hin]; [done|].
  rewrite -(t_rest_cons _ _ _ _ _ E) in Hin. apply elem_of_list_In, filter_In in Hin as [_ Hlt]. simpl in Hlt.
  rewrite (Hmin k') in Hlt; [done|eauto|done].
Qed.
(** t_next is what it should be. *)
Lemma t_next_inv m cur k v : t_next m cur = Some (k, v) → m !! k = Some v ∧ is_after cur k = true.
Proof.
  rewrite t_next_head. destruct (t_rest m cur) as [|[k' v'] r] eqn:E; [done|]. intros [= <- <-].
  assert ((k', v') ∈ t_rest m cur) as Hin by (rewrite E; left). apply elem_of_list_In, filter_In in Hin as [Hin Ha].
  apply elem_of_list_In, elem_of_items in Hin. done.
Qed.
