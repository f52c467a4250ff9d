(** * Hash tables as finite maps. *)
From Verif Require Export IdealSpec.
From iris.prelude Require Import prelude options.
Open Scope Z_scope.

Notation keys l := (l.*1).
Definition slot_ok (s : hslot) : Prop :=
  match s with
  | (false, l) => (length l <= 1)%nat
  | (true, l) => l ≠ []
  end.
Definition h_wf (hsh : bytes → Z) (t : htable) : Prop :=
  t ≠ [] ∧
  ∀ i s, t !! i = Some s → slot_ok s ∧ NoDup (keys s.2) ∧ ∀ k, k ∈ keys s.2 → h_index hsh t k = i.

Lemma get_key_Some k v l : get_key k l = Some v → (k, v) ∈ l.
Proof.
  induction l as [|[k' v'] l IH]; simpl; [done|]. case_bool_decide as Hk.
  - intros [= ->]. subst. left.
  - intros H. right. auto.
Qed.
Lemma get_key_None k l : get_key k l = None ↔ k ∉ keys l.
Proof.
  induction l as [|[k' v'] l IH]; simpl; [split; [intros _; apply not_elem_of_nil|done]|].
  rewrite not_elem_of_cons. case_bool_decide as Hk; [split; [done|tauto]|]. rewrite IH. tauto.
Qed.
Lemma get_key_in k v l : NoDup (keys l) → (k, v) ∈ l → get_key k l = Some v.
Proof.
  induction l as [|[k' v'] l IH]; simpl; [intros _ H; by apply elem_of_nil in H|].
  intros [Hn Hnd]%NoDup_cons [[= <- <-]|Hin]%elem_of_cons; [by rewrite bool_decide_eq_true_2|].
  rewrite bool_decide_eq_false_2; [by apply IH|]. intros ->. apply Hn.
  apply elem_of_list_fmap. by exists (k', v).
Qed.
Lemma get_key_list_to_map k l : get_key k l = (list_to_map l : gmap bytes bytes) !! k.
Proof.
  induction l as [|[k' v'] l IH]; simpl; [by rewrite lookup_empty|].
  case_bool_decide as Hk; [subst; by rewrite lookup_insert|by rewrite lookup_insert_ne].
Qed.
Lemma get_key_app k l1 l2 : get_key k (l1 ++ l2) = match get_key k l1 with Some v => Some v | None => get_key k l2 end.
Proof. induction l1 as [|[k' v'] l IH]; simpl; [done|]. by case_bool_decide. Qed.
Lemma get_key_set_keys k v l : keys (set_key k v l) = keys l.
Proof. induction l as [|[k' v'] l IH]; simpl; [done|]. case_bool_decide; simpl; [by subst|f_equal; exact IH]. Qed.
Lemma get_key_set_length k v l : length (set_key k v l) = length l.
Proof. by rewrite -(fmap_length fst) get_key_set_keys fmap_length. Qed.
Lemma get_key_set_get k v l k' : k ∈ keys l →
  get_key k' (set_key k v l) = if bool_decide (k' = k) then Some v else get_key k' l.
Proof.
  induction l as [|[a b] l IH]; [intros H; by apply elem_of_nil in H|].
  cbn [set_key get_key]. intros H. apply elem_of_cons in H. simpl in H.
  destruct (bool_decide_reflect (k = a)) as [->|Hk]; cbn [get_key].
  - by case_bool_decide.
  - destruct H as [->|H]; [done|]. destruct (bool_decide_reflect (k' = a)) as [->|Ha]; [|by apply IH].
    rewrite bool_decide_eq_false_2; [done|]. congruence.
Qed.
Lemma get_key_del_keys k l : NoDup (keys l) → ∀ x, x ∈ keys (del_key k l) ↔ x ∈ keys l ∧ x ≠ k.
Proof.
  induction l as [|[a b] l IH]; simpl; [intros _ x; rewrite elem_of_nil; tauto|].
  intros [Hn Hnd]%NoDup_cons x. case_bool_decide as Hk.
  - subst. rewrite elem_of_cons. split; [|tauto]. intros ?. split; [tauto|]. by intros ->.
  - simpl. rewrite !elem_of_cons (IH Hnd). split; [intros [->|[? ?]]; split; try tauto; congruence|tauto].
Qed.
Lemma get_key_del_nodup k l : NoDup (keys l) → NoDup (keys (del_key k l)).
Proof.
  induction l as [|[a b] l IH]; simpl; [done|]. intros [Hn Hnd]%NoDup_cons. case_bool_decide; [done|].
  simpl. apply NoDup_cons. split; [|auto]. intros H'. apply get_key_del_keys in H'; [tauto|done].
Qed.
Lemma get_key_del_get k l k' : NoDup (keys l) →
  get_key k' (del_key k l) = if bool_decide (k' = k) then None else get_key k' l.
Proof.
  intros Hnd. case_bool_decide as Hk.
  - subst. apply get_key_None. rewrite get_key_del_keys //. tauto.
  - induction l as [|[a b] l IH]; simpl; [done|].
    apply NoDup_cons in Hnd as [Hn Hnd]. case_bool_decide as Ha.
    + subst. by rewrite bool_decide_eq_false_2.
    + simpl. case_bool_decide; [done|auto].
Qed.
Lemma get_key_del_notin k l : k ∉ keys l → del_key k l = l.
Proof.
  induction l as [|[a b] l IH]; simpl; [done|]. rewrite not_elem_of_cons. intros [? ?].
  rewrite bool_decide_eq_false_2; [|done]. f_equal. auto.
Qed.
Lemma get_key_del_length k l : k ∈ keys l → length l = S (length (del_key k l)).
Proof.
  induction l as [|[a b] l IH]; simpl; [intros H; by apply elem_of_nil in H|].
  rewrite elem_of_cons. intros H. case_bool_decide; [done|]. simpl. f_equal. apply IH. destruct H; [done|done].
Qed.

Lemma elem_of_concat {A} (x : A) L : x ∈ concat L ↔ ∃ l, x ∈ l ∧ l ∈ L.
Proof.
  rewrite elem_of_list_In in_concat. split; intros (l & H1 & H2); exists l; revert H1 H2; rewrite !elem_of_list_In; tauto.
Qed.
Set Default Proof Using "Type".
Section wf.
  Context (hsh : bytes → Z).
  Lemma h_index_lt t k : t ≠ [] → (h_index hsh t k < length t)%nat.
  Proof.
    intros Ht. unfold h_index. destruct t as [|s t]; [done|].
    pose proof (Z.mod_pos_bound (hsh k) (Z.of_nat (length (s :: t))) ltac:(simpl; lia)). lia.
  Qed.
  Lemma h_slot_of_lookup t k : t ≠ [] → t !! h_index hsh t k = Some (h_slot_of hsh t k).
  Proof.
    intros Ht. pose proof (h_index_lt t k Ht). unfold h_slot_of.
    destruct (t !! h_index hsh t k) as [s|] eqn:E; [|apply lookup_ge_None in E; lia].
    f_equal. symmetry. by apply nth_lookup_Some.
  Qed.
  Lemma h_index_len t t' k : length t = length t' → h_index hsh t k = h_index hsh t' k.
  Proof. unfold h_index. by intros ->. Qed.
  Lemma h_items_in t x : x ∈ h_items t ↔ ∃ i s, t !! i = Some s ∧ x ∈ s.2.
  Proof.
    unfold h_items. rewrite elem_of_concat. split.
    - intros (l & Hx & Hl). apply elem_of_list_fmap in Hl as (s & -> & Hs).
      apply elem_of_list_lookup in Hs as [i Hi]. eauto.
    - intros (i & s & Hi & Hx). exists s.2. split; [done|]. apply elem_of_list_fmap.
      exists s. split; [done|]. by eapply elem_of_list_lookup_2.
  Qed.
  Lemma h_wf_nodup t : h_wf hsh t → NoDup (keys (h_items t)).
  Proof.
    intros [_ Hwf]. unfold h_items.
    assert (∀ n (u : htable), (∀ i s, u !! i = Some s → NoDup (keys s.2) ∧ ∀ k, k ∈ keys s.2 → h_index hsh t k = (n + i)%nat) →
      NoDup (keys (concat (map snd u)))) as H.
    { intros n u. revert n. induction u as [|s u IH]; intros n Hu; simpl; [by apply NoDup_nil|].
      rewrite fmap_app. apply NoDup_app. split_and!.
      - by apply (Hu 0%nat s).
      - intros k Hk Hk'. destruct (Hu 0%nat s eq_refl) as [_ H0]. apply H0 in Hk.
        apply elem_of_list_fmap in Hk' as ([k' v] & -> & Hk').
        apply elem_of_concat in Hk' as (l & Hl & Hl').
        apply elem_of_list_fmap in Hl' as (s' & -> & Hs'). apply elem_of_list_lookup in Hs' as [j Hj].
        destruct (Hu (S j) s' Hj) as [_ H1]. specialize (H1 k').
        rewrite H1 in Hk; [lia|]. apply elem_of_list_fmap. by exists (k', v).
      - apply (IH (S n)). intros i s' Hi. destruct (Hu (S i) s' Hi) as [? H1]. split; [done|].
        intros k Hk. rewrite H1; [lia|done]. }
    apply (H 0%nat). intros i s Hi. destruct (Hwf i s Hi) as (_ & ? & ?). done.
  Qed.
  Lemma h_get_map t k : h_wf hsh t → h_get hsh t k = h_map t !! k.
  Proof.
    intros Hwf. pose proof (h_wf_nodup t Hwf) as Hnd. destruct Hwf as [Ht Hwf].
    unfold h_get. pose proof (h_slot_of_lookup t k Ht) as Hs. destruct (Hwf _ _ Hs) as (_ & Hn & Hk).
    unfold h_map. rewrite -get_key_list_to_map.
    destruct (get_key k (h_items t)) as [v|] eqn:E.
    - apply get_key_Some in E. apply h_items_in in E as (i & s & Hi & Hin).
      destruct (Hwf _ _ Hi) as (_ & Hn' & Hk').
      assert (h_index hsh t k = i) as Hx. { apply Hk'. apply elem_of_list_fmap. by exists (k, v). }
      rewrite Hx Hi in Hs. injection Hs as Hs. rewrite -Hs. by apply get_key_in.
    - apply get_key_None in E. apply get_key_None. intros Hin. apply E.
      apply elem_of_list_fmap in Hin as ([k' v] & -> & Hin). apply elem_of_list_fmap. exists (k', v).
      split; [done|]. apply h_items_in. eauto.
  Qed.

  (** Changing one slot *)
  Lemma h_wf_upd t k s' : h_wf hsh t → slot_ok s' → NoDup (keys s'.2) →
    (∀ x, x ∈ keys s'.2 → x ∈ keys (h_slot_of hsh t k).2 ∨ x = k) →
    h_wf hsh (<[h_index hsh t k := s']> t).
  Proof.
    intros [Ht Hwf] Hok Hnd Hk. pose proof (h_slot_of_lookup t k Ht) as Hs.
    set (t' := <[h_index hsh t k := s']> t).
    assert (length t' = length t) as Hl by apply insert_length. split.
    { intros E. rewrite E in Hl. by destruct t. }
    intros i s Hi. destruct (decide (i = h_index hsh t k)) as [->|Hne].
    - rewrite list_lookup_insert in Hi; [|by apply h_index_lt]. injection Hi as <-.
      split_and!; [done|done|]. intros x Hx. rewrite (h_index_len t' t) //.
      destruct (Hk x Hx) as [Hx'| -> ]; [|done]. by apply (Hwf _ _ Hs).
    - rewrite list_lookup_insert_ne // in Hi. destruct (Hwf _ _ Hi) as (?&?&?).
      split_and!; [done|done|]. intros x Hx. rewrite (h_index_len t' t) //. auto.
  Qed.
  Lemma h_get_upd t k s' k' : h_wf hsh t →
    h_get hsh (<[h_index hsh t k := s']> t) k' =
      if decide (h_index hsh t k' = h_index hsh t k) then get_key k' s'.2 else h_get hsh t k'.
  Proof.
    intros [Ht _]. unfold h_get, h_slot_of.
    rewrite (h_index_len (<[h_index hsh t k:=s']> t) t); [|apply insert_length].
    case_decide as E.
    - rewrite E. by rewrite (nth_lookup_Some _ _ _ s'); [|apply list_lookup_insert, h_index_lt].
    - pose proof (h_slot_of_lookup t k' Ht) as Hs.
      rewrite (nth_lookup_Some _ _ _ (h_slot_of hsh t k')); [|by rewrite list_lookup_insert_ne].
      by rewrite (nth_lookup_Some _ _ _ (h_slot_of hsh t k')).
  Qed.
  Lemma h_get_other t k k' : h_index hsh t k' ≠ h_index hsh t k → k' ≠ k.
  Proof. by intros ? ->. Qed.

  Lemma slot_put_ok k v s : slot_ok s → NoDup (keys s.2) →
    slot_ok (slot_put k v s) ∧ NoDup (keys (slot_put k v s).2) ∧
    (∀ x, x ∈ keys (slot_put k v s).2 → x ∈ keys s.2 ∨ x = k) ∧
    (∀ x, get_key x (slot_put k v s).2 = if bool_decide (x = k) then Some v else get_key x s.2).
  Proof.
    clear hsh. intros Hok Hnd. unfold slot_put. destruct (get_key k s.2) as [w|] eqn:E.
    - assert (k ∈ keys s.2) as Hin.
      { apply get_key_Some in E. apply elem_of_list_fmap. by exists (k, w). }
      simpl. split_and!.
      + destruct s as [[] l]; simpl in *.
        * intros Hx. apply (f_equal length) in Hx. rewrite get_key_set_length in Hx. by destruct l.
        * by rewrite get_key_set_length.
      + by rewrite get_key_set_keys.
      + intros x. rewrite get_key_set_keys. tauto.
      + intros x. by apply get_key_set_get.
    - destruct s as [ind l]; simpl in *. apply get_key_None in E as Hni. destruct l as [|y l].
      + simpl. split_and!; [done|by apply NoDup_singleton|intros x; rewrite elem_of_list_singleton; tauto|done].
      + simpl. split_and!.
        * done.
        * change (NoDup (keys ((y :: l) ++ [(k, v)]))). rewrite fmap_app. apply NoDup_app. split_and!; [done| |apply NoDup_singleton].
          intros x Hx Hx'. apply elem_of_list_singleton in Hx'. simpl in Hx'. subst x. done.
        * intros x. change (x ∈ keys ((y :: l) ++ [(k, v)]) → x ∈ keys (y :: l) ∨ x = k).
          rewrite fmap_app elem_of_app elem_of_list_singleton. done.
        * intros x. change (get_key x ((y :: l) ++ [(k, v)]) = if bool_decide (x = k) then Some v else get_key x (y :: l)).
          rewrite get_key_app. destruct (get_key x (y :: l)) as [w|] eqn:Ex.
          -- rewrite bool_decide_eq_false_2 //. intros ->. congruence.
          -- simpl. done.
  Qed.
  Lemma h_put_wf t k v : h_wf hsh t → h_wf hsh (h_put hsh t k v).
  Proof.
    intros Hwf. pose proof Hwf as [Ht H]. pose proof (h_slot_of_lookup t k Ht) as Hs.
    destruct (H _ _ Hs) as (Hok & Hnd & _). destruct (slot_put_ok k v _ Hok Hnd) as (?&?&?&?).
    by apply h_wf_upd.
  Qed.
  Lemma h_put_get t k v k' : h_wf hsh t →
    h_get hsh (h_put hsh t k v) k' = if bool_decide (k' = k) then Some v else h_get hsh t k'.
  Proof.
    intros Hwf. pose proof Hwf as [Ht H]. pose proof (h_slot_of_lookup t k Ht) as Hs.
    destruct (H _ _ Hs) as (Hok & Hnd & _). destruct (slot_put_ok k v _ Hok Hnd) as (?&?&?&Hg).
    unfold h_put. rewrite h_get_upd //. case_decide as E.
    - rewrite Hg. case_bool_decide; [done|]. unfold h_get, h_slot_of. by rewrite E.
    - rewrite bool_decide_eq_false_2 //. by eapply h_get_other.
  Qed.
  Lemma h_put_map t k v : h_wf hsh t → h_map (h_put hsh t k v) = <[k := v]> (h_map t).
  Proof.
    intros Hwf. apply map_eq. intros k'. rewrite -h_get_map; [|by apply h_put_wf]. rewrite h_put_get //.
    case_bool_decide as E; [subst; by rewrite lookup_insert|]. rewrite lookup_insert_ne // h_get_map //.
  Qed.

  Lemma slot_del_ok k s : slot_ok s → NoDup (keys s.2) → (fst s = true → is_first k s.2 = true → (length s.2 <= 2)%nat) →
    slot_ok (slot_del k s) ∧ NoDup (keys (slot_del k s).2) ∧
    (∀ x, x ∈ keys (slot_del k s).2 → x ∈ keys s.2 ∨ x = k) ∧
    (∀ x, get_key x (slot_del k s).2 = if bool_decide (x = k) then None else get_key x s.2).
  Proof.
    clear hsh. intros Hok Hnd Hfirst. unfold slot_del.
    assert ((match del_key k s.2 with [] => (false, []) | _ => (fst s && negb (is_first k s.2), del_key k s.2) end).2 = del_key k s.2) as E2.
    { by destruct (del_key k s.2). }
    set (u := match del_key k s.2 with [] => (false, []) | _ => (fst s && negb (is_first k s.2), del_key k s.2) end) in *.
    assert (match del_key k s.2 with [] => (false, []) | p :: l => (fst s && negb (is_first k s.2), p :: l) end = u) as ->.
    { unfold u. by destruct (del_key k s.2). }
    rewrite !E2. split_and!.
    - unfold u. destruct (del_key k s.2) as [|y l] eqn:E; [simpl; lia|].
      destruct s as [ind l0]; simpl in *. destruct ind; simpl.
      + destruct (is_first k l0) eqn:Ef; simpl; [|done].
        destruct l0 as [|[a b] l0]; [done|]. simpl in Ef. apply bool_decide_eq_true in Ef as ->.
        simpl in E. rewrite bool_decide_eq_true_2 // in E. subst. specialize (Hfirst eq_refl eq_refl). simpl in *. lia.
      + destruct l0 as [|[a b] [|? ?]]; simpl in *; [done| |lia]. case_bool_decide; simplify_eq; simpl; lia.
    - by apply get_key_del_nodup.
    - intros x. rewrite get_key_del_keys //. tauto.
    - intros x. by apply get_key_del_get.
  Qed.
  (** The deletions for which the code is right about the flag *)
  Definition first_of_long (t : htable) (k : bytes) : Prop :=
    let s := h_slot_of hsh t k in fst s = true ∧ is_first k s.2 = true ∧ (3 <= length s.2)%nat.
  Lemma h_del_facts t k : h_wf hsh t → ¬ first_of_long t k →
    h_wf hsh (h_del hsh t k) ∧
    (∀ k', h_get hsh (h_del hsh t k) k' = if bool_decide (k' = k) then None else h_get hsh t k').
  Proof.
    intros Hwf Hf. pose proof Hwf as [Ht H]. pose proof (h_slot_of_lookup t k Ht) as Hs.
    destruct (H _ _ Hs) as (Hok & Hnd & _). destruct (slot_del_ok k _ Hok Hnd) as (?&?&?&Hg).
    { intros ??. destruct (decide (length (h_slot_of hsh t k).2 <= 2)%nat); [done|]. exfalso. apply Hf.
      split_and!; [done|done|lia]. }
    split; [by apply h_wf_upd|]. intros k'. unfold h_del. rewrite h_get_upd //. case_decide as E.
    - rewrite Hg. case_bool_decide; [done|]. unfold h_get, h_slot_of. by rewrite E.
    - rewrite bool_decide_eq_false_2 //. by eapply h_get_other.
  Qed.
  Lemma h_del_map t k : h_wf hsh t → ¬ first_of_long t k → h_map (h_del hsh t k) = delete k (h_map t).
  Proof.
    intros Hwf Hf. destruct (h_del_facts t k Hwf Hf) as [Hw Hg]. apply map_eq. intros k'. rewrite -h_get_map // Hg.
    case_bool_decide as E; [subst; by rewrite lookup_delete|]. rewrite lookup_delete_ne // h_get_map //.
  Qed.

  (** Numbers of items *)
  Lemma h_items_split t i s : t !! i = Some s →
    h_items t = h_items (take i t) ++ s.2 ++ h_items (drop (S i) t).
  Proof.
    intros Hi. unfold h_items. rewrite -{1}(take_drop_middle t i s Hi).
    by rewrite map_app concat_app.
  Qed.
  Lemma h_items_upd t i s : (i < length t)%nat →
    h_items (<[i := s]> t) = h_items (take i t) ++ s.2 ++ h_items (drop (S i) t).
  Proof.
    intros Hi. rewrite (h_items_split (<[i := s]> t) i s); [|by apply list_lookup_insert].
    rewrite take_insert // drop_insert_gt //. lia.
  Qed.
  Lemma h_items_len_upd t k s : t ≠ [] →
    (length (h_items (<[h_index hsh t k := s]> t)) + length (h_slot_of hsh t k).2 =
     length (h_items t) + length s.2)%nat.
  Proof.
    intros Ht. pose proof (h_slot_of_lookup t k Ht) as Hs. pose proof (h_index_lt t k Ht).
    rewrite h_items_upd // (h_items_split t _ _ Hs) !app_length. lia.
  Qed.
  Lemma h_map_size t : h_wf hsh t → size (h_map t) = length (h_items t).
  Proof.
    intros Hwf. unfold h_map, size, map_size. rewrite map_to_list_to_map; [done|]. by apply h_wf_nodup.
  Qed.
  Lemma h_map_list t : h_wf hsh t → map_to_list (h_map t) ≡ₚ h_items t.
  Proof. intros Hwf. apply map_to_list_to_map. by apply h_wf_nodup. Qed.
  Lemma h_new_wf bits : 0 <= bits → h_wf hsh (h_new bits).
  Proof.
    intros Hb. pose proof (Z.pow_pos_nonneg 2 bits ltac:(lia) Hb). unfold h_new. split.
    - intros E. apply (f_equal length) in E. rewrite repeat_length in E. simpl in E. lia.
    - intros i s Hi. apply elem_of_list_lookup_2 in Hi. apply elem_of_list_In, repeat_spec in Hi. subst s.
      simpl. split_and!; [lia|by apply NoDup_nil|]. intros k Hk. by apply elem_of_nil in Hk.
  Qed.
  Lemma h_new_items bits : h_items (h_new bits) = [].
  Proof. unfold h_items, h_new. induction (Z.to_nat (2 ^ bits)); simpl; done. Qed.
End wf.
