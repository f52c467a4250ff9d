(** * Trees on which nothing has failed have no superfluous nodes. *)
From Verif Require Export TreeOps PrefixRep.
From iris.prelude Require Import prelude options.
Open Scope Z_scope.

Definition ext_of (p k : bytes) : Prop := ∃ c r, k = p ++ c :: r.
Definition lean {A} (m : gmap bytes A) (N : gmap bytes (Z * Z)) : Prop :=
  ∀ p, is_Some (N !! p) → p ≠ [] → ∃ k, is_Some (m !! k) ∧ ext_of p k.
Definition neat (t : ptree) : Prop := t_extra t = 0 ∧ t_nerr t = 0 ∧ lean (t_map t) (t_nodes t).

Lemma ext_of_trans p q k : ext_of p q → ext_of q k → ext_of p k.
Proof. intros (c & r & ->) (c' & r' & ->). exists c, (r ++ c' :: r'). by rewrite -app_assoc. Qed.
Lemma ext_of_snoc p c : ext_of p (p ++ [c]).
Proof. by exists c, []. Qed.
Lemma ext_of_ne p k : ext_of p k → (length p < length k)%nat.
Proof. intros (c & r & ->). rewrite app_length. simpl. lia. Qed.
Lemma wf_prefix {A} (m : gmap bytes A) N p q : t_wf m N → is_Some (N !! (p ++ q)) → is_Some (N !! p).
Proof.
  intros Hwf. induction q as [|c q IH] using rev_ind; [by rewrite app_nil_r|].
  rewrite app_assoc. intros H. apply IH. destruct (wf_node _ _ Hwf _ _ H) as (r & Hr & _). by rewrite Hr.
Qed.
Lemma wf_key_prefix {A} (m : gmap bytes A) N p k : t_wf m N → is_Some (m !! k) → ext_of p k → is_Some (N !! p).
Proof.
  intros Hwf Hk (c & r & ->). destruct (exists_last (l := c :: r)) as (r' & c' & E); [done|]. rewrite E app_assoc in Hk.
  destruct (wf_key _ _ Hwf _ _ Hk) as (rr & Hr & _). apply (wf_prefix m N p r'); [done|]. by rewrite Hr.
Qed.

Lemma chain_dom k : ∀ N p q, is_Some (t_chain N p k !! q) → is_Some (N !! q) ∨ ext_of q (p ++ k).
Proof.
  induction k as [|c [|c' k] IH]; intros N p q; [by left|by left|].
  change (t_chain N p (c :: c' :: k)) with (t_chain (<[p ++ [c] := (c', c')]> N) (p ++ [c]) (c' :: k)).
  intros [H|H]%IH.
  - destruct (decide (q = p ++ [c])) as [->|Hne]; [|left; by rewrite lookup_insert_ne in H].
    right. exists c', k. by rewrite -app_assoc.
  - right. by rewrite -app_assoc in H.
Qed.
Lemma reach_dom N k : ∀ p q, is_Some (t_reach N p k !! q) → is_Some (N !! q) ∨ ext_of q (p ++ k).
Proof.
  induction k as [|c k IH]; intros p q; [by left|]. cbn [t_reach].
  destruct (bool_decide (is_Some (N !! (p ++ [c])))).
  - intros [H|H]%IH; [by left|right]. by rewrite -app_assoc in H.
  - intros [H|H]%chain_dom; [left|by right]. destruct (decide (q = p)) as [->|Hne].
    + rewrite lookup_alter in H. by destruct (N !! p).
    + by rewrite lookup_alter_ne in H.
Qed.

Lemma path_ext N k : ∀ p q, q ∈ t_path N p k → ext_of p q.
Proof.
  induction k as [|c k IH]; intros p q; cbn [t_path]; [by intros ?%elem_of_nil|].
  destruct (bool_decide (is_Some (N !! (p ++ [c])))); [|by intros ?%elem_of_nil].
  intros [H|H]%elem_of_app.
  - eapply ext_of_trans; [apply ext_of_snoc|by apply IH].
  - apply elem_of_list_singleton in H as ->. apply ext_of_snoc.
Qed.
Lemma path_sorted N k : ∀ p, StronglySorted (λ q p, ext_of p q) (t_path N p k).
Proof.
  induction k as [|c k IH]; intros p; cbn [t_path]; [constructor|].
  destruct (bool_decide (is_Some (N !! (p ++ [c])))); [|constructor].
  pose proof (IH (p ++ [c])) as HS. pose proof (path_ext N k (p ++ [c])) as He.
  induction HS as [|x l HS IHl Hf]; simpl; [repeat constructor|]. constructor.
  - apply IHl. intros q Hq. apply He. by right.
  - apply Forall_app. split; [done|]. constructor; [apply He; by left|constructor].
Qed.
Lemma path_mem {A} (m : gmap bytes A) N q : ∀ p r, t_wf m N → is_Some (N !! (p ++ q)) → q ≠ [] →
  p ++ q ∈ t_path N p (q ++ r).
Proof.
  induction q as [|c q IH]; intros p r Hwf HN Hq; [done|]. cbn [app t_path].
  assert (is_Some (N !! (p ++ [c]))) as Hc.
  { apply (wf_prefix m N _ q); [done|]. by rewrite -app_assoc. }
  rewrite bool_decide_eq_true_2; [|done]. apply elem_of_app. destruct q as [|c' q].
  - right. by apply elem_of_list_singleton.
  - left. specialize (IH (p ++ [c]) r Hwf). rewrite -app_assoc in IH. by apply IH.
Qed.

Lemma has_child_spec m N p : has_child m N p = true →
  ∃ c, is_Some (m !! (p ++ [c])) ∨ is_Some (N !! (p ++ [c])).
Proof.
  unfold has_child. intros (c & _ & H)%existsb_exists. exists c.
  by apply orb_true_iff in H as [H%bool_decide_eq_true|H%bool_decide_eq_true]; [left|right].
Qed.
Lemma prune_lean m l : ∀ N,
  (∀ p, is_Some (N !! p) → p ≠ [] → (∃ k, is_Some (m !! k) ∧ ext_of p k) ∨ p ∈ l) →
  StronglySorted (λ q p, ext_of p q) l → lean m (t_prune m N l).
Proof.
  induction l as [|q l IH]; intros N HN HS; cbn [t_prune].
  - intros p Hp Hne. by destruct (HN p Hp Hne) as [?|?%elem_of_nil].
  - apply StronglySorted_inv in HS as [HS Hf]. rewrite Forall_forall in Hf. destruct (has_child m N q) eqn:Hc.
    + assert (∃ k, is_Some (m !! k) ∧ ext_of q k) as (k & Hk & Hqk).
      { apply has_child_spec in Hc as (c & [Hc|Hc]); [exists (q ++ [c]); split; [done|apply ext_of_snoc]|].
        destruct (HN (q ++ [c]) Hc) as [(k & Hk & He)|Hin]; [by destruct q| |].
        - exists k. split; [done|]. eapply ext_of_trans; [apply ext_of_snoc|done].
        - apply elem_of_cons in Hin as [E|Hin].
          + pose proof (ext_of_ne _ _ (ext_of_snoc q c)). rewrite E in H. lia.
          + pose proof (ext_of_ne _ _ (Hf _ Hin)) as H. rewrite app_length in H. simpl in H. lia. }
      intros p Hp Hne. destruct (HN p Hp Hne) as [?|[->|Hin]%elem_of_cons]; [done|by exists k|].
      exists k. split; [done|]. eapply ext_of_trans; [by apply Hf|done].
    + destruct (bool_decide_reflect (is_Some (m !! q))) as [Hq|Hq].
      * intros p Hp Hne. apply lookup_delete_is_Some in Hp as [Hpq Hp].
        destruct (HN p Hp Hne) as [?|[->|Hin]%elem_of_cons]; [done|done|]. exists q. split; [done|]. by apply Hf.
      * apply IH; [|done]. intros p Hp Hne. apply lookup_delete_is_Some in Hp as [Hpq Hp].
        destruct (HN p Hp Hne) as [?|[->|Hin]%elem_of_cons]; [by left|done|by right].
Qed.

Lemma put_lean {A} (m : gmap bytes A) N k v : lean m N → lean (<[k := v]> m) (t_reach N [] k).
Proof.
  intros HL p [Hp|Hp]%reach_dom Hne.
  - destruct (HL p Hp Hne) as (k' & Hk' & He). exists k'. split; [|done]. rewrite lookup_insert_is_Some'. by right.
  - exists k. split; [by rewrite lookup_insert|done].
Qed.
Lemma neat_new : neat t_new.
Proof. split; [done|]. split; [done|]. intros p [x Hp] Hne. unfold t_new in Hp. cbn [t_nodes] in Hp. apply lookup_singleton_Some in Hp as [<- _]. done. Qed.
Lemma erase_lean m N k : t_wf m N → lean m N →
  lean (delete k m) (t_prune (delete k m) N (t_path N [] k)).
Proof.
  intros Hwf HL. apply prune_lean; [|apply path_sorted]. intros p Hp Hne.
  destruct (HL p Hp Hne) as (k' & Hk' & He). destruct (decide (k' = k)) as [->|Hk].
  - right. destruct He as (c & r & ->). by apply (path_mem m N p []).
  - left. exists k'. split; [|done]. by rewrite lookup_delete_ne.
Qed.
Lemma neat_kept t y r t' : t_wf (t_map t) (t_nodes t) → neat t → t_ideal t y = inl (r, t') → neat t'.
Proof.
  intros Hwf Hn. pose proof Hn as (Hx & Hx' & HL).
  assert (∀ k v, neat (t_put t k v)) as Hput by (intros k v; split; [done|]; split; [done|by apply put_lean]).
  destruct y as [k v ck|k ck|k delta|k fadd delta| |k|k|k|cur| | | |k|k|k|p|p]; cbn [t_ideal].
  - destruct (t_holds (t_map t) ck); intros [= <- <-]; [apply Hput|done].
  - destruct (t_holds (t_map t) ck); intros [= <- <-]; [|done]. unfold t_erase. destruct (t_exists t k); [|done].
    split; [done|]. split; [done|]. cbn [t_map t_nodes]. by apply erase_lean.
  - destruct (t_incr (t_map t) k delta); intros [= <- <-]; apply Hput.
  - destruct (t_incr_double fadd (t_map t) k delta); intros [= <- <-]; apply Hput.
  - intros [= <- <-]. split; [done|]. split; [done|]. apply neat_new.
  - by intros [= <- <-].
  - by intros [= <- <-].
  - destruct (t_map t !! k); [by intros [= <- <-]|done].
  - destruct (t_next (t_map t) cur) as [[k v]|]; [by intros [= <- <-]|done].
  - by intros [= <- <-].
  - by intros [= <- <-].
  - by intros [= <- <-].
  - by intros [= <- <-].
  - by intros [= <- <-].
  - by intros [= <- <-].
  - by intros [= <- <-].
  - by intros [= <- <-].
Qed.
Lemma t_left_same t y e t' : e ≠ RuntimeError → t_left t y e t' → t' = t.
Proof. intros He [_ H]. revert H. destruct y, e; cbn [t_left]; try done. Qed.

(** ** What the nodes of a neat tree are *)
Lemma neat_nodes t p : t_wf (t_map t) (t_nodes t) → neat t →
  is_Some (t_nodes t !! p) ↔ p = [] ∨ ∃ k, is_Some (t_map t !! k) ∧ ext_of p k.
Proof.
  intros Hwf (_ & _ & HL). split.
  - intros Hp. destruct (decide (p = [])) as [->|Hne]; [by left|right]. by apply HL.
  - intros [->|(k & Hk & He)]; [by rewrite (wf_root _ _ Hwf)|]. by eapply wf_key_prefix.
Qed.
Lemma neat_empty t : t_wf (t_map t) (t_nodes t) → neat t → t_map t = ∅ → t_nodes t = {[ [] := (0, 255) ]}.
Proof.
  intros Hwf Hn Hm. apply map_eq. intros p. destruct (decide (p = [])) as [->|Hne].
  - by rewrite (wf_root _ _ Hwf) lookup_singleton.
  - rewrite lookup_singleton_ne //. destruct (t_nodes t !! p) as [x|] eqn:E; [|done].
    destruct (proj1 (neat_nodes t p Hwf Hn)) as [?|(k & Hk & _)]; [by rewrite E|done|]. rewrite Hm lookup_empty in Hk. by destruct Hk.
Qed.
(** Keys that are stored never lead to an empty slot. *)
Lemma stored_no_hole t k : t_wf (t_map t) (t_nodes t) → is_Some (t_map t !! k) → t_hole t [] k = false.
Proof.
  intros Hwf. change k with ([] ++ k) at 1. generalize ([] : bytes) at 1 2. intros p.
  revert p. induction k as [|c k IH]; intros p Hk; cbn [t_hole]; [done|].
  destruct (t_nodes t !! p) as [[s e]|] eqn:E; [|done].
  destruct ((s <=? c) && (c <=? e)); [cbn [andb]|done].
  destruct (bool_decide_reflect (is_Some (t_nodes t !! (p ++ [c])))) as [Hn|Hn].
  - apply IH. by rewrite -app_assoc.
  - destruct k as [|c' k].
    + by rewrite bool_decide_eq_true_2.
    + destruct Hn. eapply wf_key_prefix; [done|exact Hk|]. exists c', k. by rewrite -app_assoc.
Qed.
