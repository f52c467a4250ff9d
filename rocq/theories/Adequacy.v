(** * From heap predicates to pool states. *)
From Verif Require Export WP PoolProof.
From iris.proofmode Require Import tactics.
From iris.prelude Require Import options.
Open Scope Z_scope.
Open Scope prog_scope.

(** The heap of a state. *)
Definition heap_of (s : pst) : heap :=
  <[a_mapped := mapped s]> (<[a_epoch := epoch s]> (<[a_maxsz := maxsz s]>
  (<[a_oslim := oslim s]> (<[a_fsize := fsize s]>
  (hp_of_bytes 0 (read_bytes s 0 (Z.to_nat (mapped s)))))))).

Record pst_wf (s : pst) : Prop := {
  wf_mapped : 0 <= mapped s <= fsize s;
  wf_byte : ∀ a, is_byte (bget s a)
}.

Lemma heap_of_repr s : pst_wf s → repr (heap_of s) s.
Proof.
  intros [Hm Hb]. split; [done|done|]. intros a. unfold heap_of, scell.
  destruct (decide (a = a_mapped)) as [->|H1]; [by rewrite lookup_insert|].
  rewrite lookup_insert_ne //.
  destruct (decide (a = a_epoch)) as [->|H2]; [by rewrite lookup_insert|].
  rewrite lookup_insert_ne //.
  destruct (decide (a = a_maxsz)) as [->|H3]; [by rewrite lookup_insert|].
  rewrite lookup_insert_ne //.
  destruct (decide (a = a_oslim)) as [->|H4]; [by rewrite lookup_insert|].
  rewrite lookup_insert_ne //.
  destruct (decide (a = a_fsize)) as [->|H5]; [by rewrite lookup_insert|].
  rewrite lookup_insert_ne //. rewrite hp_of_bytes_lookup.
  destruct (decide (0 <= a)) as [Ha|Ha]; [|done].
  rewrite Z.sub_0_r. destruct (decide (a < mapped s)) as [Hlt|Hge].
  - rewrite read_bytes_spec; [|lia]. do 2 f_equal. lia.
  - apply lookup_ge_None. rewrite read_bytes_length. lia.
Qed.

Lemma repr_wf h s : repr h s → pst_wf s.
Proof. intros [? ? ?]. by split. Qed.
Lemma repr_unique h s : repr h s → h = heap_of s.
Proof.
  intros Hr. apply map_eq. intros a.
  rewrite (repr_heap _ _ Hr) (repr_heap _ _ (heap_of_repr _ (repr_wf _ _ Hr))). done.
Qed.

(** [holds P s]: the state [s] satisfies the heap predicate [P]. *)
Definition holds (P : hPropI) (s : pst) : Prop := pst_wf s ∧ P (heap_of s).

Lemma holds_repr P s : holds P s ↔ ∃ h, repr h s ∧ P h.
Proof.
  split.
  - intros [Hw HP]. exists (heap_of s). split; [by apply heap_of_repr|done].
  - intros (h & Hr & HP). split; [by eapply repr_wf|]. by rewrite -(repr_unique _ _ Hr).
Qed.
Lemma holds_mono P Q s : (P ⊢ Q) → holds P s → holds Q s.
Proof. intros HPQ [? HP]. split; [done|]. rewrite hp_entails in HPQ. auto. Qed.
Lemma holds_pure φ s : holds (⌜φ⌝)%I s → φ.
Proof. intros [_ H]. by apply hp_pure in H. Qed.
Lemma holds_exist {A} (Φ : A → hPropI) s : holds (∃ x, Φ x)%I s ↔ ∃ x, holds (Φ x) s.
Proof.
  split.
  - intros [Hw H]. apply hp_exist in H as [x H]. exists x. by split.
  - intros [x [Hw H]]. split; [done|]. apply hp_exist. eauto.
Qed.
Lemma holds_pure_l φ P s : holds (⌜φ⌝ ∗ P)%I s → φ ∧ holds P s.
Proof.
  intros H. split.
  - apply (holds_pure _ s). eapply holds_mono; [|exact H]. iIntros "[% _]". done.
  - eapply holds_mono; [|exact H]. iIntros "[_ $]".
Qed.

Lemma wpc_adequacy {A} C (p : prog A) Φ Ψ s :
  holds (wpc C p Φ Ψ) s →
  match run p s with
  | Done a s' => holds (Φ a) s'
  | Exn e s' => holds (Ψ e) s'
  | UB | OutOfFuel => False
  end ∧ ∀ s', crash_state p s s' → holds C s'.
Proof.
  intros [Hw H]. rewrite hp_wpc in H.
  destruct (H ∅ s) as [Ho Hc]; [apply map_disjoint_empty_r| |].
  { rewrite right_id_L. by apply heap_of_repr. }
  split.
  - destruct (run p s); try done; destruct Ho as (h' & _ & Hr & HΦ);
      rewrite right_id_L in Hr; apply holds_repr; eauto.
  - intros s' Hs'. destruct (Hc s' Hs') as (h' & _ & Hr & HC).
    rewrite right_id_L in Hr. apply holds_repr; eauto.
Qed.

Lemma holds_pts a bs s :
  holds (pts a bs) s → bs ≠ [] →
  0 <= a ∧ a + Z.of_nat (length bs) <= mapped s ∧ read_bytes s a (length bs) = bs.
Proof.
  intros [Hw H] Hne. eapply (repr_pts_inv (heap_of s) ∅); [done|apply map_disjoint_empty_r| |done].
  rewrite right_id_L. by apply heap_of_repr.
Qed.
Lemma holds_word a v s : holds (word a v) s →
  0 <= a ∧ a + 8 <= mapped s ∧ le_val (read_bytes s a 8) = v.
Proof.
  intros H. assert (is_u64 v) as Hv.
  { apply (holds_pure _ s). eapply holds_mono; [|done]. apply word_u64. }
  assert (holds (pts a (le_bytes 8 v)) s) as Hp.
  { eapply holds_mono; [|done]. iIntros "[$ _]". }
  apply holds_pts in Hp.
  - rewrite le_bytes_length in Hp. destruct Hp as (? & ? & Hp). split_and!; [lia|lia|].
    rewrite Hp. by apply le_val8.
  - intros HH. by apply (f_equal length) in HH; rewrite le_bytes_length in HH.
Qed.

(** ** Read-only programs *)
Local Arguments bind {A B} !p k / : simpl nomatch.
Local Arguments catch {A} !p h / : simpl nomatch.
Fixpoint readonly {A} (p : prog A) : Prop :=
  match p with
  | Ret _ | Throw _ | Undef | NoFuel => True
  | Op e k =>
      match e with
      | ELoad _ _ | EMapped | EEpoch | EMaxSize | EFsize => ∀ v, readonly (k v)
      | EStore _ _ _ | EFtruncate _ | ERemap _ => False
      end
  end.

Lemma readonly_bind {A B} (p : prog A) (k : A → prog B) :
  readonly p → (∀ a, readonly (k a)) → readonly (bind p k).
Proof.
  intros Hp Hk. induction p as [| | | |e c IH]; simpl in *; try done.
  destruct e; try done; intros v; by apply IH.
Qed.
Lemma readonly_catch {A} (p : prog A) (h : exn → prog A) :
  readonly p → (∀ a, readonly (h a)) → readonly (catch p h).
Proof.
  intros Hp Hk. induction p as [| | | |e c IH]; simpl in *; try done.
  destruct e; try done; intros v; by apply IH.
Qed.
Lemma readonly_exec_state {A} e (k : Z → prog A) s v s' :
  readonly (Op e k) → exec e s = Some (v, s') → s' = s ∧ readonly (k v).
Proof.
  simpl. destruct e; simpl; try done; repeat case_match; intros; simplify_eq; auto.
Qed.
Lemma readonly_run {A} (p : prog A) s :
  readonly p →
  match run p s with Done _ s' => s' = s | Exn _ s' => s' = s | _ => True end.
Proof.
  revert s; induction p as [| | | |e c IH]; intros s Hp; try done.
  simpl run. destruct (exec e s) as [[v s']|] eqn:E; [|done].
  destruct (readonly_exec_state _ _ _ _ _ Hp E) as [-> Hk]. by apply IH.
Qed.
Lemma readonly_crash {A} (p : prog A) s s' :
  readonly p → crash_state p s s' → s' = s.
Proof.
  revert s; induction p as [| | | |e c IH]; intros s Hp; simpl.
  1-4: by intros [->|[]].
  intros [->|H]; [done|]. destruct (exec e s) as [[v s1]|] eqn:E; [|done].
  destruct (readonly_exec_state _ _ _ _ _ Hp E) as [-> Hk]. by eapply IH.
Qed.

Lemma wpc_readonly {A} C (p : prog A) Φ Ψ :
  readonly p → C ∧ wp p Φ Ψ ⊢ wpc C p Φ Ψ.
Proof.
  intros Hp. apply hp_entails. intros h Hh. apply hp_and in Hh as [HC Hw].
  apply hp_wpc. rewrite hp_wpc in Hw. intros hf s Hd Hr.
  destruct (Hw hf s Hd Hr) as [Ho _]. split; [done|].
  intros s' Hs'. apply readonly_crash in Hs'; [|done]. subst. eauto.
Qed.
