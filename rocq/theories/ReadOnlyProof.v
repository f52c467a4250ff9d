(** * Functions that only take the lock for reading: proof. *)
From Verif Require Export ReadOnlySpec ConcProof.
From Verif Require Import LogAllocModel.
From iris.prelude Require Import options.
Open Scope Z_scope.

Lemma ro_run {A} (p : prog A) s : read_only p →
  match run p s with
  | Done _ s' | Exn _ s' => mem s' = mem s ∧ fsize s' = fsize s
  | UB | OutOfFuel => True
  end.
Proof.
  intros H. revert s. induction H as [a|e| | |e k Hr Hk IH]; intros s; cbn [run]; try done.
  destruct (exec e s) as [[v s1]|] eqn:E; [|done]. destruct (exec_reads _ _ _ _ Hr E) as [E1 E2].
  specialize (IH v s1). destruct (run (k v) s1); try done; by rewrite -E1 -E2.
Qed.
Lemma ro_crash {A} (p : prog A) s s' : read_only p → crash_state p s s' → mem s' = mem s ∧ fsize s' = fsize s.
Proof.
  intros H. revert s. induction H as [a|e| | |e k Hr Hk IH]; intros s; cbn [crash_state]; intros [->|Hc]; try done.
  destruct (exec e s) as [[v s1]|] eqn:E; [|done]. destruct (exec_reads _ _ _ _ Hr E) as [E1 E2].
  destruct (IH v s1 Hc) as [H1 H2]. by rewrite H1 H2 E1 E2.
Qed.
Lemma ro_writes_nothing {A} (p : prog A) : read_only p → writes_nothing p.
Proof.
  intros Hp W i. assert (read_only (sa_lock ;; p)%prog) as H.
  { apply ro_bind; [|intros; exact Hp]. unfold sa_lock. apply ro_bind; [|intros]; apply ro_check_size. }
  split.
  - unfold run_by. destruct (w_procs W !! i) as [pr|] eqn:Hi; [|done]. pose proof (ro_run _ (view W pr) H) as Hr.
    destruct (run _ _); try done; destruct Hr as [E1 E2];
      (split; [exact E1|split; [exact E2|split; [done|]]]; intros j Hj; cbn [leave w_procs]; by rewrite lookup_insert_ne).
  - intros W' (pr & s & Hi & Hc & ->). destruct (ro_crash _ _ _ H Hc) as [E1 E2].
    split; [exact E1|split; [exact E2|split; [done|]]]. intros j Hj. cbn [die w_procs]. by rewrite lookup_delete_ne.
Qed.

Section reads.
  Context {hash : HashFn}.
  Context (al : allocator) (Hal : ∀ o, read_only (al_block_size al o)) (F : nat).
  Set Default Proof Using "All".
  Lemma ro_h_chain G cur : read_only (h_read_chain al G cur).
  Proof. revert cur. induction G as [|G IH]; intros cur; cbn [h_read_chain]; unfold h_read_pair; ro. Qed.
  Lemma ro_h_slot_contents base i : read_only (h_slot_contents al F base i).
  Proof. unfold h_slot_contents, h_read_pair. ro; apply ro_h_chain. Qed.
  Lemma ro_h_advance G base it : read_only (h_advance al F G base it).
  Proof.
    revert it. induction G as [|G IH]; intros it; cbn [h_advance]; unfold h_bits; ro.
    all: try apply ro_h_slot_contents.
  Qed.
  Lemma ro_h_iterate base : read_only (h_iterate al F base).
  Proof.
    unfold h_iterate. apply ro_bind.
    { unfold h_begin, h_bits. ro; [apply ro_h_slot_contents|apply ro_h_advance]. }
    enough (∀ G it, read_only (h_iterate_from al F G base it)) as H by (intros; apply H).
    induction G as [|G IH]; intros it; cbn [h_iterate_from]; unfold h_is_end, h_next, h_bits; ro.
    apply ro_h_advance.
  Qed.
  Lemma ro_t_iterate base : read_only (t_iterate al F base).
  Proof.
    unfold t_iterate. generalize (@None (list Z)).
    enough (∀ G cur, read_only (t_iterate_from al F G base cur)) as H by (intros; apply H).
    induction G as [|G IH]; intros cur; cbn [t_iterate_from]; [constructor|]. apply ro_bind.
    - apply ro_catch; [apply ro_bind; [by apply ro_t_next|intros; constructor]|]. intros e. apply ro_if; constructor.
    - intros [[k v]|]; [|constructor]. apply ro_bind; [apply IH|intros; constructor].
  Qed.
  Lemma readers (Hb : read_only (al_get_base al)) (Ha : read_only (al_bytes_allocated al)) : readers_write_nothing al F.
  Proof.
    split; [|split; [|split; [|split; [|split]]]].
    - intros o x Hw. apply ro_writes_nothing.
      assert (x = HItems ∨ x = OTree TItems ∨ x ≠ HItems ∧ x ≠ OTree TItems) as [->|[->|[H1 H2]]].
      { destruct x as [| | | | | | | | | | | | | | | | | | | | |[]]; try (right; right; split; discriminate); auto. }
      + cbn [op_prog]. apply ro_bind; [apply ro_h_iterate|intros; constructor].
      + cbn [op_prog tree_prog]. apply ro_bind; [|intros; constructor]. apply ro_bind; [apply ro_t_iterate|intros; constructor].
      + by apply ro_op_prog.
    - intros o. apply ro_writes_nothing. unfold h_bits. ro.
    - intros o i. apply ro_writes_nothing, ro_h_slot_contents.
    - intros o. by apply ro_writes_nothing.
    - by apply ro_writes_nothing.
    - by apply ro_writes_nothing.
  Qed.
End reads.

(** LogarithmicAllocator::verify(). *)
Lemma ro_size_for_order order : read_only (size_for_order order).
Proof. unfold size_for_order. ro. Qed.
Lemma ro_boundary o order : read_only (next_order_boundary o order).
Proof. unfold next_order_boundary. apply ro_bind; [apply ro_size_for_order|intros; ro]. Qed.
Lemma ro_verify_blocks F o ba bc : read_only (la_verify_blocks F o ba bc).
Proof.
  revert o ba bc. induction F as [|G IH]; intros o ba bc; cbn [la_verify_blocks]; ro.
  all: first [apply ro_size_for_order|apply ro_boundary].
Qed.
Lemma ro_verify_list F order o p : read_only (la_verify_list F order o p).
Proof. revert o p. induction F as [|G IH]; intros o p; cbn [la_verify_list]; ro. Qed.
Lemma ro_verify_lists F n order : read_only (la_verify_lists F n order).
Proof. revert order. induction n as [|n IH]; intros order; cbn [la_verify_lists]; ro. apply ro_verify_list. Qed.
Lemma ro_la_verify F : read_only (la_verify F).
Proof.
  unfold la_verify. apply ro_bind; [apply ro_verify_blocks|]. intros [ba bc]. ro. apply ro_verify_lists.
Qed.
