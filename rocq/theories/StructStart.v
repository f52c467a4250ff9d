(** * The start of histories, and concrete histories. *)
From Verif Require Export StructMain.
From iris.proofmode Require Import tactics.
From iris.prelude Require Import options.
Open Scope Z_scope.

Lemma simple_limits_ok F HF : limits_ok (simple_spec F HF) simple_limits.
Proof.
  split; simpl; unfold request_ok; simpl; try lia.
Qed.

Lemma started_GInv {hash : HashFn} lim W F HF : started lim W false → initialized W →
  GInv (simple_spec F HF) (GS W ∅ 0 true).
Proof.
  intros Hs Hi. apply started_inv in Hs as [Hok [[H _]|[_ H]]]; [done|].
  split; [by split|]. split; [done|]. exists [], [], []. split; [done|]. split; [done|].
  eapply file_holds_mono; [|exact H]. intros m. unfold pool_is, reps, raws. simpl. iIntros "H".
  iSplitL; [|done]. iExists []. iFrame. simpl. done.
Qed.

(** The examples use the hash function of the code. *)
#[local] Existing Instance fnv1a64.

(** Four operations on a queue, two on a priority queue, by two processes. *)
Definition ex_al : allocator := simple_allocator 10.
Definition ex_do {A} (W : world) (i : nat) (p : prog A) : wres A := run_by W i (sa_lock ;; p)%prog.
Definition ex_S1 := the_world (ex_do ex_world 0 (create_prog ex_al KQueue)).
Definition ex_S2 := the_world (ex_do ex_S1 1 (create_prog ex_al KPrio)).
Definition ex_S3 := the_world (ex_do ex_S2 1 (op_prog ex_al 10 344 (QPush false [1; 2; 3]))).
Definition ex_S4 := the_world (ex_do ex_S3 0 (op_prog ex_al 10 416 (PPush [7; 7]))).
Definition ex_S5 := the_world (ex_do ex_S4 0 (op_prog ex_al 10 416 (PPush [7]))).
Definition ex_S6 := the_world (ex_do ex_S5 1 (op_prog ex_al 10 344 (QPush true (repeat 9 5000)))).
Lemma ex_struct_history : ∃ W1 W2 W3 W4 W5 W6 W7 W8,
  ex_do ex_world 0 (create_prog ex_al KQueue) = WDone 344 W1 ∧
  ex_do W1 1 (create_prog ex_al KPrio) = WDone 416 W2 ∧
  ex_do W2 1 (op_prog ex_al 10 344 (QPush false [1; 2; 3])) = WDone RUnit W3 ∧
  ex_do W3 0 (op_prog ex_al 10 416 (PPush [7; 7])) = WDone RUnit W4 ∧
  ex_do W4 0 (op_prog ex_al 10 416 (PPush [7])) = WDone RUnit W5 ∧
  ex_do W5 1 (op_prog ex_al 10 344 (QPush true (repeat 9 5000))) = WDone RUnit W6 ∧
  w_size W5 = 4096 ∧ w_size W6 = 8192 ∧
  ex_do W6 0 (op_prog ex_al 10 344 (QPop false)) = WDone (RBytes [1; 2; 3]) W7 ∧
  ex_do W6 0 (op_prog ex_al 10 416 PPop) = WDone (RBytes [7]) W8.
Proof.
  exists ex_S1, ex_S2, ex_S3, ex_S4, ex_S5, ex_S6,
    (the_world (ex_do ex_S6 0 (op_prog ex_al 10 344 (QPop false)))),
    (the_world (ex_do ex_S6 0 (op_prog ex_al 10 416 PPop))).
  splits; first [wd|vm_compute; reflexivity].
Qed.

(** A crash inside push_back. *)
Definition ex_crash_push : world := die_at ex_S1 0 30 (sa_lock ;; q_push ex_al 344 false [5; 6])%prog.
Lemma ex_queue_crash : ∃ W W1 Wc Wa Wb Wd o,
  started ex_lim W false ∧ initialized W ∧
  run_by W 0 (sa_lock ;; create_prog ex_al KQueue)%prog = WDone o W1 ∧
  dies_in W1 0 (sa_lock ;; q_push ex_al o false [5; 6])%prog Wc ∧
  run_by Wc 1 (under_lock true (sa_repair 10) (q_pop ex_al o true)) = WDone [5; 6] Wa ∧
  run_by Wc 1 (under_lock true (sa_repair 10) (q_pop ex_al o false)) = WExn OutOfRange Wb ∧
  run_by Wc 1 (under_lock true (sa_repair 10) (q_size o)) = WDone 0 Wd.
Proof.
  exists ex_world, ex_S1, ex_crash_push,
    (the_world (run_by ex_crash_push 1 (under_lock true (sa_repair 10) (q_pop ex_al 344 true)))),
    (the_world (run_by ex_crash_push 1 (under_lock true (sa_repair 10) (q_pop ex_al 344 false)))),
    (the_world (run_by ex_crash_push 1 (under_lock true (sa_repair 10) (q_size 344)))), 344.
  destruct ex_world_ok as (H1 & H2 & _).
  splits; [exact H1|exact H2|unfold ex_S1, ex_do; wd| | | |wd].
  - unfold ex_crash_push. refine (die_at_ok ex_S1 0 30 _ _). vm_compute; eauto.
  - wd.
  - match goal with |- ?r = WExn ?e _ =>
      assert (match r with WExn e' _ => Some e' | _ => None end = Some e) as H by (vm_compute; reflexivity);
      revert H; destruct r; intros H; try discriminate H; injection H as ->; reflexivity end.
Qed.
