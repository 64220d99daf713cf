(** Property C54.  Vocabulary in PoolSpec.v, model in PoolModel.v. *)
From Coq Require Import List Arith Lia Permutation.
From Verif Require Import PoolModel PoolSpec Pool_proofs.
Import ListNotations.

(** tasks are started in the order of the pushes *)
Theorem C54_fifo : forall num ts s, reachable num ts s -> exists rest, ts = started s ++ rest.
Proof. exact fifo. Qed.
Print Assumptions C54_fifo.
(** a started task has ended or is being run, by one worker *)
Theorem C54_once : forall num ts s, reachable num ts s -> Permutation (started s) (ended s ++ running (workers s)).
Proof. exact once. Qed.
Print Assumptions C54_once.
(** with at least one worker, when Stop has returned every task has been run once, to its end.  Missing for the claim: a pool
    without workers *)
Theorem C54_stop_partial : forall num ts s, reachable num ts s -> num <> 0 -> own s = Done ->
  started s = ts /\ Permutation (ended s) ts /\ queue s = [] /\ forall w, In w (workers s) -> w = Exited.
Proof. exact all_done. Qed.
Print Assumptions C54_stop_partial.
(** no wakeup is lost: until Stop has returned there is a step, other than a spurious wakeup *)
Theorem C54_no_deadlock : forall num ts s, reachable num ts s -> own s <> Done -> exists s', step s s'.
Proof. exact no_deadlock. Qed.
Print Assumptions C54_no_deadlock.
(** every execution ends: the number of steps is bounded, whatever the schedule *)
Theorem C54_ends : forall num ts k j s, run k j (pool_new num ts) s -> k <= 11 * num + 6 * length ts + 3 + j.
Proof. exact run_bound. Qed.
Print Assumptions C54_ends.

(** *** no workers (hardware_concurrency, the default, may be 0): Stop returns and no task was run *)
Theorem C54_refuted : exists s, reachable 0 [7] s /\ own s = Done /\ started s = [] /\ ended s = [].
Proof.
  exists (mkPool [] [] Done [] []). split; [|auto]. exists 4, 0. unfold pool_new. cbn [repeat].
  eapply run_step; [|apply step_joined; intros w []].
  eapply run_step; [|apply step_stop; apply notify_none; intros []].
  eapply run_step; [|apply step_notify; apply notify_none; intros []].
  eapply run_step; [apply run_refl|]. apply step_push.
Qed.
Print Assumptions C54_refuted.

(** *** two workers, one task: an execution with a blocked worker and a spurious wakeup *)
Example C54_example : exists s, reachable 2 [7] s /\ own s = Done /\ ended s = [7].
Proof.
  exists (mkPool [] [Exited; Exited] Done [7] [7]). split; [|auto]. exists 13, 1. unfold pool_new. cbn [repeat].
  eapply run_step; [|apply (step_joined [None]); intros w [<-|[<-|[]]]; auto].
  eapply run_step; [|apply (step_exit [] [Exited] []); apply notify_none; cbn; intuition discriminate].
  eapply run_step; [|apply (step_take_stop [] [Exited] [])].
  eapply run_step; [|apply (step_exit [] [] [Idle]); apply notify_none; cbn; intuition discriminate].
  eapply run_step; [|apply (step_take_stop [] [] [Idle])].
  eapply run_step; [|apply (step_end 7 [None] [] [Idle] Joining [7] [])].
  eapply run_step; [|apply (step_stop [] [Running 7; Asleep]); apply (notify_wakes [Running 7] [])].
  eapply run_step; [|apply (step_sleep [Running 7] [])].
  eapply run_step; [|apply (step_take 7 [] [] [Idle] (Pushing []) [] [])].
  eapply run_step; [|apply (step_notify [Some 7] [Idle; Asleep]); apply (notify_wakes [Idle] [])].
  eapply run_step; [|apply (step_push [])].
  eapply run_spurious; [|apply (spurious_wake [] [] [Asleep])].
  eapply run_step; [|apply (step_sleep [Asleep] [])].
  eapply run_step; [apply run_refl|]. apply (step_sleep [] [Idle]).
Qed.
