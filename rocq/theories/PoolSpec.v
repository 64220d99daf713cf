(** Vocabulary for the statements about the thread pool (C54). *)
From Coq Require Import List Arith.
From Verif Require Import PoolModel.
Import ListNotations.

(** executions with k steps and j spurious wakeups *)
Inductive run : nat -> nat -> pool -> pool -> Prop :=
| run_refl : forall s, run 0 0 s s
| run_step : forall k j s s1 s2, run k j s s1 -> step s1 s2 -> run (S k) j s s2
| run_spurious : forall k j s s1 s2, run k j s s1 -> spurious s1 s2 -> run k (S j) s s2.
Definition reachable (num : nat) (ts : list nat) (s : pool) : Prop := exists k j, run k j (pool_new num ts) s.
(** the tasks being run *)
Definition running (ws : list worker) : list nat := flat_map (fun w => match w with Running t => [t] | _ => [] end) ws.
