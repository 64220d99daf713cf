(** Model of the thread pool, examples/mtest/main.cpp 22-99: its workers, the thread that owns it, and the condition variable.
    A step is one critical section or one action outside of it.  A task is a number; it ends and throws nothing (a packaged_task
    keeps exceptions for its future).  The owner pushes a list of tasks and stops the pool; the workers start before that
    (constructor, 28-48).  Output is left out. *)
From Coq Require Import List Arith.
Import ListNotations.

(** 27: a worker: about to take the lock (33), blocked in wait (34), running a task (45), about to push the stop task again
    (42), returned (43) *)
Inductive worker := Idle | Asleep | Running (t : nat) | Stopping | Exited.
(** the owner: still to push, pushed but not yet notified (81, outside the lock), joining (58-62), returned from Stop *)
Inductive owner := Pushing (ts : list nat) | Notifying (ts : list nat) | Joining | Done.
(** 96: tasks_, an empty function is None.  The two logs record the tasks in the order of their start and end. *)
Record pool := mkPool { queue : list (option nat); workers : list worker; own : owner; started : list nat; ended : list nat }.

(** 28-48: the constructor with num workers, 54: before the first Push *)
Definition pool_new (num : nat) (ts : list nat) : pool := mkPool [] (repeat Idle num) (Pushing ts) [] [].

(** notify_one: one blocked worker, any of them, goes on; nothing happens if none is blocked *)
Inductive notify : list worker -> list worker -> Prop :=
| notify_wakes : forall l1 l2, notify (l1 ++ Asleep :: l2) (l1 ++ Idle :: l2)
| notify_none : forall l, ~ In Asleep l -> notify l l.

(** all steps but the spurious wakeups *)
Inductive step : pool -> pool -> Prop :=
(** 34-36: the predicate is false: the lock is released and the worker blocks *)
| step_sleep : forall l1 l2 o st en, step (mkPool [] (l1 ++ Idle :: l2) o st en) (mkPool [] (l1 ++ Asleep :: l2) o st en)
(** 37-38: the front is taken *)
| step_take : forall t q l1 l2 o st en,
    step (mkPool (Some t :: q) (l1 ++ Idle :: l2) o st en) (mkPool q (l1 ++ Running t :: l2) o (st ++ [t]) en)
| step_take_stop : forall q l1 l2 o st en,
    step (mkPool (None :: q) (l1 ++ Idle :: l2) o st en) (mkPool q (l1 ++ Stopping :: l2) o st en)
(** 45 *)
| step_end : forall t q l1 l2 o st en,
    step (mkPool q (l1 ++ Running t :: l2) o st en) (mkPool q (l1 ++ Idle :: l2) o st (en ++ [t]))
(** 42-43, 88-92 *)
| step_exit : forall q l1 l2 l o st en, notify (l1 ++ Exited :: l2) l ->
    step (mkPool q (l1 ++ Stopping :: l2) o st en) (mkPool (q ++ [None]) l o st en)
(** 75-80 *)
| step_push : forall q ws t ts st en, step (mkPool q ws (Pushing (t :: ts)) st en) (mkPool (q ++ [Some t]) ws (Notifying ts) st en)
(** 81 *)
| step_notify : forall q ws ws' ts st en, notify ws ws' -> step (mkPool q ws (Notifying ts) st en) (mkPool q ws' (Pushing ts) st en)
(** 57, 88-92 *)
| step_stop : forall q ws ws' st en, notify ws ws' -> step (mkPool q ws (Pushing []) st en) (mkPool (q ++ [None]) ws' Joining st en)
(** 58-66: all workers have returned; the queue is emptied *)
| step_joined : forall q ws st en, (forall w, In w ws -> w = Exited) -> step (mkPool q ws Joining st en) (mkPool [] ws Done st en).
(** wait may return without a notification (34); the predicate is then checked again *)
Inductive spurious : pool -> pool -> Prop :=
| spurious_wake : forall q l1 l2 o st en, spurious (mkPool q (l1 ++ Asleep :: l2) o st en) (mkPool q (l1 ++ Idle :: l2) o st en).
