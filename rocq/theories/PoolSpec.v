(** What is expected of a thread pool. *)
From Coq Require Import List Arith Bool Permutation.
From Verif Require Import Base PoolModel.
Import ListNotations.

Definition reachable (threads : nat) (p : pool) : Prop := steps (new_pool threads) p.

Definition running (p : pool) : list nat :=
  flat_map (fun w => match w with Running id => [id] | _ => [] end) (ws p).

(** A sequence of steps taken by workers only. *)
Inductive worker_steps : nat -> pool -> pool -> Prop :=
| ws_nil : forall p, worker_steps 0 p p
| ws_cons : forall n p p' p'' i, step (Worker i) p p' -> worker_steps n p' p'' -> worker_steps (S n) p p''.
