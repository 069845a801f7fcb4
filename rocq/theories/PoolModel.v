(** /repo/pyroomacoustics/libroom_src/threadpool.hpp as a transition system.

    Every section of the code that holds [queue_mutex] is one step; the calls to
    [notify_one] and [notify_all], made after the mutex has been released, are steps of
    their own.  [condition.wait] puts a worker to sleep in the step in which its predicate
    was false (the mutex is released atomically) and a sleeping worker is woken by a
    notification or spuriously.  Tasks are identified by numbers; that a task returns
    (std::packaged_task captures exceptions) is assumed.  The thread that owns the pool
    may call [enqueue] at any time before the destructor is finished. *)
From Coq Require Import List Arith Bool.
From Verif Require Import Base.
Import ListNotations.

(** What a worker is doing: about to take the mutex and test the predicate (line 68),
    sleeping in wait (69-70), running a task (77), or returned (72). *)
Inductive worker := Ready | Asleep | Running (task : nat) | Exited.

(** Progress of the destructor (lines 109-118). *)
Inductive dtor := NotStarted | StopSet | Notified | Returned.

Record pool := {
  q : list nat;            (* tasks, front first *)
  stop : bool;
  ws : list worker;
  pending : nat;           (* enqueue calls that have pushed but not yet notified *)
  ds : dtor;
  (* history *)
  accepted : list nat;     (* tasks pushed, in order *)
  rejected : list nat;     (* enqueue threw *)
  started : list nat;      (* tasks popped, in order *)
  done : list nat;         (* tasks that have returned, in order *)
}.

(** threadpool.hpp:56-81 *)
Definition new_pool (threads : nat) : pool :=
  {| q := []; stop := false; ws := repeat Ready threads; pending := 0; ds := NotStarted;
     accepted := []; rejected := []; started := []; done := [] |}.

Definition wake (w : worker) : worker := match w with Asleep => Ready | _ => w end.

Inductive who := Client | Worker (w : nat).

Inductive step : who -> pool -> pool -> Prop :=
(** 95-105: push under the mutex *)
| enq : forall p id, stop p = false -> ds p <> Returned ->
    step Client p {| q := q p ++ [id]; stop := stop p; ws := ws p; pending := S (pending p); ds := ds p;
      accepted := accepted p ++ [id]; rejected := rejected p; started := started p; done := done p |}
(** 99-100: throw *)
| enq_throw : forall p id, stop p = true -> ds p <> Returned ->
    step Client p {| q := q p; stop := stop p; ws := ws p; pending := pending p; ds := ds p;
      accepted := accepted p; rejected := rejected p ++ [id]; started := started p; done := done p |}
(** 106: notify_one wakes one sleeping worker, if there is one *)
| notify_one : forall p n i ws', pending p = S n -> nth_error (ws p) i = Some Asleep -> store (ws p) i Ready = Some ws' ->
    step Client p {| q := q p; stop := stop p; ws := ws'; pending := n; ds := ds p;
      accepted := accepted p; rejected := rejected p; started := started p; done := done p |}
| notify_none : forall p n, pending p = S n -> ~ In Asleep (ws p) ->
    step Client p {| q := q p; stop := stop p; ws := ws p; pending := n; ds := ds p;
      accepted := accepted p; rejected := rejected p; started := started p; done := done p |}
(** 68-74: the predicate holds and there is a task *)
| take : forall p i id rest ws', nth_error (ws p) i = Some Ready -> q p = id :: rest -> store (ws p) i (Running id) = Some ws' ->
    step (Worker i) p {| q := rest; stop := stop p; ws := ws'; pending := pending p; ds := ds p;
      accepted := accepted p; rejected := rejected p; started := started p ++ [id]; done := done p |}
(** 71-72: stop and no task *)
| leave : forall p i ws', nth_error (ws p) i = Some Ready -> q p = [] -> stop p = true -> store (ws p) i Exited = Some ws' ->
    step (Worker i) p {| q := q p; stop := stop p; ws := ws'; pending := pending p; ds := ds p;
      accepted := accepted p; rejected := rejected p; started := started p; done := done p |}
(** 69-70: the predicate is false *)
| sleep : forall p i ws', nth_error (ws p) i = Some Ready -> q p = [] -> stop p = false -> store (ws p) i Asleep = Some ws' ->
    step (Worker i) p {| q := q p; stop := stop p; ws := ws'; pending := pending p; ds := ds p;
      accepted := accepted p; rejected := rejected p; started := started p; done := done p |}
(** spurious wakeup *)
| spurious : forall p i ws', nth_error (ws p) i = Some Asleep -> store (ws p) i Ready = Some ws' ->
    step (Worker i) p {| q := q p; stop := stop p; ws := ws'; pending := pending p; ds := ds p;
      accepted := accepted p; rejected := rejected p; started := started p; done := done p |}
(** 77: the task returns *)
| finish : forall p i id ws', nth_error (ws p) i = Some (Running id) -> store (ws p) i Ready = Some ws' ->
    step (Worker i) p {| q := q p; stop := stop p; ws := ws'; pending := pending p; ds := ds p;
      accepted := accepted p; rejected := rejected p; started := started p; done := done p ++ [id] |}
(** 111-114 *)
| set_stop : forall p, ds p = NotStarted ->
    step Client p {| q := q p; stop := true; ws := ws p; pending := pending p; ds := StopSet;
      accepted := accepted p; rejected := rejected p; started := started p; done := done p |}
(** 115 *)
| notify_all : forall p, ds p = StopSet ->
    step Client p {| q := q p; stop := stop p; ws := map wake (ws p); pending := pending p; ds := Notified;
      accepted := accepted p; rejected := rejected p; started := started p; done := done p |}
(** 116-117: all joins have returned *)
| joined : forall p, ds p = Notified -> (forall w, In w (ws p) -> w = Exited) ->
    step Client p {| q := q p; stop := stop p; ws := ws p; pending := pending p; ds := Returned;
      accepted := accepted p; rejected := rejected p; started := started p; done := done p |}.

Inductive steps : pool -> pool -> Prop :=
| s_refl : forall p, steps p p
| s_step : forall p p' p'' a, steps p p' -> step a p' p'' -> steps p p''.
