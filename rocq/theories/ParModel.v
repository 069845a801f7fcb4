(** Concurrent tasks working on one shared array, as in
    /repo/pyroomacoustics/libroom_src/rir_builder.cpp:98-150 (and 215-252, 313-343).

    A task handed to the thread pool is the list of its accesses to the shared output
    array: [Add i d] stands for [out[i] += d] (a load followed by a store, between which
    other tasks may run), [Put i v] for [out[i] = v].  A schedule picks at every step any
    task that is not finished.  An access outside the array has no step: the execution
    is stuck there. *)
From Coq Require Import List ZArith Reals.
From Verif Require Import Base.
Import ListNotations.
Local Open Scope R_scope.

Inductive act := Add (i : nat) (d : R) | Put (i : nat) (v : R).
Definition cell (a : act) : nat := match a with Add i _ => i | Put i _ => i end.

(** What is left to do, and the loaded value when a task is between load and store. *)
Record task := { t_todo : list act; t_reg : option R }.
Definition start (p : list act) : task := {| t_todo := p; t_reg := None |}.

Record shared := { s_buf : list R; s_tasks : list task }.

Inductive pstep : shared -> shared -> Prop :=
| p_load : forall buf ts t i d rest v ts',
    nth_error ts t = Some {| t_todo := Add i d :: rest; t_reg := None |} ->
    nth_error buf i = Some v ->
    store ts t {| t_todo := Add i d :: rest; t_reg := Some v |} = Some ts' ->
    pstep {| s_buf := buf; s_tasks := ts |} {| s_buf := buf; s_tasks := ts' |}
| p_store : forall buf ts t i d rest v buf' ts',
    nth_error ts t = Some {| t_todo := Add i d :: rest; t_reg := Some v |} ->
    store buf i (v + d) = Some buf' ->
    store ts t {| t_todo := rest; t_reg := None |} = Some ts' ->
    pstep {| s_buf := buf; s_tasks := ts |} {| s_buf := buf'; s_tasks := ts' |}
| p_put : forall buf ts t i v rest buf' ts',
    nth_error ts t = Some {| t_todo := Put i v :: rest; t_reg := None |} ->
    store buf i v = Some buf' ->
    store ts t {| t_todo := rest; t_reg := None |} = Some ts' ->
    pstep {| s_buf := buf; s_tasks := ts |} {| s_buf := buf'; s_tasks := ts' |}.

Inductive psteps : shared -> shared -> Prop :=
| ps_refl : forall s, psteps s s
| ps_step : forall s s' s'', psteps s s' -> pstep s' s'' -> psteps s s''.

Definition finished (s : shared) : Prop := forall t, In t (s_tasks s) -> t_todo t = [].

(** Some complete execution of the tasks [ps] on [buf] ends with [buf']. *)
Definition executes (buf : list R) (ps : list (list act)) (buf' : list R) : Prop :=
  exists s, psteps {| s_buf := buf; s_tasks := map start ps |} s /\ finished s /\ s_buf s = buf'.
(** Some execution reaches [s]. *)
Definition reaches (buf : list R) (ps : list (list act)) (s : shared) : Prop :=
  psteps {| s_buf := buf; s_tasks := map start ps |} s.
