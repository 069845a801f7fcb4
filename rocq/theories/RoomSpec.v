(** What the user of a Room has configured, and the responses they should get. *)
From Coq Require Import List ZArith Reals Bool.
From Verif Require Import Base RoomModel.
Import ListNotations.
Local Open Scope R_scope.

Section RoomSpec.
Context {pos air rtopt image hist : Type}.
Variable bin_size : rtopt -> R.
Variable inside : pos -> bool.
Variable engine_ism : list pos -> pos -> list (image * list bool).
Variable trace : pos -> pos -> R -> rtopt -> R -> bool -> hist.
Variable ism_ir : list image -> pos -> R -> option air -> list R.
Variable rt_ir : hist -> pos -> pos -> R -> R -> option air -> list R.
Variable post : list R -> list R.

(** The configuration, read off the calls the user has made. *)
Record config := { g_c : R; g_air : option air; g_ism : bool; g_rt : option rtopt; g_sources : list pos; g_mics : list pos }.
Definition configure (g : config) (o : @op pos air rtopt) : config :=
  match o with
  | AddSource p => {| g_c := g_c g; g_air := g_air g; g_ism := g_ism g; g_rt := g_rt g; g_sources := g_sources g ++ [p]; g_mics := g_mics g |}
  | AddMics ps => {| g_c := g_c g; g_air := g_air g; g_ism := g_ism g; g_rt := g_rt g; g_sources := g_sources g; g_mics := g_mics g ++ ps |}
  | SetRT x => {| g_c := g_c g; g_air := g_air g; g_ism := g_ism g; g_rt := Some x; g_sources := g_sources g; g_mics := g_mics g |}
  | UnsetRT => {| g_c := g_c g; g_air := g_air g; g_ism := g_ism g; g_rt := None; g_sources := g_sources g; g_mics := g_mics g |}
  | SetAir a => {| g_c := g_c g; g_air := Some a; g_ism := g_ism g; g_rt := g_rt g; g_sources := g_sources g; g_mics := g_mics g |}
  | UnsetAir => {| g_c := g_c g; g_air := None; g_ism := g_ism g; g_rt := g_rt g; g_sources := g_sources g; g_mics := g_mics g |}
  | SetSpeed x => {| g_c := x; g_air := g_air g; g_ism := g_ism g; g_rt := g_rt g; g_sources := g_sources g; g_mics := g_mics g |}
  | Compute | Extrude => g
  end.
Definition config0 (ism : bool) (c0 : R) (air0 : option air) (rt0 : rtopt) (use_rt : bool) : config :=
  {| g_c := c0; g_air := air0; g_ism := ism; g_rt := if use_rt then Some rt0 else None; g_sources := []; g_mics := [] |}.
Definition config_after (g : config) (ops : list op) : config := fold_left configure ops g.

(** The images of source [p] that microphone number [m] sees. *)
Definition seen (g : config) (p : pos) (m : nat) : list image :=
  map fst (filter (fun iv => nth m (snd iv) false) (engine_ism (g_mics g) p)).
Definition expected_ism (g : config) (m : nat) (mic p : pos) : list R := ism_ir (seen g p m) mic (g_c g) (g_air g).
Definition expected_rt (g : config) (o : rtopt) (mic p : pos) : list R :=
  rt_ir (trace p mic (bin_size o * g_c g) o (g_c g) (g_ism g)) p mic (bin_size o) (g_c g) (g_air g).
(** The response from [p] to microphone number [m] at [mic]. *)
Definition expected (g : config) (m : nat) (mic p : pos) : list R :=
  post (match g_ism g, g_rt g with
        | true, Some o => add_parts (expected_ism g m mic p) (expected_rt g o mic p)
        | true, None => expected_ism g m mic p
        | false, Some o => expected_rt g o mic p
        | false, None => []
        end).

(** [r] holds one response per microphone and source, as configured. *)
Definition responses (g : config) (r : list (list (list R))) : Prop :=
  length r = length (g_mics g) /\
  forall m mic, nth_error (g_mics g) m = Some mic ->
    exists row, nth_error r m = Some row /\ length row = length (g_sources g) /\
    forall s p, nth_error (g_sources g) s = Some p -> nth_error row s = Some (expected g m mic p).

(** There is something to simulate: a microphone, at least one simulator on, and - if the
    image source method is used - the microphones are in the room and each sees at least
    one image of each source. *)
Definition computable (g : config) : Prop :=
  g_mics g <> [] /\ (g_ism g = true \/ g_rt g <> None) /\
  (g_ism g = true -> (forall mic, In mic (g_mics g) -> inside mic = true) /\
     forall m p, (m < length (g_mics g))%nat -> In p (g_sources g) -> seen g p m <> []).
End RoomSpec.
