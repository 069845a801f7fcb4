(** Air absorption of a room.
    /repo/pyroomacoustics/room.py: set_air_absorption 1159-1191, with Physics.get_air_absorption and OctaveBandsFactory.__call__
    (ParamModel).

    Exact arithmetic, linear interpolation (the default).  [centers] are the centres of the bands of the room.  [None] is an
    exception, or NaN.  What the simulation does with the result is in RoomModel. *)
From Coq Require Import List ZArith Lia Reals Lra Bool String.
From Verif Require Import Base Vec ParamModel.
Import ListNotations.
Local Open Scope R_scope.

(** 1182-1191: the new value of self.air_absorption *)
Definition set_air_absorption (centers : vec) (p : physics) (coefficients : option vec) (center_freqs : option vec) : option vec :=
  match coefficients with
  | None => let* r := get_air_absorption p in bank_call centers {| coeffs := fst r; cfreqs := Some (snd r) |}
  | Some ys => bank_call centers {| coeffs := ys; cfreqs := center_freqs |}
  end.
