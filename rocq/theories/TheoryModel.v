(** /repo/pyroomacoustics/room.py:1041-1047 [is_multi_band] and 2683-2714 [rt60_theory].

    The bandwidths of the octave bands, the volume and the speed of sound are arguments. *)
From Coq Require Import List ZArith Lia Reals Lra Bool.
From Verif Require Import Base Vec WallModel ReverbModel.
Import ListNotations.
Local Open Scope R_scope.

(** room.py:1041-1047 *)
Definition is_multi_band (walls : list wall) : bool := fold_left (fun b w => if Nat.ltb 1 (length (w_abs w)) then true else b) walls false.

Inductive formula := Sabine | Eyring.
(** room.py:2712: bw / rt60_fn(...).  A quotient of the formula by zero is infinite in numpy and the
    term is zero. *)
Definition wall_term (f : formula) (bw Sf V a m c : R) : R :=
  let den := match f with Sabine => a * Sf + 4 * m * V | Eyring => Sf * ln (1 - a) + 4 * m * V end in
  if Req_EM_T den 0 then 0 else
  bw / match f with Sabine => rt60_sabine Sf V a m c | Eyring => rt60_eyring Sf V a m c end.
(** room.py:2708-2712: one band; None is the IndexError *)
Definition band_step (D : nat) (f : formula) (walls : list wall) (V c : R) (air : option (list R)) (inv : R) (ib : nat * R) : option R :=
  let (i, bw) := ib in
  let* m := match air with None => Some 0 | Some l => nth_error l i end in
  foldM (fun inv w => let* a := nth_error (w_abs w) i in Some (inv + wall_term f bw (wall_area D w) V a m c)) walls inv.
(** room.py:2692-2714; None is an exception or an infinite time *)
Definition rt60_theory (D : nat) (f : formula) (walls : list wall) (octave_bw : list R) (V c : R) (air : option (list R)) : option R :=
  let bandwidths := if is_multi_band walls then octave_bw else [1] in
  let* inv := foldM (band_step D f walls V c air) (combine (seq 0 (length bandwidths)) bandwidths) 0 in
  if Req_EM_T inv 0 then None else Some (Rsum bandwidths / inv).
