(** /repo/pyroomacoustics/random/distributions.py: UniformSpherical 52-83, UnnormalizedUniformSpherical 86-91,
    PowerSpherical 94-150 (construction and pdf); the parameters that random/spherical.py:93 gives to the beta generator.
    The samples themselves are in RandomModel.

    Exact arithmetic.  [gamma] is scipy.special.gamma.  [None] is an exception or NaN. *)
From Coq Require Import Reals List ZArith Lia Lra Bool.
From Verif Require Import Base Vec.
Import ListNotations.
Local Open Scope R_scope.

Section density.
Variable gamma : R -> R.
(** 61-66 *)
Definition uniform_area (dim : nat) : R := INR dim * Rpower PI (INR dim / 2) / gamma (INR dim / 2 + 1).
(** 72-74, 89-91 *)
Definition uniform_pdf (dim : nat) (x : vec) : R := 1 / uniform_area dim.
Definition unnormalized_pdf (dim : nat) (x : vec) : R := 1 / 1.

(** x ** s for floats: NaN for a negative number and an exponent that is not an integer *)
Definition npow (x s : R) : option R :=
  if Rlt_dec 0 x then Some (Rpower x s)
  else if Req_EM_T x 0 then (if Rlt_dec 0 s then Some 0 else if Req_EM_T s 0 then Some 1 else None)
  else if Req_EM_T (IZR (Int_part s)) s then Some (powerRZ x (Int_part s)) else None.
Record power_dist := { p_loc : vec; p_scale : R; p_zinv : R }.
(** 95-132 *)
Definition make_power (loc : option vec) (scale : option R) : option power_dist :=
  let loc := match loc with None => [1; 0; 0] | Some l => l end in
  let* scale := match scale with None => Some 1 | Some s => if Rlt_dec 0 s then Some s else None end in
  if Rlt_dec (1 / 100000) (Rabs (vnorm loc - 1)) then None else
  let dim := INR (length loc) in
  let a := (dim - 1) / 2 + scale in
  let b := (dim - 1) / 2 in
  Some {| p_loc := loc; p_scale := scale; p_zinv := 1 / (Rpower 2 (a + b) * Rpower PI b * gamma a / gamma (a + b)) |}.
(** 147-151 *)
Definition power_pdf (p : power_dist) (x : vec) : option R :=
  if Nat.eqb (length x) (length (p_loc p)) then let* v := npow (1 + dot x (p_loc p)) (p_scale p) in Some (p_zinv p * v) else None.
(** random/spherical.py:93 *)
Definition beta_parameters (dim : nat) (scale : R) : R * R := ((INR dim - 1) / 2 + scale, (INR dim - 1) / 2).
End density.
