(** Angles and directions.
    /repo/pyroomacoustics/doa/utils.py: circ_dist 15-28, great_circ_dist 31-60, cart2spher 63-85, spher2cart 88-126,
    polar_distance 129-175, fibonacci_spherical_sampling 178-214.
    /repo/pyroomacoustics/doa/grid.py: GridCircle.__init__ 80-102, GridSphere.__init__ 171-216 (points only).

    Arrays are modelled point by point.  Signed zeros are not modelled (np.arctan2 distinguishes them). *)
From Coq Require Import List ZArith Lia Reals Lra Bool.
From Verif Require Import Base Vec GeometryModel.
Import ListNotations.
Local Open Scope R_scope.

(** np.arctan2 *)
Definition atan2 (y x : R) : R :=
  if Rlt_dec 0 x then atan (y / x)
  else if Rlt_dec x 0 then (if Rle_dec 0 y then atan (y / x) + PI else atan (y / x) - PI)
  else if Rlt_dec 0 y then PI / 2 else if Rlt_dec y 0 then - (PI / 2) else 0.

(** The radius argument is not used. *)
Definition circ_dist (azimuth1 azimuth2 r : R) : R := acos (cos (azimuth1 - azimuth2)).

Definition great_circ_dist (r colatitude1 azimuth1 colatitude2 azimuth2 : R) : R :=
  let d_azimuth := Rabs (azimuth1 - azimuth2) in
  r * atan2 (sqrt ((sin colatitude2 * sin d_azimuth) ^ 2 + (sin colatitude1 * cos colatitude2 - cos colatitude1 * sin colatitude2 * cos d_azimuth) ^ 2))
            (cos colatitude1 * cos colatitude2 + sin colatitude1 * sin colatitude2 * cos d_azimuth).

(** (azimuth, colatitude, r) of a vector [x; y; z] *)
Definition cart2spher (v : list R) : R * R * R :=
  let x := nth 0 v 0 in let y := nth 1 v 0 in let z := nth 2 v 0 in
  (atan2 y x, atan2 (sqrt (x * x + y * y)) z, sqrt (x * x + y * y + z * z)).
Definition radians (d : R) : R := d * PI / 180.
Definition spher2cart (azimuth : R) (colatitude : option R) (r : R) (degrees : bool) : list R :=
  let azimuth := if degrees then radians azimuth else azimuth in
  let colatitude := if degrees then option_map radians colatitude else colatitude in
  let colatitude := match colatitude with Some c => c | None => PI / 2 end in
  [r * cos azimuth * sin colatitude; r * sin azimuth * sin colatitude; r * cos colatitude].

(** [None]: division by zero *)
Definition fibonacci_spherical_sampling (n_points : nat) : option (list (list R)) :=
  if (n_points =? 0)%nat then None else
  let offset := 2 / INR n_points in
  let increment := PI * (3 - sqrt 5) in
  Some (map (fun i => let z := (INR i * offset - 1) + offset / 2 in
    let rho := sqrt (1 - z ^ 2) in
    let phi := INR i * increment in [cos phi * rho; sin phi * rho; z]) (seq 0 n_points)).

(** GridCircle: azimuth and Cartesian coordinates (np.linspace(0, 2 pi, n, endpoint=False)) *)
Definition grid_circle (n_points : nat) : list (R * list R) :=
  map (fun i => let a := INR i * (2 * PI / INR n_points) in (a, [cos a; sin a; 0])) (seq 0 n_points).
(** GridSphere(cartesian_points=...): normalised points with their azimuth and colatitude; [None]: zero vector (NaN) *)
Definition grid_sphere_point (v : list R) : option (list R * (R * R)) :=
  if Req_EM_T (vnorm v) 0 then None else
  let u := map (fun a => a / vnorm v) v in
  let '(az, co, _) := cart2spher u in Some (u, (az, co)).

(** polar_distance; [None] in the matrix is infinity. *)
Definition lt_inf (a b : option R) : bool := match a, b with Some x, Some y => Rltb x y | Some _, None => true | None, _ => false end.
(** np.argmin: the first minimum *)
Definition argmin (f : nat -> option R) (n : nat) : nat := fold_left (fun best i => if lt_inf (f i) (f best) then i else best) (seq 1 (n - 1)) 0%nat.
Definition polar_step (N1 N2 : nat) (M : nat -> nat -> option R) : (nat * nat) * (nat -> nat -> option R) :=
  let col j := argmin (fun i => M i j) N2 in
  let index1 := argmin (fun j => M (col j) j) N1 in
  let index2 := col index1 in
  ((index1, index2), fun i j => if ((i =? index2) || (j =? index1))%nat%bool then None else M i j).
Fixpoint polar_loop (k N1 N2 : nat) (M : nat -> nat -> option R) : list (nat * nat) :=
  match k with O => [] | S k => let '(p, M) := polar_step N1 N2 M in p :: polar_loop k N1 N2 M end.
Definition diffmat (x1 x2 : list R) (i j : nat) : option R := Some (acos (cos (nth j x1 0 - nth i x2 0))).
(** [None]: np.min of an empty array raises *)
Definition polar_distance (x1 x2 : list R) : option (R * list (nat * nat)) :=
  let N1 := length x1 in let N2 := length x2 in let m := Nat.min N1 N2 in
  if (m =? 0)%nat then None
  else if (1 <? m)%nat then
    let index := polar_loop m N1 N2 (diffmat x1 x2) in
    Some (Rsum (map (fun p => acos (cos (nth (fst p) x1 0 - nth (snd p) x2 0))) index) / INR m, index)
  else if (N1 =? 1)%nat then
    let i := argmin (fun i => diffmat x1 x2 i 0) N2 in
    Some (acos (cos (nth 0 x1 0 - nth i x2 0)), [(1%nat, i)])
  else
    let j := argmin (fun j => diffmat x1 x2 0 j) N1 in
    Some (acos (cos (nth j x1 0 - nth 0 x2 0)), [(j, 1%nat)]).
