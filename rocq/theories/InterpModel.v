(** /repo/pyroomacoustics/directivities/interp.py: cal_sph_basis 36-76, _weighted_pinv 79-82,
    calculation_pinv_voronoi_cells 85-123, calculation_pinv_voronoi_cells_general 126-159, spherical_interpolation
    162-246.

    Exact complex arithmetic.  numpy.linalg.pinv and the areas of scipy.spatial.SphericalVoronoi are arguments.  The
    impulse responses are an array of two dimensions, one row per point of the grid (axis=-2, the default).  A grid is the
    list of its (azimuth, colatitude).  [None] is an exception. *)
From Coq Require Import Reals List ZArith Lia Lra Bool.
From Verif Require Import Base Vec Sum Cpx DftModel HarmModel RegridModel.
Import ListNotations.
Local Open Scope R_scope.

(** 36-76: row [i], column [k] *)
Definition cal_sph_basis (grid : list (R * R)) (degree : nat) : nat -> nat -> C :=
  fun i k => let '(az, co) := nth i grid (0, 0) in let '(m, n) := nth k (basis_orders degree) (0%Z, 0%nat) in sph_harm_y n m co az.
(** 79-82: pinv of the matrix of [N] rows and [K] columns, rcond = 1e-2 *)
Definition weighted_pinv (pinv : nat -> nat -> R -> (nat -> nat -> C) -> option (nat -> nat -> C)) (N K : nat) (w : list R) (Y : nat -> nat -> C) : option (nat -> nat -> C) :=
  pinv N K (/ 100) (fun i k => (RtoC (nth i w 0%R) * Y i k)%C).
(** 208-225 (and 103-118, 147-152): the weights *)
Definition cell_weights (voronoi : list (R * R) -> option (list R)) (grid : list (R * R)) : option (list R) :=
  let* regular := detect_regular_grid (map fst grid) (map snd grid) in
  match regular with
  | Some (A, C) => grid_weights (map snd grid) C (length A)
  | None => let* areas := voronoi grid in Some (map (fun a => a / (4 * PI)) areas)
  end.
(** 162-246: the responses at the new points and at the points of the grid *)
Definition spherical_interpolation pinv voronoi (grid : list (R * R)) (ir : list vec) (new_grid : list (R * R)) (order : nat) (nfft : option nat) : option (list vec * list vec) :=
  let n := match nfft with Some n => n | None => length (nth 0 ir []) end in
  if negb (Nat.eqb (length grid) (length ir)) then None else
  let N := length grid in let K := length (basis_orders order) in
  let Y := cal_sph_basis grid order in
  let Y2 := cal_sph_basis new_grid order in
  let* w := cell_weights voronoi grid in
  let* P := weighted_pinv pinv N K w Y in
  if Nat.eqb n 0 then None else
  let tf := map (rfft n) ir in
  let g := fun i f => (RtoC (nth i w 0%R) * nth f (nth i tf []) C0)%C in
  let gamma := fun k f => csum N (fun i => (P k i * g i f)%C) in
  let back := fun (B : nat -> nat -> C) p => irfft n (map (fun f => csum K (fun k => (B p k * gamma k f)%C)) (seq 0 (n / 2 + 1))) in
  Some (map (back Y2) (seq 0 (length new_grid)), map (back Y) (seq 0 N)).
