(** /repo/pyroomacoustics/doa/utils.py: detect_regular_grid 214-261;
    /repo/pyroomacoustics/directivities/interp.py: calculation_pinv_voronoi_cells 83-123, the weights.

    Exact arithmetic except that the tolerances of numpy.allclose (rtol = 1e-5, atol = 1e-8) are kept.
    Angles are real numbers; [None] is an exception. *)
From Coq Require Import Reals List ZArith Lia Lra Bool.
From Verif Require Import Base.
Import ListNotations.
Local Open Scope R_scope.

(** numpy.unique: sorted, without repetitions *)
Fixpoint insert_u (x : R) (l : list R) : list R :=
  match l with [] => [x] | y :: l' => if Rlt_dec x y then x :: l else if Req_EM_T x y then l else y :: insert_u x l' end.
Definition unique (l : list R) : list R := fold_right insert_u [] l.
(** numpy.diff *)
Fixpoint diffs (l : list R) : list R := match l with a :: ((b :: _) as l') => (b - a) :: diffs l' | _ => [] end.
(** numpy.isclose(a, b) *)
Definition close (a b : R) : bool := if Rle_dec (Rabs (a - b)) (/ 100000000 + / 100000 * Rabs b) then true else false.
(** rows (azimuth, colatitude) in the order of numpy.lexsort: by colatitude, then by azimuth *)
Definition row_le (p q : R * R) : bool := if Rlt_dec (snd p) (snd q) then true else if Req_EM_T (snd p) (snd q) then if Rle_dec (fst p) (fst q) then true else false else false.
Fixpoint insert_row (p : R * R) (l : list (R * R)) : list (R * R) := match l with [] => [p] | q :: l' => if row_le p q then p :: l else q :: insert_row p l' end.
Definition lexsorted (l : list (R * R)) : list (R * R) := fold_right insert_row [] l.
(** 250-251 *)
Definition meshgrid (A C : list R) : list (R * R) := flat_map (fun c => map (fun a => (a, c)) A) C.
Fixpoint all_close (l l' : list (R * R)) : bool :=
  match l, l' with [], [] => true | p :: l, q :: l' => close (fst p) (fst q) && close (snd p) (snd q) && all_close l l' | _, _ => false end.
(** 236-261: the distinct azimuths and colatitudes, or nothing if the points are not a regular grid *)
Definition detect_regular_grid (az col : list R) : option (option (list R * list R)) :=
  if negb (Nat.eqb (length az) (length col)) then Some None else
  let A := unique az in
  let C := unique col in
  if negb (Nat.eqb (length A * length C) (length az)) then Some None else
  match A with
  | [] => None
  | a0 :: _ =>
      if negb (forallb (fun d => close d (2 * PI / INR (length A))) (diffs (A ++ [a0 + 2 * PI]))) then Some None else
      if all_close (lexsorted (meshgrid A C)) (lexsorted (combine az col)) then Some (Some (A, C)) else Some None
  end.

(** interp.py:109-112; the boundaries between the colatitudes of the grid, from pole to pole *)
Fixpoint midpoints (l : list R) : list R := match l with a :: ((b :: _) as l') => ((a + b) / 2) :: midpoints l' | _ => [] end.
Definition borders (cols : list R) : list R := 0 :: midpoints cols ++ [PI].
Definition band_areas (cols : list R) (n_az : nat) : list R := map (fun d => - d * (2 * PI / INR n_az)) (diffs (map cos (borders cols))).
(** 113-118: a dictionary by colatitude; KeyError *)
Fixpoint lookup (x : R) (l : list (R * R)) : option R := match l with [] => None | (k, v) :: l' => if Req_EM_T x k then Some v else lookup x l' end.
Definition grid_weights (col cols : list R) (n_az : nat) : option (list R) :=
  mapM (fun c => let* w := lookup c (combine cols (band_areas cols n_az)) in Some (w / (4 * PI))) col.
