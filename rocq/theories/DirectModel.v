(* Directivities.  Source: /repo/pyroomacoustics/directivities/direction.py lines
   93-231 (rotations) and directivities/analytic.py lines 77-244 (CardioidFamily)
   and 429-557 (cardioid_func, cardioid_energy, CardioidEnergyDistribution). *)
From Coq Require Import Reals List ZArith String Bool Lia Lra.
From Verif Require Import Base Vec GeometryModel SphereModel ArrayModel.
Import ListNotations.
Local Open Scope R_scope.

(* ------------------------------------------------------------------ *)
(* Rotations; matrices are lists of rows. *)
(* direction.py:93-125 *)
Definition make_rot_matrix (a : R) (axis : nat) : option (list (list R)) :=
  match axis with
  | 2%nat => Some [[cos a; - sin a; 0]; [sin a; cos a; 0]; [0; 0; 1]]
  | 1%nat => Some [[cos a; 0; sin a]; [0; 1; 0]; [- sin a; 0; cos a]]
  | 0%nat => Some [[1; 0; 0]; [0; cos a; - sin a]; [0; sin a; cos a]]
  | _ => None
  end.
(* line 128 *)
Inductive axis := Letter (s : string) | Number (z : Z).
Definition axis_map (x : axis) : option nat :=
  match x with
  | Letter s => if string_dec s "x"%string then Some 0%nat else if string_dec s "y"%string then Some 1%nat
                else if string_dec s "z"%string then Some 2%nat else None
  | Number z => if Z.eq_dec z 0 then Some 0%nat else if Z.eq_dec z 1 then Some 1%nat
                else if Z.eq_dec z 2 then Some 2%nat else None
  end.
Definition column (m : list (list R)) (j : nat) : list R := map (fun r => nth j r 0) m.
Definition transpose3 (m : list (list R)) : list (list R) := [column m 0; column m 1; column m 2].
Definition matmul3 (a b : list (list R)) : list (list R) := map (fun r => map (fun c => dot r c) (transpose3 b)) a.
Definition eye3 : list (list R) := [[1; 0; 0]; [0; 1; 0]; [0; 0; 1]].
(* lines 166-205 *)
Fixpoint compute_matrix (l : list (R * nat)) (mat : list (list R)) : option (list (list R)) :=
  match l with
  | [] => Some mat
  | (a, x) :: r => let* m := make_rot_matrix a x in compute_matrix r (matmul3 m mat)
  end.
Definition rotation3d (angles : list R) (rot_order : list axis) (degrees : bool) : option (list (list R)) :=
  if Nat.leb (List.length angles) 3 then
    let angles := if degrees then map radians angles else angles in
    let* order := mapM axis_map rot_order in
    if Nat.eqb (List.length angles) (List.length order) then compute_matrix (combine angles order) eye3 else None
  else None.
(* lines 207-231, one point; numpy raises for another dimension *)
Definition rotate (m : list (list R)) (p : list R) : option (list R) :=
  if Nat.eqb (List.length p) 3 then Some (map (fun r => dot r p) m) else None.
Definition rotate_transpose (m : list (list R)) (p : list R) : option (list R) := rotate (transpose3 m) p.

(* ------------------------------------------------------------------ *)
(* CardioidFamily; c_loc is the location kept by the energy distribution. *)
Record cardioid := { c_dir : list R; c_p : R; c_gain : R; c_loc : list R }.
(* The orientation: a list or array, or a DirectionVector (given by its unit
   vector). *)
Inductive orientation := Array (v : list R) | Direction (u : list R).
(* analytic.py:107-119; None: ValueError, or NaN for the zero vector *)
Definition orient (o : orientation) : option (list R) :=
  match o with
  | Array v =>
      if Nat.eqb (List.length v) 3 then
        if Req_EM_T (vnorm v) 0 then None
        else let '(az, co, _) := cart2spher (vscal (/ vnorm v) v) in direction_vector az (Some co) false
      else None
  | Direction u => Some u
  end.
(* lines 107-133; the test of the norm made by the energy distribution (515-520) *)
Definition make_cardioid (o : orientation) (p gain : R) : option cardioid :=
  let* d := orient o in
  if Rle_dec 0 p then if Rle_dec p 1 then
    if Rle_dec (Rabs (vnorm d - 1)) (1 / 100000) then Some {| c_dir := d; c_p := p; c_gain := gain; c_loc := d |} else None
  else None else None.
(* lines 157-167 *)
Definition set_orientation (c : cardioid) (u : list R) : cardioid :=
  {| c_dir := u; c_p := c_p c; c_gain := c_gain c; c_loc := c_loc c |}.
(* lines 169-179: the magnitude argument is never looked at, the code after the
   first return is dead *)
Definition response_vector (c : cardioid) (v : list R) (magnitude : bool) : R :=
  c_gain c * (c_p c + (1 - c_p c) * dot (c_dir c) v).
(* lines 181-200; rows of directions; None: 0/0 *)
Definition get_response_cartesian (c : cardioid) (directions : list (list R)) (magnitude : bool) : option (list R) :=
  if Req_EM_T (c_p c) 1 then Some (map (fun _ => c_gain c) directions)
  else let* d := mapM (fun v => if Req_EM_T (vnorm v) 0 then None else Some (vscal (/ vnorm v) v)) directions in
       Some (map (fun v => response_vector c v magnitude) d).
(* lines 202-234; None: failed assertion *)
Definition get_response (c : cardioid) (azimuth : list R) (colatitude : option (list R)) (magnitude degrees : bool) : option (list R) :=
  if match colatitude with Some co => Nat.eqb (List.length azimuth) (List.length co) | None => true end then
    if Req_EM_T (c_p c) 1 then Some (map (fun _ => c_gain c) azimuth)
    else Some (map (fun i => response_vector c
                 (spher2cart (nth i azimuth 0) (option_map (fun co => nth i co 0) colatitude) 1 degrees) magnitude)
               (seq 0 (List.length azimuth)))
  else None.
(* lines 429-466, one point; returns also the arrays as left by the in-place
   normalisation *)
Definition cardioid_func (x direction : list R) (p gain : R) (normalize magnitude : bool) : option (R * (list R * list R)) :=
  if Rle_dec 0 p then if Rle_dec p 1 then
    let* xd := (if normalize then
                  if Req_EM_T (vnorm x) 0 then None else if Req_EM_T (vnorm direction) 0 then None
                  else Some (vscal (/ vnorm x) x, vscal (/ vnorm direction) direction)
                else Some (x, direction)) in
    let resp := gain * (p + (1 - p) * dot (snd xd) (fst xd)) in
    Some (if magnitude then Rabs resp else resp, xd)
  else None else None.
(* lines 469-488 *)
Definition cardioid_energy (p gain : R) : R := gain ^ 2 * (4 * PI / 3) * (4 * p ^ 2 - 2 * p + 1).
(* lines 538-554 *)
Definition unnormalized_pdf (c : cardioid) (x : list R) : R :=
  match cardioid_func x (c_loc c) (c_p c) (c_gain c) false true with Some (r, _) => r ^ 2 | None => 0 end.
Definition pdf (c : cardioid) (x : list R) : R := unnormalized_pdf c x / cardioid_energy (c_p c) (c_gain c).
(* lines 236-248; the rays drawn by the energy distribution are an argument *)
Definition sample_rays (c : cardioid) (n_rays : nat) (drawn : option (list (list R))) : option (list (list R) * list R) :=
  match drawn with
  | None => let* rays := fibonacci_spherical_sampling n_rays in
            Some (rays, map (fun v => (response_vector c v false) ^ 2) rays)
  | Some rays => Some (rays, repeat (cardioid_energy (c_p c) (c_gain c) / (4 * PI)) n_rays)
  end.
