(** /repo/pyroomacoustics/libroom_src/wall.cpp and wall.hpp, for any dimension.

    Simplifications: [float] is [R]; Eigen vectors are lists; the name string is left
    out.  The SVD used by the 3D constructor is an argument (the two leading left
    singular vectors and the smallest singular value). *)
From Coq Require Import List ZArith Lia Reals Lra Bool.
From Verif Require Import Base Vec GeometryModel.
Import ListNotations.
Local Open Scope R_scope.

(** wall.hpp:56-74: the members of [Wall<D>].  [w_basis] is only set in 3D. *)
Record wall := {
  w_corners : list vec;
  w_origin : vec;
  w_normal : vec;
  w_basis : vec * vec;
  w_flat : list (R * R);
  w_abs : list R;
  w_scat : list R;
}.

(** Eigen [maxCoeff]/[minCoeff] of a non-empty array. *)
Definition list_max (l : list R) : R := fold_left Rmax (tl l) (hd 0 l).
Definition list_min (l : list R) : R := fold_left Rmin (tl l) (hd 0 l).
(** Eigen [mean()]. *)
Definition list_mean (l : list R) : R := Rsum l / INR (length l).

(** wall.cpp:53-67 [init]: quantities derived from the coefficients. *)
Definition energy_reflection (w : wall) : list R := map (fun a => 1 - a) (w_abs w).
Definition transmission (w : wall) : list R := map sqrt (energy_reflection w).
Definition average_scatter (w : wall) : R := list_mean (w_scat w).
Definition does_scatter (w : wall) : bool := Rltb 0 (list_max (w_scat w)).

(** Conversions between lists and points of the plane. *)
Definition to2 (v : vec) : R * R := (nth 0 v 0, nth 1 v 0).
Definition of2 (p : R * R) : vec := [fst p; snd p].

(** wall.cpp:74-92 the 2D constructor.  [init] throws when the numbers of coefficients
    differ (wall.cpp:68-71).  The member [basis] is not assigned in 2D: whatever the
    memory contained is the argument [garbage]. *)
Definition make_wall2 (garbage : vec * vec) (corners : list vec) (a s : list R) : option wall :=
  if negb (Nat.eqb (length a) (length s)) then None else
  let c0 := nth 0 corners [] in
  let c1 := nth 1 corners [] in
  let n := [nth 1 c1 0 - nth 1 c0 0; nth 0 c0 0 - nth 0 c1 0] in
  Some {| w_corners := corners; w_origin := c0; w_normal := vnormalized n;
          w_basis := garbage; w_flat := []; w_abs := a; w_scat := s |}.

(** [basis.adjoint() * (x - origin)] *)
Definition project (b : vec * vec) (origin x : vec) : R * R :=
  (dot (fst b) (vminus x origin), dot (snd b) (vminus x origin)).

(** wall.cpp:94-144 the 3D constructor; [svd] returns the two leading left singular
    vectors and the third singular value of [corners.colwise() - origin]. *)
Definition make_wall3 (eps : R) (svd : list vec -> vec * vec * R)
    (corners : list vec) (a s : list R) : option wall :=
  if negb (Nat.eqb (length a) (length s)) then None else
  let origin := nth 0 corners [] in
  let '(u0, u1, sv2) := svd (map (fun c => vminus c origin) corners) in
  if Rltb eps sv2 then None else
  let flat := map (project (u0, u1) origin) corners in
  let swap := Rltb (area_2d_polygon flat) 0 in
  let basis := if swap then (u1, u0) else (u0, u1) in
  let flat' := if swap then map (fun p => (snd p, fst p)) flat else flat in
  Some {| w_corners := corners; w_origin := origin;
          w_normal := cross3 (fst basis) (snd basis);
          w_basis := basis; w_flat := flat'; w_abs := a; w_scat := s |}.

(** wall.cpp:35-51 [area] *)
Definition wall_area (D : nat) (w : wall) : R :=
  if Nat.eqb D 2 then vnorm (vminus (nth 1 (w_corners w) []) (nth 0 (w_corners w) []))
  else area_2d_polygon (w_flat w).

(** wall.cpp:146-211 [intersection]; WALL_ISECT_* codes of wall.hpp:35-39.  When the
    code is -1 no caller reads the point, the model then returns [None]. *)
Definition wall_intersection (D : nat) (eps : R) (w : wall) (p1 p2 : vec) : Z * option vec :=
  if Nat.eqb D 2 then
    let r := intersection_2d eps (to2 p1) (to2 p2)
               (to2 (nth 0 (w_corners w) [])) (to2 (nth 1 (w_corners w) [])) in
    (fst r, option_map of2 (snd r))
  else
    match intersection_seg_plane eps p1 p2 (w_origin w) (w_normal w) with
    | (r1, Some x) =>
        let ret := if (r1 =? 1)%Z then 1%Z else 0%Z in
        let r2 := is_inside_2d_polygon eps (project (w_basis w) (w_origin w) x) (w_flat w) in
        if (r2 <? 0)%Z then ((-1)%Z, None)
        else if (r2 =? 1)%Z then (Z.lor ret 2, Some x) else (ret, Some x)
    | (_, None) => ((-1)%Z, None)
    end.

(** wall.cpp:220-248 [reflect] *)
Definition reflect (eps : R) (w : wall) (p : vec) : Z * vec :=
  let d := dot (w_normal w) (vminus (w_origin w) p) in
  let q := vadd p (vscal (2 * d) (w_normal w)) in
  (if Rltb eps d then 1%Z else if Rltb d (- eps) then (-1)%Z else 0%Z, q).

(** wall.cpp:252-264 [side] *)
Definition side (eps : R) (w : wall) (p : vec) : Z :=
  let ip := dot (vminus p (w_origin w)) (w_normal w) in
  if Rltb eps ip then 1%Z else if Rltb ip (- eps) then (-1)%Z else 0%Z.

(** wall.cpp:319-326 [normal_reflect] of a direction *)
Definition normal_reflect (w : wall) (incident : vec) : vec :=
  vminus incident (vscal (2 * dot incident (w_normal w)) (w_normal w)).

(** wall.cpp:290-317 [normal_reflect] of a point at a hit point *)
Definition normal_reflect_at (w : wall) (start hit_point : vec) (len : R) : vec :=
  let incident := vnormalized (vminus hit_point start) in
  vadd hit_point (vscal len (vminus incident (vscal (2 * dot incident (w_normal w)) (w_normal w)))).

(** wall.cpp:328-338 [cosine_angle] *)
Definition cosine_angle (w : wall) (p : vec) : R := dot p (w_normal w) / vnorm p.

(** wall.cpp:341-359 [sample_lambertian_reflection]; [u1], [u2] are the two uniform
    draws. *)
Definition sample_lambertian (w : wall) (u1 u2 : R) : vec :=
  let r := sqrt u1 in
  let phi := 2 * PI * u2 in
  let x_l := r * cos phi in
  let y_l := r * sin phi in
  let z_l := sqrt (Rmax 0 (1 - u1)) in
  vadd (vadd (vscal x_l (fst (w_basis w))) (vscal y_l (snd (w_basis w)))) (vscal z_l (w_normal w)).

(** wall.cpp:266-288 [same_as]: the element-wise sum of absolute corner differences. *)
Definition same_as (w1 w2 : wall) : bool :=
  Nat.eqb (length (w_corners w1)) (length (w_corners w2)) &&
  (if Req_EM_T (Rsum (map (fun c => Rsum (map Rabs (vminus (fst c) (snd c))))
                          (combine (w_corners w1) (w_corners w2)))) 0 then true else false).

(** room.cpp:107-126 [make_shoebox_walls] in 2D; [col k] is a column of the (bands x 4)
    coefficient arrays. *)
Definition make_shoebox_walls2 (g : vec * vec) (rx ry : R) (abs scat : nat -> list R)
    : option (list wall) :=
  let* south := make_wall2 g [[0; 0]; [rx; 0]] (abs 2%nat) (scat 2%nat) in
  let* east := make_wall2 g [[rx; 0]; [rx; ry]] (abs 1%nat) (scat 1%nat) in
  let* north := make_wall2 g [[rx; ry]; [0; ry]] (abs 3%nat) (scat 3%nat) in
  let* west := make_wall2 g [[0; ry]; [0; 0]] (abs 0%nat) (scat 0%nat) in
  Some [south; east; north; west].

(** room.cpp:128-156 [make_shoebox_walls] in 3D: the corner lists. *)
Definition shoebox_corners3 (rx ry rz : R) : list (list vec) :=
  [ [[0; ry; 0]; [0; 0; 0]; [0; 0; rz]; [0; ry; rz]];
    [[rx; 0; 0]; [rx; ry; 0]; [rx; ry; rz]; [rx; 0; rz]];
    [[0; 0; 0]; [rx; 0; 0]; [rx; 0; rz]; [0; 0; rz]];
    [[rx; ry; 0]; [0; ry; 0]; [0; ry; rz]; [rx; ry; rz]];
    [[rx; 0; 0]; [0; 0; 0]; [0; ry; 0]; [rx; ry; 0]];
    [[rx; 0; rz]; [rx; ry; rz]; [0; ry; rz]; [0; 0; rz]] ].
Definition make_shoebox_walls3 (eps : R) (svd : list vec -> vec * vec * R) (rx ry rz : R)
    (abs scat : nat -> list R) : option (list wall) :=
  mapM (fun k => make_wall3 eps svd (nth k (shoebox_corners3 rx ry rz) []) (abs k) (scat k))
       (seq 0 6).

(** room.cpp:916-930: direction of the ray after a bounce; [lamb] is the sampled
    Lambertian vector. *)
Definition bounce_dir (w : wall) (dir lamb : vec) : vec :=
  let dir := normal_reflect w dir in
  if does_scatter w then
    let scat_dir := vscal (-1) lamb in
    vnormalized (vadd (vscal (average_scatter w) scat_dir) (vscal (1 - average_scatter w) dir))
  else dir.
