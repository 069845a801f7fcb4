(** /repo/pyroomacoustics/room.py: building rooms from a polygon - from_corners (1209-1314),
    extrude (1316-1462) - the volume (2652-2669) and the shoebox overrides (2929-2952).

    Points of the plane are pairs.  Materials are pairs of coefficient lists that are copied
    to the walls (resampling to octave bands is not modelled).  [np.allclose] is the
    parameter [close].  Only the default extrusion direction [0, 0, 1]. *)
From Coq Require Import List ZArith Lia Reals Lra Bool.
From Verif Require Import Base Vec GeometryModel WallModel.
Import ListNotations.
Local Open Scope R_scope.

(** absorption and scattering coefficients *)
Notation material := (list R * list R)%type (only parsing).

(** room.py:1261-1263: make the polygon counter-clockwise *)
Definition ccw_corners (corners : list (R * R)) : list (R * R) :=
  if Rleb (area_2d_polygon corners) 0 then rev corners else corners.

(** room.py:1253-1301 *)
Definition from_corners (g : vec * vec) (corners : list (R * R)) (materials : list material) : option (list wall) :=
  let n := length corners in
  if (n <? 3)%nat then None else
  let cs := ccw_corners corners in
  if negb (Nat.eqb (length materials) n) then None else
  mapM (fun i => let m := nth i materials ([], []) in
                 make_wall2 g [of2 (nth i cs (0, 0)); of2 (nth ((i + 1) mod n) cs (0, 0))] (fst m) (snd m)) (seq 0 n).

(** room.py:1341-1365: the floor polygon read off the walls *)
Definition floor_corners (close : R * R -> R * R -> bool) (walls : list wall) : option (list (R * R)) :=
  let first w := to2 (nth 0 (w_corners w) []) in
  let second w := to2 (nth 1 (w_corners w) []) in
  let nw := length walls in
  let ordered := forallb (fun i => match nth_error walls i, nth_error walls ((i + 1) mod nw) with
                                   | Some w, Some w' => close (second w) (first w')
                                   | _, _ => true end) (seq 0 nw) in
  if negb ordered then None else
  let fc := map first walls in
  Some (if Rleb (area_2d_polygon fc) 0 then rev fc else fc).

Definition lift (z : R) (p : R * R) : vec := [fst p; snd p; z].
(** room.py:1370-1377 *)
Definition side_corners (fc : list (R * R)) (height : R) (i : nat) : list vec :=
  let a := nth i fc (0, 0) in let b := nth ((i + 1) mod length fc) fc (0, 0) in
  [lift 0 a; lift 0 b; lift height b; lift height a].
(** room.py:1428-1434: the floor is listed clockwise *)
Definition floor3 (fc : list (R * R)) : list vec := rev (map (lift 0) fc).
Definition ceiling3 (fc : list (R * R)) (height : R) : list vec := map (lift height) fc.

(** room.py:1316-1462; the list of walls of the new room: sides, floor, ceiling *)
Definition extrude (eps : R) (svd : list vec -> vec * vec * R) (close : R * R -> R * R -> bool)
    (walls : list wall) (height : R) (floor_mat ceiling_mat : material) : option (list wall) :=
  let* fc := floor_corners close walls in
  let* sides := mapM (fun i => let* w := nth_error walls i in make_wall3 eps svd (side_corners fc height i) (w_abs w) (w_scat w))
                     (seq 0 (length walls)) in
  let* fl := make_wall3 eps svd (floor3 fc) (fst floor_mat) (snd floor_mat) in
  let* ce := make_wall3 eps svd (ceiling3 fc height) (fst ceiling_mat) (snd ceiling_mat) in
  Some (sides ++ [fl; ce]).

(** room.py:2652-2669 *)
Definition get_volume (D : nat) (walls : list wall) : R :=
  Rsum (map (fun w => dot (vnormalized (w_normal w)) (nth 0 (w_corners w) []) * wall_area D w) walls) / 3.

(** room.py:2929-2938 [ShoeBox.get_volume] *)
Definition shoebox_volume (dims : list R) : R := Rprod dims.
(** room.py:2940-2952 [ShoeBox.is_inside]: the second comparison broadcasts. *)
Definition shoebox_is_inside (dims pos : list R) : option bool :=
  if negb (forallb (fun x => Rleb 0 x) pos) then Some false else
  if Nat.eqb (length pos) (length dims) then Some (forallb (fun xd => Rleb (fst xd) (snd xd)) (combine pos dims))
  else match pos with [x] => Some (forallb (fun d => Rleb x d) dims) | _ => None end.
