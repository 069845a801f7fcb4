(** /repo/pyroomacoustics/room.py:744-793 find_non_convex_walls.  A wall is the list of its corners; scipy's ConvexHull is the argument
    [hull], from the points to the corners of its facets ([None]: it raises).  Exact arithmetic. *)
From Coq Require Import Reals List ZArith Lia Lra Bool.
From Verif Require Import Base Vec GeometryModel.
Import ListNotations.
Local Open Scope R_scope.

(** 759-762: the corners of all walls but the first *)
Definition all_corners (walls : list (list vec)) : list vec := concat (tl walls).
(** 771 np.mean over the corners *)
Definition centroid (dim : nat) (w : list vec) : vec := map (fun d => Rsum (map (fun c => nth d c 0) w) / INR (length w)) (seq 0 dim).
Definition to2 (p : vec) : pt2 := (nth 0 p 0, nth 1 p 0).
(** 774-791: [lib_eps] is the tolerance of libroom (libroom.cpp:46), [eps] that of parameters.py:146 *)
Definition on_facet (lib_eps eps : R) (pts : list vec) (point : vec) (simplex : list nat) : bool :=
  let p k := nth (nth k simplex 0%nat) pts [] in
  match length point with
  | 2%nat => (ccw3p lib_eps (to2 (p 0%nat)) (to2 (p 1%nat)) (to2 point) =? 0)%Z
  | 3%nat => Rltb (Rabs (dot (cross3 (vminus (p 1%nat) (p 0%nat)) (vminus (p 2%nat) (p 0%nat))) (vminus point (p 0%nat)))) eps
  | _ => false
  end.
(** 744-793 *)
Definition find_non_convex_walls (hull : list vec -> option (list (list nat))) (lib_eps eps : R) (dim : nat) (walls : list (list vec)) : option (list nat) :=
  let X := all_corners walls in
  match X with
  | [] => None
  | _ =>
    let* simplices := hull X in
    let in_convex_hull := map (fun w => existsb (on_facet lib_eps eps X (centroid dim w)) simplices) walls in
    Some (filter (fun i => negb (nth i in_convex_hull false)) (seq 0 (length walls)))
  end.
