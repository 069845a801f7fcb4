(** /repo/pyroomacoustics/room.py:2526-2533 [get_bbox] and 2534-2621 [is_inside].

    The numbers of the generator are the argument [draws]: the vector subtracted from the
    reference point in the given round (each entry from 0.015 to 0.85). *)
From Coq Require Import List ZArith Lia Reals Lra Bool.
From Verif Require Import Base Vec GeometryModel WallModel PolyRoomModel.
Import ListNotations.
Local Open Scope R_scope.

(** room.py:2529: the lower end of the bounding box, per coordinate *)
Definition bbox_lower (D : nat) (walls : list wall) : vec :=
  let cs := concat (map w_corners walls) in
  map (fun d => list_min (map (fun c => nth d c 0) cs)) (seq 0 D).

(** room.py:2578-2598: what one pass over the walls finds: ambiguous, on the border, count *)
Record found := { f_ambiguous : bool; f_border : bool; f_count : nat }.
Definition look (f : found) (ret : Z) : found :=
  let endpt := ((0 <? ret)%Z && negb (Z.land ret 1 =? 0)%Z) in
  {| f_ambiguous := f_ambiguous f || (negb endpt && (ret =? 2)%Z);
     f_border := f_border f || endpt;
     f_count := if (0 <=? ret)%Z then S (f_count f) else f_count f |}.
Definition one_pass (D : nat) (eps : R) (walls : list wall) (p0 p : vec) : found :=
  fold_left look (map (fun w => fst (wall_intersection D eps w p0 p)) walls)
    {| f_ambiguous := false; f_border := false; f_count := 0 |}.

(** room.py:2572-2613: [it] rounds are left, [n] is the number of the round *)
Fixpoint inside_loop (D : nat) (eps : R) (walls : list wall) (draws : nat -> vec) (include_borders : bool)
    (it n : nat) (p0 p : vec) : bool :=
  match it with
  | O => false
  | S it' =>
      let p0 := vminus p0 (draws n) in
      let f := one_pass D eps walls p0 p in
      if f_ambiguous f then inside_loop D eps walls draws include_borders it' (S n) p0 p
      else if f_border f then include_borders else Nat.odd (f_count f)
  end.
(** room.py:2549-2551, 2569-2570; None is the ValueError.  [max_iter] is the constant
    room_isinside_max_iter (20). *)
Definition is_inside (D : nat) (eps : R) (max_iter : nat) (walls : list wall) (draws : nat -> vec) (p : vec) (include_borders : bool) : option bool :=
  if negb (Nat.eqb D (length p)) then None else
  Some (inside_loop D eps walls draws include_borders max_iter 0 (bbox_lower D walls) p).
