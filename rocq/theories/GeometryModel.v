(** /repo/pyroomacoustics/libroom_src/geometry.cpp over the reals.
    [eps] is the global [libroom_eps] (libroom.cpp:46, settable by [set_eps]).
    Out-parameters are returned together with the code; when the C++ leaves the
    out-parameter untouched the model returns [None] for it. *)
From Coq Require Import List ZArith Lia Reals Lra Bool.
From Verif Require Import Base Vec.
Import ListNotations.
Local Open Scope R_scope.

Definition Rltb (a b : R) : bool := if Rlt_dec a b then true else false.
Definition Rleb (a b : R) : bool := if Rle_dec a b then true else false.

(** Points of the plane ([Eigen::Vector2f]). *)
Notation pt2 := (R * R)%type (only parsing).
Definition X (p : pt2) : R := fst p.
Definition Y (p : pt2) : R := snd p.

(** geometry.cpp:43-50 [clamp] *)
Definition clamp (value mn mx : R) : R :=
  if Rltb value mn then mn else if Rltb mx value then mx else value.

(** geometry.cpp:53-79 [ccw3p] *)
Definition ccw3p (eps : R) (p1 p2 p3 : pt2) : Z :=
  let d := (X p2 - X p1) * (Y p3 - Y p1) - (X p3 - X p1) * (Y p2 - Y p1) in
  if Rltb d eps && Rltb (- eps) d then 0%Z
  else if Rltb 0 d then 1%Z else (-1)%Z.

(** geometry.cpp:81-113 [check_intersection_2d_segments]; [ret |= 1], [ret |= 2] *)
Definition check_intersection_2d (eps : R) (a1 a2 b1 b2 : pt2) : Z :=
  let a1a2b1 := ccw3p eps a1 a2 b1 in
  let a1a2b2 := ccw3p eps a1 a2 b2 in
  if (a1a2b1 =? a1a2b2)%Z then (-1)%Z else
  let b1b2a1 := ccw3p eps b1 b2 a1 in
  let b1b2a2 := ccw3p eps b1 b2 a2 in
  if (b1b2a1 =? b1b2a2)%Z then (-1)%Z else
  let ret := 0%Z in
  let ret := if ((b1b2a1 =? 0) || (b1b2a2 =? 0))%Z then Z.lor ret 1 else ret in
  let ret := if ((a1a2b1 =? 0) || (a1a2b2 =? 0))%Z then Z.lor ret 2 else ret in
  ret.

(** geometry.cpp:115-172 [intersection_2d_segments] *)
Definition intersection_2d (eps : R) (a1 a2 b1 b2 : pt2) : Z * option pt2 :=
  let ret := check_intersection_2d eps a1 a2 b1 b2 in
  if (ret <? 0)%Z then (ret, None) else
  let nx := Y a1 - Y a2 in
  let ny := X a2 - X a1 in
  let dbx := X b2 - X b1 in
  let dby := Y b2 - Y b1 in
  let denom := nx * dbx + ny * dby in
  if Rltb (Rabs denom) eps then ((-1)%Z, None) else
  let num := nx * (X a1 - X b1) + ny * (Y a1 - Y b1) in
  (ret, Some ((num / denom) * dbx + X b1, (num / denom) * dby + Y b1)).

(** geometry.cpp:174-227 [intersection_3d_segment_plane] *)
Definition intersection_seg_plane (eps : R) (a1 a2 p normal : vec) : Z * option vec :=
  let u := vminus a2 a1 in
  let denom := dot normal u in
  if Rltb eps (Rabs denom) then
    let w := vminus a1 p in
    let num := - dot normal w in
    let s := num / denom in
    if Rleb (0 - eps) s && Rleb s (1 + eps) then
      let x := vadd (vscal s u) a1 in
      if Rltb (Rabs s) eps || Rltb (Rabs (s - 1)) eps then (1%Z, Some x) else (0%Z, Some x)
    else ((-1)%Z, None)
  else ((-1)%Z, None).

(** geometry.cpp:230-234 [cross] *)
Definition cross3 (a b : vec) : vec :=
  match a, b with
  | [a0; a1; a2], [b0; b1; b2] =>
      [a1 * b2 - a2 * b1; a2 * b0 - a0 * b2; a0 * b1 - a1 * b0]
  | _, _ => []
  end.

(** geometry.cpp:236-246 [on_segment] *)
Definition on_segment (c1 c2 p : pt2) : bool :=
  Rleb (Rmin (X c1) (X c2)) (X p) && Rleb (X p) (Rmax (X c1) (X c2)) &&
  Rleb (Rmin (Y c1) (Y c2)) (Y p) && Rleb (Y p) (Rmax (Y c1) (Y c2)).

(** geometry.cpp:248-268 [is_left] *)
Definition is_left (eps : R) (P0 P1 P2 : pt2) : Z :=
  let t := (X P1 - X P0) * (Y P2 - Y P0) - (X P2 - X P0) * (Y P1 - Y P0) in
  if Rltb (Rabs t) eps then 0%Z else if Rltb 0 t then 1%Z else (-1)%Z.

(** geometry.cpp:298-316: one pass through the loop body for the edge from [cj] to
    [ci]; [None] stands for the [return 1] on the boundary. *)
Definition winding_step (eps : R) (p : pt2) (wn : Z) (cj ci : pt2) : option Z :=
  if (ccw3p eps cj ci p =? 0)%Z && on_segment cj ci p then None
  else Some
    (if Rleb (Y cj) (Y p) then
       if Rltb (Y p) (Y ci) then
         if (0 <? is_left eps cj ci p)%Z then (wn + 1)%Z else wn
       else wn
     else
       if Rleb (Y ci) (Y p) then
         if (is_left eps cj ci p <? 0)%Z then (wn - 1)%Z else wn
       else wn).

(** geometry.cpp:298: [for (i = 0, j = n-1; i < n; j = i++)]; [j] is carried along. *)
Fixpoint winding_loop (eps : R) (p : pt2) (j : pt2) (l : list pt2) (wn : Z) : option Z :=
  match l with
  | [] => Some wn
  | i :: l' => let* wn' := winding_step eps p wn j i in winding_loop eps p i l' wn'
  end.

(** geometry.cpp:270-322 [is_inside_2d_polygon] *)
Definition is_inside_2d_polygon (eps : R) (p : pt2) (corners : list pt2) : Z :=
  match winding_loop eps p (last corners (0, 0)) corners 0%Z with
  | None => 1%Z
  | Some wn => if (wn =? 0)%Z then (-1)%Z else 0%Z
  end.

(** geometry.cpp:324-344 [area_2d_polygon] *)
Definition area_2d_polygon (corners : list pt2) : R :=
  fold_left (fun a c1 =>
    let c2 := if Nat.eqb c1 (length corners - 1) then 0%nat else S c1 in
    let q1 := nth c1 corners (0, 0) in
    let q2 := nth c2 corners (0, 0) in
    let base := 0.5 * (Y q2 + Y q1) in
    let height := X q2 - X q1 in
    a - height * base) (seq 0 (length corners)) 0.

(** geometry.cpp:347-361 [cos_angle_between] *)
Definition cos_angle_between (v1 v2 : vec) : R :=
  clamp (dot (vnormalized v1) (vnormalized v2)) (-1) 1.

(** geometry.cpp:364-386 [dist_line_point] *)
Definition dist_line_point (start end_ point : vec) : R :=
  let unit_vec := vnormalized (vminus end_ start) in
  let v := vminus point start in
  let proj := dot v unit_vec in
  vnorm (vminus v (vscal proj unit_vec)).
