(** Vocabulary for the statements about ray tracing. *)
From Coq Require Import List ZArith Reals.
From Verif Require Import Vec WallModel RayModel.
Import ListNotations.
Local Open Scope R_scope.

(** Convex hull of a set of points. *)
Inductive hull (S : vec -> Prop) : vec -> Prop :=
| hull_pt : forall p, S p -> hull S p
| hull_mix : forall p q t, hull S p -> hull S q -> 0 <= t <= 1 ->
    hull S (vadd (vscal (1 - t) p) (vscal t q)).

(** Point reached after fraction [t] of the segment. *)
Definition along (start end_ : vec) (t : R) : vec :=
  vadd start (vscal t (vminus end_ start)).

(** Membership in the box [-m, size+m] in each coordinate. *)
Definition in_box (m : R) (size p : vec) : Prop :=
  forall i, (i < length size)%nat -> - m <= nth i p 0 <= nth i size 0 + m.

(** Distance from [p] to the face of the box ahead when travelling along axis [i] in
    the direction [dir]. *)
Definition ahead (size p dir : vec) (i : nat) : R :=
  if Rlt_dec (nth i dir 0) 0 then nth i p 0 else nth i size 0 - nth i p 0.

(** Fraction of the hemisphere's solid angle in which a ball of radius [rad] is seen from
    distance [r] (the whole hemisphere from within the ball). *)
Definition cap_fraction (rad r : R) : R :=
  if Rle_dec r rad then 1 else 1 - cos (asin (rad / r)).

(** The corners of a room's walls. *)
Definition is_corner (r : room) (c : vec) : Prop :=
  exists w, In w (r_walls r) /\ In c (w_corners w).

(** All walls carry [n] bands; a shoebox room has one wall per side. *)
Definition room_ok (r : room) (n : nat) : Prop :=
  (r_shoebox r <> None -> length (r_walls r) = (2 * r_dim r)%nat) /\
  forall w, In w (r_walls r) -> length (w_abs w) = n /\ length (w_scat w) = n.

(** Shape of a state: vectors of the right dimension. *)
Definition ray_wf (r : room) (s : ray) : Prop :=
  length (ry_start s) = r_dim r /\ length (ry_dir s) = r_dim r.

(** The random samples and the walls have the room's dimension. *)
Definition rng_wf (r : room) (rng : nat -> wall -> vec) : Prop :=
  forall k w, In w (r_walls r) -> length (rng k w) = r_dim r.
Definition walls_wf (r : room) : Prop :=
  (r_dim r = 2%nat \/ r_dim r = 3%nat) /\
  (forall w, In w (r_walls r) -> length (w_normal w) = r_dim r) /\
  (r_shoebox r <> None -> length (r_walls r) = (2 * r_dim r)%nat).
