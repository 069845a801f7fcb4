(** Vocabulary for the statements about walls. *)
From Coq Require Import List ZArith Reals.
From Verif Require Import Vec.
Import ListNotations.
Local Open Scope R_scope.

(** [q] is the mirror image of [p] across the plane through [o] with normal [n]: the
    two differ by a multiple of [n] and their midpoint is in the plane. *)
Definition is_mirror (o n p q : vec) : Prop :=
  length q = length p /\
  (exists k, q = vadd p (vscal k n)) /\
  dot n (vminus (vscal (/ 2) (vadd p q)) o) = 0.

(** Signed height of a point above the plane. *)
Definition height (o n p : vec) : R := dot n (vminus p o).

(** Code of a signed height with margin [eps]. *)
Definition code_of_height (eps h : R) (c : Z) : Prop :=
  (c = 1%Z /\ eps < h) \/ (c = (-1)%Z /\ h < - eps) \/ (c = 0%Z /\ - eps <= h <= eps).

(** Two orthogonal unit vectors in space. *)
Definition orthonormal3 (u v : vec) : Prop :=
  length u = 3%nat /\ length v = 3%nat /\ dot u u = 1 /\ dot v v = 1 /\ dot u v = 0.

(** Newell's area vector of a closed polygon in space: half the sum of the cross
    products of consecutive corners (relative to any reference point), so its length
    is the area and its direction the right-hand normal. *)
Definition cross (a b : vec) : vec :=
  [nth 1 a 0 * nth 2 b 0 - nth 2 a 0 * nth 1 b 0;
   nth 2 a 0 * nth 0 b 0 - nth 0 a 0 * nth 2 b 0;
   nth 0 a 0 * nth 1 b 0 - nth 1 a 0 * nth 0 b 0].
Fixpoint vsum (n : nat) (l : list vec) : vec :=
  match l with [] => repeat 0 n | v :: l' => vadd v (vsum n l') end.

(** What is assumed of the singular value decomposition of a 3 x n matrix given by its
    columns: the leading left singular vectors are orthonormal; if the columns lie in a
    plane through 0 then they are orthogonal to the third one and the third singular
    value vanishes. *)
Definition planar (m : list vec) : Prop :=
  exists nn, length nn = 3%nat /\ 0 < vsq nn /\ forall x, In x m -> dot x nn = 0.
Definition svd_spec (svd : list vec -> vec * vec * R) (m : list vec) : Prop :=
  orthonormal3 (fst (fst (svd m))) (snd (fst (svd m))) /\
  (planar m ->
     snd (svd m) = 0 /\
     forall x, In x m -> dot x (cross (fst (fst (svd m))) (snd (fst (svd m)))) = 0).

(** The matrix decomposed for a list of corners: corners relative to the first one. *)
Definition relative (corners : list vec) : list vec :=
  map (fun c => vminus c (nth 0 corners [])) corners.
