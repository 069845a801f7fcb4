(** Independent specification of the image source model of a box: lattice points,
    words of mirrors, folding.  Nothing here refers to the model's functions. *)
From Coq Require Import List ZArith Lia Reals Lra.
From Verif Require Import Base.
Import ListNotations.

(** L1 norm of a lattice point given by its list of coordinates. *)
Definition l1 (p : list Z) : Z := fold_right (fun x s => (Z.abs x + s)%Z) 0%Z p.

(** The two walls of an axis, at 0 and at [L]. *)
Inductive wallside := Near | Far.

(** Mirror image of coordinate [x] across the wall. *)
Definition mirror (L : R) (w : wallside) (x : R) : R :=
  match w with Near => (- x)%R | Far => (2 * L - x)%R end.

(** Mirror successively across the walls of the word, first letter first. *)
Definition mirrors (L : R) (word : list wallside) (x : R) : R :=
  fold_left (fun y w => mirror L w y) word x.

Definition other (w : wallside) : wallside := match w with Near => Far | Far => Near end.

(** The alternating word of length [n] whose last letter is [w]. *)
Fixpoint alt_word (n : nat) (w : wallside) : list wallside :=
  match n with O => [] | S m => alt_word m (other w) ++ [w] end.

(** The word of walls belonging to reflection index [i]: |i| alternating mirrors,
    the last one across the far wall for i > 0 and across the near wall for i < 0. *)
Definition axis_word (i : Z) : list wallside :=
  alt_word (Z.abs_nat i) (if (0 <=? i)%Z then Far else Near).

(** Number of the column of the absorption table of a wall of axis [d]
    (west/east, south/north, floor/ceiling). *)
Definition wall_column (d : nat) (w : wallside) : nat :=
  match w with Near => 2 * d | Far => 2 * d + 1 end.

(** Amplitude after the reflections of all axes: the product over every letter of
    every word of the amplitude factor [t column] of that wall. *)
Definition word_gain (t : nat -> R) (d : nat) (word : list wallside) : R :=
  Rprod (map (fun w => t (wall_column d w)) word).
Definition path_gain (t : nat -> R) (p : list Z) : R :=
  Rprod (map (fun dp => word_gain t (fst dp) (axis_word (snd dp)))
             (combine (seq 0 (length p)) p)).

(** Vectors. *)
Definition vsub (a b : list R) : list R := map (fun ab => (fst ab - snd ab)%R) (combine a b).
Definition sqnorm (v : list R) : R := Rsum (map (fun x => (x * x)%R) v).
(** [u] is the unit vector in the direction of [v] (the zero vector for [v] = 0). *)
Definition is_direction_of (u v : list R) : Prop :=
  (sqnorm v = 0%R /\ u = v) \/
  (sqnorm v <> 0%R /\ sqnorm u = 1%R /\
   exists k, (0 < k)%R /\ v = map (fun x => (k * x)%R) u).

(** Unfolded picture: the translates of the near wall are the planes [k*L] with [k]
    even, those of the far wall the planes with [k] odd.  The straight segment from
    [m] to [x] crosses plane [k]. *)
Definition crosses (L m x : R) (k : Z) : Prop :=
  (m < IZR k * L < x)%R \/ (x < IZR k * L < m)%R.
