(** Vocabulary for polygon rooms. *)
From Coq Require Import List ZArith Reals Bool.
From Verif Require Import Base Vec.
Import ListNotations.
Local Open Scope R_scope.

(** The corner after corner [i] of a closed polygon. *)
Definition next_corner (l : list (R * R)) (i : nat) : R * R := nth ((i + 1) mod length l) l (0, 0).
Definition edge_length (a b : R * R) : R := sqrt ((fst b - fst a) * (fst b - fst a) + (snd b - snd a) * (snd b - snd a)).
(** Unit vector to the right of the edge from [a] to [b]. *)
Definition right_of (a b : R * R) : list R :=
  [(snd b - snd a) / edge_length a b; (fst a - fst b) / edge_length a b].
(** No edge of the polygon is degenerate. *)
Definition proper (l : list (R * R)) : Prop := forall i, (i < length l)%nat -> nth i l (0, 0) <> next_corner l i.

(** The faces of the upright prism over polygon [l] of height [h]: one rectangle above each
    edge, the bottom listed backwards, the top. *)
Definition at_height (z : R) (p : R * R) : list R := [fst p; snd p; z].
Definition face (a b : R * R) (h : R) : list (list R) := [at_height 0 a; at_height 0 b; at_height h b; at_height h a].
Definition prism (l : list (R * R)) (h : R) : list (list (list R)) :=
  map (fun i => face (nth i l (0, 0)) (next_corner l i) h) (seq 0 (length l)) ++
  [rev (map (at_height 0) l); map (at_height h) l].
