(** What "inside a polygon" means, independently of the code. *)
From Coq Require Import List Reals Bool.
From Verif Require Import GeometryModel GeometrySpec.
Import ListNotations.
Local Open Scope R_scope.

(** The even-odd rule: the horizontal ray from p to the right meets an odd number of edges
    (an edge includes its lower end but not its upper end). *)
Definition meets_ray (p : R * R) (e : (R * R) * (R * R)) : bool :=
  let (a, b) := e in
  xorb (Rleb (snd a) (snd p)) (Rleb (snd b) (snd p)) &&
  Rltb (fst p) (fst a + (snd p - snd a) / (snd b - snd a) * (fst b - fst a)).
Definition even_odd (l : list (R * R)) (p : R * R) : bool :=
  Nat.odd (length (filter (meets_ray p) (edges l))).

(** Segments that cross: the ends of each lie strictly on different sides of the other. *)
Definition opposite (x y : R) : Prop := x < 0 < y \/ y < 0 < x.
Definition crosses (p q : R * R) (e : (R * R) * (R * R)) : Prop :=
  opposite (orient p q (fst e)) (orient p q (snd e)) /\ opposite (orient (fst e) (snd e) p) (orient (fst e) (snd e) q).

(** The segment from q to p is told apart with the tolerance eps: its line misses the ends of the edge,
    and the edge, if the line meets it, is missed by q and p. *)
Definition clear (eps : R) (q p : R * R) (e : (R * R) * (R * R)) : Prop :=
  eps <= Rabs (orient q p (fst e)) /\ eps <= Rabs (orient q p (snd e)) /\
  (opposite (orient q p (fst e)) (orient q p (snd e)) ->
   eps <= Rabs (orient (fst e) (snd e) q) /\ eps <= Rabs (orient (fst e) (snd e) p)).

(** Strictly convex and counter-clockwise. *)
Definition strictly_convex (l : list (R * R)) : Prop :=
  NoDup l /\ forall e v, In e (edges l) -> In v l -> v <> fst e -> v <> snd e -> 0 < orient (fst e) (snd e) v.
