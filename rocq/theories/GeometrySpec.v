(** Independent vocabulary for the statements about planar geometry. *)
From Coq Require Import List ZArith Reals.
From Verif Require Import Vec.
Import ListNotations.
Local Open Scope R_scope.

(** Twice the signed area of the triangle a b c: positive when c is to the left of
    the directed line a -> b. *)
Definition orient (a b c : R * R) : R :=
  (fst b - fst a) * (snd c - snd a) - (fst c - fst a) * (snd b - snd a).

(** Sign of [d] with a dead band of half-width [eps], as a relation. *)
Definition sign_with_margin (eps d : R) (s : Z) : Prop :=
  (s = 1%Z /\ eps <= d /\ 0 < d) \/
  (s = (-1)%Z /\ d <= - eps /\ d <= 0) \/
  (s = 0%Z /\ - eps < d < eps).

(** Point at parameter t of the segment from a to b. *)
Definition seg_at (a b : R * R) (t : R) : R * R :=
  (fst a + t * (fst b - fst a), snd a + t * (snd b - snd a)).

(** Exchanging the roles of the two segments swaps bit 0 and bit 1 of the code. *)
Definition swap_flags (c : Z) : Z :=
  match c with 1%Z => 2%Z | 2%Z => 1%Z | c => c end.

(** Closed polygon: the edges run from every vertex to the next one and from the
    last one back to the first; listed starting with the closing edge. *)
Fixpoint chain {A} (a : A) (l : list A) : list (A * A) :=
  match l with [] => [] | b :: l' => (a, b) :: chain b l' end.
Definition edges {A} (l : list A) : list (A * A) :=
  match l with [] => [] | a :: _ => chain (last l a) l end.

(** Shoelace formula. *)
Definition shoelace (l : list (R * R)) : R :=
  / 2 * fold_right Rplus 0 (map (fun e : (R*R)*(R*R) =>
     fst (fst e) * snd (snd e) - fst (snd e) * snd (fst e)) (edges l)).

(** Convex polygon given counter-clockwise: no vertex is to the right of an edge. *)
Definition convex_ccw (l : list (R * R)) : Prop :=
  forall e v, In e (edges l) -> In v l -> 0 <= orient (fst e) (snd e) v.

(** p lies on the straight segment a b. *)
Definition on_edge (a b p : R * R) : Prop :=
  exists t, 0 <= t <= 1 /\ p = seg_at a b t.
