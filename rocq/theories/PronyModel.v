(** /repo/pyroomacoustics/utilities.py: prony 493-533, shanks 536-577.

    Real signals in exact arithmetic.  np.linalg.lstsq returns a least squares solution of smallest norm
    (is_lstsq of LocModel; the cut-off of small singular values is not modelled), so the two functions are
    relations between arguments and results. *)
From Coq Require Import List ZArith Lia Reals Bool.
From Verif Require Import Base Vec UtilModel LocModel.
Import ListNotations.
Local Open Scope R_scope.

(** l[a:b] for 0 <= a, b *)
Definition slice {A} (a b : nat) (l : list A) : list A := firstn (b - a) (skipn a l).
(** 515-533; no result: NameError *)
Definition prony (x : vec) (p q : nat) (a b : vec) (err : R) : Prop :=
  let nx := length x in
  (p + q < nx)%nat /\ exists X c, convmtx x (p + 1) = Some X /\
  is_lstsq p (map (firstn p) (slice q (nx + p - 1) X)) (map (fun r => nth 0 r 0) (slice (q + 1) (nx + p) X)) c /\
  a = 1 :: map Ropp c /\
  b = map (fun r => dot (firstn (p + 1) r) a) (slice 0 (q + 1) X) /\
  err = dot (slice (q + 1) nx x) (map (fun r => dot (firstn (p + 1) r) a) (slice (q + 1) nx X)).
(** 567-570: scipy.signal.lfilter([1], a, [1, 0, ...]) with a[0] = 1; last output first *)
Fixpoint ar_rev (a : vec) (n : nat) : vec :=
  match n with O => [] | S n' => ((if Nat.eqb n' 0 then 1 else 0) - dot (tl a) (ar_rev a n')) :: ar_rev a n' end.
(** 560-577 *)
Definition shanks (x : vec) (p q : nat) (a b : vec) (err : R) : Prop :=
  let nx := length x in
  (p + q < nx)%nat /\ exists b0 err0 G, prony x p q a b0 err0 /\
  convmtx (rev (ar_rev a nx)) (q + 1) = Some G /\
  is_lstsq (q + 1) (slice 0 nx G) x b /\
  err = dot x x - dot x (map (fun r => dot (firstn (q + 1) r) b) (slice 0 nx G)).
