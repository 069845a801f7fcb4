(** /repo/pyroomacoustics/bss/common.py: projection_back 29-84.  Exact complex arithmetic.
    Arrays are functions of their indices: [Y t f k] is frame [t], bin [f], channel [k];
    there are [n] frames. *)
From Coq Require Import List ZArith Lia Reals Lra Bool.
From Verif Require Import Base Vec Sum Cpx.
Import ListNotations.
Local Open Scope R_scope.

(** numpy.abs of a complex number *)
Definition Cabs (z : C) : R := sqrt (Cabs2 z).

(** common.py:70-75 for one bin and one channel: [y t] and the reference [x t] *)
Definition back_gain (n : nat) (y x : nat -> C) : C :=
  let num := csum n (fun t => (Conj (x t) * y t)%C) in
  let denom := bsum n (fun t => Cabs (y t) ^ 2) in
  if Rlt_dec 0 denom then Cscal (/ denom) num else C1.
(** common.py:77-79 *)
Definition clip_above (clip_up : option R) (c : C) : C :=
  match clip_up with
  | None => c
  | Some u => if Rlt_dec u (Cabs c) then if Rlt_dec 0 (Cabs c) then Cscal (u / Cabs c) c else c else c
  end.
(** common.py:81-83 *)
Definition clip_below (clip_down : option R) (c : C) : C :=
  match clip_down with
  | None => c
  | Some l => if Rlt_dec (Cabs c) l then if Rlt_dec 0 (Cabs c) then Cscal (l / Cabs c) c else c else c
  end.
(** common.py:29-84; the result has one gain per bin and channel *)
Definition projection_back (n : nat) (Y : nat -> nat -> nat -> C) (ref : nat -> nat -> C) (clip_up clip_down : option R) (f k : nat) : C :=
  clip_below clip_down (clip_above clip_up (back_gain n (fun t => Y t f k) (fun t => ref t f))).
