(** /repo/pyroomacoustics/acoustics.py 968-975 (mel scale) and 1070-1181 (reverberation time
    formulas), over real numbers. *)
From Coq Require Import List ZArith Lia Reals.
From Verif Require Import Base Vec.
Import ListNotations.
Local Open Scope R_scope.

(** acoustics.py:968-975 *)
Definition melscale (f : R) : R := 1125 * ln (1 + f / 700).
Definition invmelscale (b : R) : R := 700 * (exp (b / 1125) - 1).

(** math.ceil *)
Definition ceil (x : R) : Z := (- Int_part (- x))%Z.
(** itertools.combinations(l, 2) *)
Fixpoint pairs (l : vec) : list (R * R) := match l with [] => [] | a :: t => map (fun b => (a, b)) t ++ pairs t end.
(** np.min of a non-empty list *)
Definition Rmin_list (l : vec) : R := match l with [] => 0 | a :: t => fold_right Rmin a t end.
(** acoustics.py:1070-1129; [None]: ValueError (absorption above 1), or neither two nor three sides *)
Definition inverse_sabine (rt60 : R) (room_dim : vec) (c : R) : option (R * Z) :=
  let radii := map (fun '(l1, l2) => l1 * l2 / sqrt (l1 * l1 + l2 * l2)) (pairs room_dim) in
  let V := Rprod room_dim in
  let* p := match length room_dim with
    | 2%nat => Some (2 * Rsum room_dim, 12)
    | 3%nat => Some (2 * Rsum (map (fun '(l1, l2) => l1 * l2) (pairs room_dim)), 24)
    | _ => None
    end in
  let '(Sf, sab_coef) := p in
  let e_absorption := sab_coef * ln 10 * V / (c * Sf * rt60) in
  if Rlt_dec 1 e_absorption then None else
  Some (e_absorption, ceil (c * rt60 / Rmin_list radii - 1)).
(** acoustics.py:1132-1155 *)
Definition rt60_eyring (Sf V a m c : R) : R := - (24 * ln 10 / c) * V / (Sf * ln (1 - a) + 4 * m * V).
(** acoustics.py:1158-1181 *)
Definition rt60_sabine (Sf V a m c : R) : R := (24 * ln 10 / c) * V / (a * Sf + 4 * m * V).
