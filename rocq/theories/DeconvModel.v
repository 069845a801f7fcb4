(** /repo/pyroomacoustics/experimental/deconvolution.py: wiener_deconvolve 55-121.

    Exact arithmetic, so the casts to float32 do nothing.  numpy.linalg.lstsq is a relation: any weights with the smallest residual.
    The base of the grid is positive.
    [None]: an exception, or NaN in the result. *)
From Coq Require Import List ZArith Lia Reals Lra Bool.
From Verif Require Import Base Vec Sum Cpx DftModel AuxivaModel LocModel.
Import ListNotations.
Local Open Scope R_scope.

(** squared numpy.linalg.norm *)
Definition norm2 (Z : list C) : R := Rsum (map Cabs2 Z).
(** 105-107: numpy.linspace(-P / 2, P, P) as exponents *)
Definition divider (base : R) (P j : nat) : R :=
  let a := - INR P / 2 in let b := INR P in
  Rpower base (if Nat.eqb P 1 then a else a + INR j * ((b - a) / (INR P - 1))).
(** 99-108: one over SNR_grid; without noise it is 0 (numpy: one over infinity) *)
Definition inv_snr (Y X : list C) (noise base : R) (P j : nat) : R := divider base P j * noise / Rmax (1 / 10000000) (norm2 Y / norm2 X - noise).
(** 111: the gain of candidate [j] at the bin with value [x] of the test signal *)
Definition gain (x : C) (inv : R) : R := Cabs2 x / (Cabs2 x + inv).
(** numpy.linalg.lstsq *)
Definition least_squares (m P : nat) (G : nat -> nat -> C) (Y : nat -> C) (w : nat -> C) : Prop :=
  forall v, bsum m (fun k => Cabs2 (Y k - csum P (fun j => G k j * w j))%C) <= bsum m (fun k => Cabs2 (Y k - csum P (fun j => G k j * v j))%C).
(** 55-121; a bin where the test signal vanishes is NaN (112) *)
Definition wiener_deconvolve (y x : vec) (length_ : option Z) (noise_variance : R) (let_n_points : nat) (let_div_base : R) (result : option vec) : Prop :=
  let n := fft_len (length y) (length x) in
  if Nat.eqb n 0 then result = None else
  let len := match length_ with Some l => l | None => Z.of_nat n end in
  let m := (n / 2 + 1)%nat in
  let Y := map (Cscal (/ sqrt (INR n))) (rfft n y) in
  let X := map (Cscal (/ sqrt (INR n))) (rfft n x) in
  if existsb (fun z => if C_eq_dec z C0 then true else false) X then result = None else
  let G := fun k j => Cscal (gain (nth k X C0) (inv_snr Y X noise_variance let_div_base let_n_points j)) (nth k Y C0) in
  let candidates := fun k j => Cdiv (G k j) (nth k X C0) in
  exists weights, least_squares m let_n_points G (fun k => nth k Y C0) weights /\
  let H := map (fun k => csum let_n_points (fun j => (candidates k j * weights j)%C)) (seq 0 m) in
  result = Some (upto (irfft n H) len).
