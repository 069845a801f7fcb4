(** What numpy.fft computes (numpy is not modelled further): the transforms as sums. *)
From Coq Require Import List ZArith Lia Reals Lra Bool.
From Verif Require Import Base Vec Sum Cpx.
Import ListNotations.
Local Open Scope R_scope.

(** numpy.fft.fft and ifft of length [n] *)
Definition dft (n : nat) (x : nat -> C) (k : nat) : C := csum n (fun j => (x j * omega n (- Z.of_nat (j * k)))%C).
Definition idft (n : nat) (X : nat -> C) (j : nat) : C := Cscal (/ INR n) (csum n (fun k => (X k * omega n (Z.of_nat (j * k)))%C)).

(** numpy.fft.rfft(x, n): the signal is cut or zero padded to [n]; bins 0 .. n/2 *)
Definition rfft (n : nat) (x : vec) : list C := map (dft n (fun j => RtoC (nth j x 0))) (seq 0 (n / 2 + 1)).
(** numpy.fft.irfft(X, n): bins above n/2 are taken as the conjugates of the lower ones; the
    imaginary parts of bin 0 and of bin n/2 (even n) are ignored *)
Definition irfft (n : nat) (X : list C) : vec :=
  map (fun j => / INR n * (fst (nth 0 X C0) +
                  bsum ((n - 1) / 2) (fun k => 2 * fst (nth (k + 1) X C0 * omega n (Z.of_nat (j * (k + 1))))%C) +
                  if Nat.even n then fst (nth (n / 2) X C0) * fst (omega n (Z.of_nat (j * (n / 2)))) else 0)) (seq 0 n).
