(** /repo/pyroomacoustics/acoustics.py: magnitude_response_to_minimum_phase 132-180, for one response
    (the other axes are independent of each other).

    Real numbers in exact arithmetic; [None] is an exception or a result with numbers that are not
    finite (the logarithm of zero).  scipy.signal.hilbert is given by its documented formula. *)
From Coq Require Import List ZArith Lia Reals Bool.
From Verif Require Import Base Vec Sum Cpx DftModel.
Import ListNotations.
Local Open Scope R_scope.

(** scipy.signal.hilbert: the analytic signal, the inverse transform of the spectrum with the negative
    frequencies dropped and the positive ones doubled *)
Definition analytic_weight (N k : nat) : R :=
  if Nat.eqb k 0 then 1
  else if Nat.even N then (if Nat.eqb k (N / 2) then 1 else if (k <? N / 2)%nat then 2 else 0)
  else if (k <? (N + 1) / 2)%nat then 2 else 0.
Definition hilbert (x : vec) : list C :=
  let N := length x in
  map (idft N (fun k => Cscal (analytic_weight N k) (dft N (fun t => RtoC (nth t x 0)) k))) (seq 0 N).
(** acoustics.py:155-170.  The slice [:0:-1] is all but the first, from the end. *)
Definition full_response (m : vec) (n_fft : nat) : option vec :=
  let used := (2 * (length m - 1) + if Nat.even n_fft then 0 else 1)%nat in
  if (n_fft <? used)%nat then None
  else Some (m ++ repeat 0 (n_fft - used) ++ rev (tl m)).
(** acoustics.py:153, 172-180; irfft of zero points raises *)
Definition minimum_phase (m : vec) (n_fft : nat) (eps : R) : option vec :=
  let n_freq := (n_fft / 2 + 1)%nat in
  let* full := full_response m n_fft in
  let fr := map (fun r => Rmax r eps) full in
  if existsb (fun r => if Rle_dec r 0 then true else false) fr then None else
  let m_p := map (fun z => snd (- z)%C) (hilbert (map ln fr)) in
  let H := map (fun k => Cscal (nth k fr 0) (cis (nth k m_p 0))) (seq 0 (Nat.min n_freq (length fr))) in
  if Nat.eqb n_fft 0 then None else Some (irfft n_fft H).
