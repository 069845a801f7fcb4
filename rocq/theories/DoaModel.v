(** The frequency selection of locate_sources (/repo/pyroomacoustics/doa/doa.py:318-344), SRP-PHAT
    (/repo/pyroomacoustics/doa/srp.py:70-134) and MUSIC (/repo/pyroomacoustics/doa/music.py:75-196,
    normmusic.py).

    The signals are [X m k s]: microphone, frequency bin, snapshot. The mode vectors are [mode k m n]: frequency
    bin, microphone, grid point. The eigenvalue decomposition (numpy.linalg.eigh) is an argument. *)
From Coq Require Import List ZArith Lia Reals Bool.
From Verif Require Import Base Sum Cpx ModeModel BandsModel.
Import ListNotations.
Local Open Scope R_scope.

(** doa.py:324-344. [None]: the shape of the signals does not match, or freq_hz is given (line 336 iterates over
    freq_bins, which is None then). [rint] is numpy's rounding. *)
Definition select_bins (fs : R) (nfft n_mics : nat) (shape : nat * nat) (freq_range : R * R) (freq_bins : option (list Z)) (freq_hz : option (list R)) : option (list nat) :=
  let max_bin := (nfft / 2 + 1)%nat in
  if negb (fst shape =? n_mics)%nat then None else
  if negb (snd shape =? max_bin)%nat then None else
  let* bins := match freq_bins with
    | Some l => Some l
    | None => match freq_hz with
      | Some _ => None
      | None => let bin f := rint (f / fs * INR nfft) in
                Some (map (fun i => bin (fst freq_range) + Z.of_nat i)%Z (seq 0 (Z.to_nat (bin (snd freq_range) - bin (fst freq_range)))))
      end
    end in
  Some (map Z.to_nat (filter (fun k => 0 <=? k)%Z (filter (fun k => k <? Z.of_nat max_bin)%Z bins))).

(** * SRP *)
(** doa.py:18 *)
Definition tol : R := / 10 ^ 14.
Definition Cabs (z : C) : R := sqrt (Cabs2 z).
Section Srp.
Variables (M n_snap n_points : nat) (bins : list nat) (mode : nat -> nat -> nat -> C) (X : nat -> nat -> nat -> C).
(** srp.py:79-81 *)
Definition whiten (z : C) : C := Cscal (/ (if Rlt_dec (Cabs z) tol then tol else Cabs z)) z.
(** 83-86 *)
Definition cross (k i j : nat) : C := csum n_snap (fun s => Cmul (whiten (X i k s)) (Conj (whiten (X j k s)))).
(** 119 *)
Definition mode_mat (k n i j : nat) : C := Cmul (Conj (mode k i n)) (mode k j n).
(** 88-97, 123-130; the mask av < av.T keeps the pairs i < j *)
Definition srp_sum (n : nat) : R :=
  let r k i j := fst (cross k i j) * fst (mode_mat k n i j) - snd (cross k i j) * snd (mode_mat k n i j) in
  2 * Rsum (map (fun k => bsum M (fun j => bsum j (fun i => r k i j))) bins) + INR n_snap * INR M * INR (length bins).
(** 132. [None]: without a frequency bin line 100 raises; without a snapshot or a pair of microphones the result is
    not a number. *)
Definition srp_cost : option (list R) :=
  if (length bins =? 0)%nat || (n_snap =? 0)%nat || (M <? 2)%nat then None else
  Some (map (fun n => srp_sum n / INR n_snap / INR (length bins) / (INR M * (INR M - 1) / 2)) (seq 0 n_points)).
End Srp.

(** * MUSIC *)
Section Music.
Variables (M n_snap n_points num_src : nat) (bins : list nat) (mode : nat -> nat -> nat -> C) (X : nat -> nat -> nat -> C).
(** the eigenvectors returned by eigh: entry [i] of eigenvector [j] at bin [k], by ascending eigenvalue *)
Variable v : nat -> nat -> nat -> C.
(** music.py:169-178 *)
Definition covariance (k i j : nat) : C := Cscal (/ INR n_snap) (csum n_snap (fun s => Cmul (X i k s) (Conj (X j k s)))).
(** 181-196: the last num_src eigenvectors are the signal (all of them if there are fewer, or if num_src is zero) *)
Definition n_noise : nat := if (num_src =? 0)%nat then 0 else M - num_src.
(** 86-88: identity - Es Es^H *)
Definition noise_cross (k i j : nat) : C :=
  Csub (RtoC (if (i =? j)%nat then 1 else 0)) (csum (M - n_noise) (fun q => Cmul (v k i (n_noise + q)%nat) (Conj (v k j (n_noise + q)%nat)))).
(** 137-143 *)
Definition music_denom (k n : nat) : C :=
  csum M (fun i => Cmul (Conj (mode k i n)) (csum M (fun j => Cmul (noise_cross k i j) (mode k j n)))).
(** 144: 1.0 / abs(denom); [None] is infinity *)
Definition pseudo (k n : nat) : option R := let d := Cabs (music_denom k n) in if Req_EM_T d 0 then None else Some (/ d).
Definition inf_add (a b : option R) : option R := match a, b with Some x, Some y => Some (x + y) | _, _ => None end.
(** 92, without normalisation: the mean over the frequencies *)
Definition music_value (n : nat) : option R :=
  match fold_right inf_add (Some 0) (map (fun k => pseudo k n) bins) with Some s => Some (s / INR (length bins)) | None => None end.
(** 90-92 and 98, with normalisation: each frequency is divided by its largest value over the grid; [None] when one
    of them is infinite (the quotient is not a number) *)
Definition finite_pseudo (k : nat) : option (list R) := mapM (fun n => pseudo k n) (seq 0 n_points).
Definition norm_music : option (list R) :=
  let* P := mapM finite_pseudo bins in
  Some (map (fun n => Rsum (map (fun row => nth n row 0 / fold_right Rmax 0 row) P) / INR (length bins)) (seq 0 n_points)).
End Music.
