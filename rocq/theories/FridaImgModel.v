(** FRIDA: low rank cleaning, dirty image and raw signals.
    /repo/pyroomacoustics/doa/frida.py: _raw_average 192-204, _visibilities 206-230 with low_rank_cleaning,
    _gen_dirty_img 232-276; freq_hz is set in doa.py:343.

    Conventions of FridaModel.  [eigh] is scipy.linalg.eigh: eigenvalues in ascending order and eigenvectors in columns. *)
From Coq Require Import List ZArith Lia Reals Lra Bool.
From Verif Require Import Base Sum Cpx SphereModel FridaModel.
Import ListNotations.
Local Open Scope R_scope.

(** w.min() 221 of the absolute values, at least one microphone *)
Definition smallest (n_mics : nat) (w : nat -> R) : R := fold_right Rmin (w 0%nat) (map w (seq 0 n_mics)).
(** the slice [-k:] of n entries starts at *)
Definition last_from (n k : nat) : nat := if Nat.eqb k 0 then 0%nat else (n - k)%nat.
(** 217-224 *)
Definition low_rank (n_mics num_src : nat) (e : (nat -> R) * (nat -> nat -> C)) : nat -> nat -> C :=
  let w := fun q => Rabs (fst e q) in let vl := snd e in
  let f := last_from n_mics num_src in
  let sigma := smallest n_mics w in
  fun i j => csum (n_mics - f) (fun q => Cmul (Cmul (vl i (f + q)%nat) (RtoC (w (f + q)%nat - sigma))) (Conj (vl j (f + q)%nat))).
Definition visibilities_cleaned (eigh : (nat -> nat -> C) -> (nat -> R) * (nat -> nat -> C)) (n_mics n_frames num_src : nat) (margin floor : R) (x : nat -> nat -> C) : option (list C) :=
  let* cov := cov_mtx_est (chosen_frames n_mics n_frames margin floor x) x in Some (extract_off_diag n_mics (low_rank n_mics num_src (eigh cov))).

(** 244-272 at one azimuth of the grid; [vis b]: the visibilities of band b, in the order of the pairs of the two loops.
    [None]: with one microphone zero is divided by zero. *)
Definition dirty_img (n_mics n_bands : nat) (px py : vect) (c : R) (omega : nat -> R) (vis : nat -> nat -> C) (azimuth : R) : option C :=
  let x := cos azimuth in let y := sin azimuth in
  if Nat.ltb n_mics 2 then None else
  Some (Cscal (/ (INR n_mics * INR (n_mics - 1)))
    (csum n_bands (fun b => csum (length (pairs n_mics)) (fun i =>
       let p := nth i (pairs n_mics) (0, 0)%nat in
       Cmul (vis b i) (cis (- (baseline (fun m => px m / (c / omega b)) p * x + baseline (fun m => py m / (c / omega b)) p * y))))))).

(** doa.py:343 *)
Definition freq_hz (fs nfft : Z) (bin : nat) : R := INR bin * IZR fs / IZR nfft.
(** 192-204, one microphone and one bin; the mean of no frames is NaN *)
Definition raw_average (fs nfft : Z) (bin n_frames : nat) (x : nat -> C) : option C :=
  if Nat.eqb n_frames 0 then None else
  Some (Cscal (/ INR n_frames) (csum n_frames (fun t => Cmul (x t) (cis (- (2 * PI * freq_hz fs nfft bin * INR t * IZR nfft / IZR fs)))))).
