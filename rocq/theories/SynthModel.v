(** /repo/pyroomacoustics/acoustics.py: OctaveBandsFactory.synthesis 462-484 and the minimum phase
    branch of _make_filters 519-523.  The filters without that branch are BandsModel.factory_filters,
    magnitude_response_to_minimum_phase is MinphaseModel.minimum_phase.

    One row of coefficients: leading axes of the array are independent of each other.  [None] is an
    exception. *)
From Coq Require Import List ZArith Lia Reals Bool.
From Verif Require Import Base Vec Sum Cpx DftModel BackModel BandsModel MinphaseModel.
Import ListNotations.
Local Open Scope R_scope.

(** acoustics.py:519-523: magnitudes of each filter, and the minimum phase filters with these *)
Definition factory_filters_min (n_fft : nat) (mag : list vec) : option (list vec) :=
  mapM (fun h => minimum_phase (map Cabs (rfft n_fft h)) n_fft (2 / 100)) (factory_filters n_fft mag).

(** acoustics.py:477, np.einsum("...b,tb->...t"): one coefficient serves for all bands, any other
    number of coefficients must be that of the bands *)
Definition band_coeffs (n_bands : nat) (coeffs : vec) : option vec :=
  if Nat.eqb (length coeffs) n_bands then Some coeffs
  else match coeffs with [a] => Some (repeat a n_bands) | _ => None end.
(** acoustics.py:462-484 *)
Definition synthesis (filters : list vec) (n_fft : nat) (coeffs : vec) (min_phase : bool) : option vec :=
  let* c := band_coeffs (length filters) coeffs in
  let ir := map (fun t => Rsum (map2 (fun a h => a * nth t h 0) c filters)) (seq 0 n_fft) in
  if min_phase then minimum_phase (map Cabs (rfft n_fft ir)) n_fft (1 / 10000000) else Some ir.
