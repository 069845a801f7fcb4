(** What an impulse response with directivities is, independently of spectra, powers of two
    and worker threads. *)
From Coq Require Import List ZArith Lia Reals Lra Bool.
From Verif Require Import Base Vec Cpx WallModel SphereModel SimulateModel RirModel RirSpec IsmDirModel.
Import ListNotations.
Local Open Scope R_scope.

(** One filter after the other: [conv] is the linear convolution. *)
Definition in_series (filters : list (list R)) : list R :=
  match filters with [] => [1] | h :: rest => fold_left conv rest h end.
(** Azimuth and colatitude of a direction. *)
Definition angles (v : list R) : R * R := let '(az, co, _) := cart2spher v in (az, co).
(** What a directivity does to a wave of direction [a]: a gain, and the filters it goes through. *)
Definition dir_gain (d : option directivity) (a : R * R) : R := match d with Some (DFlat g) => g a | _ => 1 end.
Definition dir_filters (d : option directivity) (a : R * R) : list (list R) := match d with Some (DTaps _ h) => [h a] | _ => [] end.
(** The directivity has a flat gain, or impulse responses of the length it announces. *)
Definition well_formed (d : option directivity) : Prop :=
  match d with
  | None | Some (DFlat _) => True
  | Some (DTaps n h) => (0 < n)%nat /\ forall a, length (h a) = n
  | Some (DBands _ _) => False
  end.
Definition has_taps (d : option directivity) : bool := match d with Some (DTaps _ _) => true | _ => false end.
(** Sample [i] of a filter started at sample [start]. *)
Definition started (start : Z) (h : list R) (i : nat) : R :=
  let k := (Z.of_nat i - start)%Z in if (k <? 0)%Z then 0 else nth (Z.to_nat k) h 0.

(** Sample [i] of the sum, over the visible images, of a filter that starts at the whole
    number of samples the wave travels. *)
Definition sum_of_images (images : list (list R)) (visible : list bool) (mic : list R) (c : R) (fs : Z)
    (filter_of : nat -> list R) (i : nat) : R :=
  Rsum (map (fun j => if nth j visible false
    then started (Zfloor (vdist (nth j images []) mic / c * IZR fs)) (filter_of j) i else 0) (seq 0 (length images))).
(** The fractional delay filter of image [j]: it delays by the rest of the travel time. *)
Definition rest_filter (images : list (list R)) (mic : list R) (c : R) (fs : Z) (fdl gran j : nat) : list R :=
  let t := vdist (nth j images []) mic / c * IZR fs in
  map (fd_tap fdl gran (t - IZR (Zfloor t))) (seq 0 fdl).
