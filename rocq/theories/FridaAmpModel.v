(** FRIDA: amplitudes, and the update of the mapping from Fourier coefficients to visibilities.
    /repo/pyroomacoustics/doa/tools_fri_doa_plane.py: build_mtx_amp_ri 429-432, mtx_updated_G_multiband_new 494-548, and of
    pt_src_recon_multiband 1724-1906 the loop over mappings with the amplitudes of visibilities 1793-1906.

    Conventions of FridaModel.  Oracles: scipy.optimize.nnls, linalg.lstsq, linalg.solve, and [recon], the azimuths found with
    given mappings (FridaModel).  Raw signals (1874-1887) are in FridaRawModel. *)
From Coq Require Import List ZArith Lia Reals Lra Bool.
From Verif Require Import Base Sum Cpx SphereModel FridaModel.
Import ListNotations.
Local Open Scope R_scope.

Section Amp.
(** [nnls n A b]: non-negative least squares with n rows and columns; [lstsq L K A]: A has L rows and K columns and the right
    hand side is the identity; [solve K L A B]: A is K x K and B has L columns *)
Variable nnls : nat -> mat -> vect -> vect.
Variable lstsq : nat -> nat -> mat -> mat.
Variable solve : nat -> nat -> mat -> mat -> mat.
(** sources, order of the Fourier series, microphones, bands; normalised coordinates and visibilities of every band *)
Variables (K M n_mics n_bands : nat) (px py : nat -> vect) (a : nat -> nat -> C).
Let nv := (n_mics * (n_mics - 1))%nat.
Let L := (2 * M + 1)%nat.

(** 429-432 for band b *)
Definition build_mtx_amp_ri (b : nat) (phi : vect) : mat := fun r k =>
  if Nat.ltb r nv then fst (build_mtx_amp (phi k) (px b) (py b) (nth r (pairs n_mics) (0, 0)%nat))
  else snd (build_mtx_amp (phi k) (px b) (py b) (nth (r - nv) (pairs n_mics) (0, 0)%nat)).
(** 1855-1864 *)
Definition amplitude_band (phi : vect) (b : nat) : vect :=
  let A := build_mtx_amp_ri b phi in nnls K (mm (2 * nv) (transpose A) A) (mv (2 * nv) (transpose A) (a_ri nv (a b))).
(** 1866-1868 *)
Definition error_band (phi : vect) (b : nat) : R :=
  let A := build_mtx_amp_ri b phi in let x := amplitude_band phi b in
  sqrt (bsum (2 * nv) (fun r => (a_ri nv (a b) r - mv K A x r) ^ 2)).
Definition error_loop (phi : vect) : R := bsum n_bands (error_band phi).

(** 514-518: the series of orders -M .. 0, real parts above imaginary parts, the last of which is left out *)
Definition amp2freq_ri (phi : vect) : mat := fun r k =>
  if Nat.ltb r (M + 1) then fst (cis (- ((INR r - INR M) * phi k))) else snd (cis (- ((INR (r - (M + 1)) - INR M) * phi k))).
(** 522-546, one band *)
Definition updated_G (phi : vect) (b : nat) (G0 : mat) : mat :=
  let P := lstsq L K (amp2freq_ri phi) in
  let high := mm K (build_mtx_amp_ri b phi) P in
  let Q := solve K L (mm L P (transpose P)) P in
  let low := mm K (mm L G0 (transpose P)) Q in
  fun i j => high i j + G0 i j - low i j.

(** 1826-1903; the best so far: error, azimuths, amplitudes by source and band *)
Variable recon : (nat -> mat) -> vect.
Definition best : Type := (R * vect * mat)%type.
Definition pass (s : (nat -> mat) * option best) : (nat -> mat) * option best :=
  let '(G, old) := s in
  let phi := recon G in let e := error_loop phi in
  let new : best := (e, phi, fun k b => amplitude_band phi b k) in
  let now := match old with Some o => if Rlt_dec e (fst (fst o)) then new else o | None => new end in
  (fun b => updated_G (snd (fst now)) b (G b), Some now).
Fixpoint passes (n : nat) (G : nat -> mat) : (nat -> mat) * option best := match n with O => (G, None) | S n => pass (passes n G) end.
(** 1793-1799 and 1905-1906: [G_iter] passes with update_G, one without *)
Definition recon_multiband (G_iter : option nat) (G : nat -> mat) : option (vect * mat) :=
  match snd (passes (match G_iter with Some n => n | None => 1%nat end) G) with
  | Some (_, phi, alpha) => Some (fun k => mod_2pi (phi k - PI), alpha)
  | None => Some (fun _ => mod_2pi (0 - PI), fun _ _ => 0)
  end.
End Amp.
