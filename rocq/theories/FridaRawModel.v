(** FRIDA from raw microphone signals.
    /repo/pyroomacoustics/doa/tools_fri_doa_plane.py: build_mtx_raw_amp 435-456, and of pt_src_recon_multiband 1724-1906 the
    checks 1786-1787 and the loop over mappings with the amplitudes of raw signals 1793-1804, 1874-1906.
    /repo/pyroomacoustics/doa/frida.py: update_G and G_iter 108-109.

    Conventions of FridaModel and FridaAmpModel.  Oracles: scipy.linalg.lstsq, real and complex, linalg.solve, and [recon], the
    azimuths found with given mappings.  [None] is an exception. *)
From Coq Require Import List ZArith Lia Reals Lra Bool.
From Verif Require Import Base Sum Cpx SphereModel FridaModel FridaAmpModel.
Import ListNotations.
Local Open Scope R_scope.

Section Raw.
(** [clstsq rows cols A y] *)
Variable clstsq : nat -> nat -> (nat -> nat -> C) -> (nat -> C) -> nat -> C.
Variable lstsq : nat -> nat -> mat -> mat.
Variable solve : nat -> nat -> mat -> mat -> mat.
(** [a q b]: average of microphone q in band b *)
Variables (K M n_mics n_bands : nat) (px py : nat -> vect) (a : nat -> nat -> C).

(** 435-456 for band b *)
Definition build_mtx_raw_amp (b : nat) (phi : vect) (q k : nat) : C := cis (- (cos (phi k) * px b q + sin (phi k) * py b q)).
(** 1875-1883, linalg.block_diag *)
Definition amp_mtx (phi : vect) (i j : nat) : C :=
  if Nat.eqb (i / n_mics) (j / K) then build_mtx_raw_amp (i / n_mics) phi (i mod n_mics) (j mod K) else C0.
(** a.flatten("F") *)
Definition flat (i : nat) : C := a (i mod n_mics) (i / n_mics).
(** 1885 *)
Definition alphak_recon (phi : vect) : nat -> C := clstsq (n_bands * n_mics) (n_bands * K) (amp_mtx phi) flat.
(** 1887 *)
Definition raw_error (phi : vect) : R :=
  sqrt (bsum (n_bands * n_mics) (fun i => Cabs2 (Csub (flat i) (csum (n_bands * K) (fun j => Cmul (amp_mtx phi i j) (alphak_recon phi j)))))).

(** 1898-1902: the update computes the mapping of visibilities, with 2 n_mics (n_mics - 1) rows; the mapping of raw signals has 2 n_mics *)
Definition raw_update (phi : vect) (G : nat -> mat) : option (nat -> mat) :=
  if Nat.eqb (2 * (n_mics * (n_mics - 1))) (2 * n_mics) then Some (fun b => updated_G lstsq solve K M n_mics px py phi b (G b)) else None.

Variable recon : (nat -> mat) -> vect.
Definition raw_best : Type := (R * vect * (nat -> nat -> C))%type.
(** 1892-1895; the reshape of alphak_recon by bands *)
Definition raw_now (G : nat -> mat) (old : option raw_best) : raw_best :=
  let phi := recon G in let e := raw_error phi in
  let new : raw_best := (e, phi, fun k b => alphak_recon phi (b * K + k)%nat) in
  match old with Some o => if Rlt_dec e (fst (fst o)) then new else o | None => new end.
Fixpoint raw_passes (n : nat) (G : nat -> mat) (old : option raw_best) : option (option raw_best) :=
  match n with
  | O => Some old
  | S n => let now := raw_now G old in let* G' := raw_update (snd (fst now)) G in raw_passes n G' (Some now)
  end.
(** frida.py 108-109, 1786-1787, 1793-1799, 1905-1906 *)
Definition recon_raw (G_iter : nat) (G : nat -> mat) : option (vect * (nat -> nat -> C)) :=
  if Nat.ltb M K then None else
  if Nat.ltb (n_mics * (n_mics - 1)) (2 * M + 1) then None else
  let* best := if Nat.ltb 1 G_iter then raw_passes G_iter G None else Some (Some (raw_now G None)) in
  match best with
  | Some (_, phi, alpha) => Some (fun k => mod_2pi (phi k - PI), alpha)
  | None => Some (fun _ => mod_2pi (0 - PI), fun _ _ => C0)
  end.
End Raw.
