(** The test of orthogonality of projected subspaces: /repo/pyroomacoustics/doa/tops.py:78-143.

    Exact arithmetic.  Covariances as in CssmModel.  The microphones [L] and the grid points [G] are coordinates, of which the first [dim] are used.
    Arguments: numpy.argmax, numpy.linalg.eigh and the last of scipy.linalg.svdvals ([smallest rows columns D]).  A value [None] of the
    spectrum is infinite; a result [None] is an exception. *)
From Coq Require Import List ZArith Lia Reals Bool.
From Verif Require Import Base Sum Cpx DoaModel CssmModel.
Import ListNotations.
Local Open Scope R_scope.

Section Tops.
Variables (fs c : R) (nfft dim : nat) (L G : nat -> nat -> R).
(** 123-124 *)
Definition proj (m n : nat) : R := bsum dim (fun t => G n t * L m t).
(** doa.py:79-89: the mode vectors of a far-field grid *)
Definition far_mode (k m n : nat) : C := cis (2 * PI * fs * INR k / INR nfft * (proj m n / c)).
(** 109-126: one row for every bin of the transform, in order *)
Definition phi (f0 k m n : nat) : C := cis (1 / INR nfft / c * 2 * PI * fs * (INR k - INR f0) * proj m n).

Variables (M n_snap n_points num_src : nat) (bins : list nat) (X : nat -> nat -> nat -> C).
Variable argmax : list R -> nat.
Variable eigh : cmat -> (nat -> R) * cmat.
Variable smallest : nat -> nat -> cmat -> R.
(** 88-92 *)
Definition tops_max : nat := argmax (map (magnitude M n_snap X) bins).
(** 99-106 *)
Definition signal_space (j : nat) : cmat := fun i q => snd (eigh (C_hat n_snap bins X j)) i (M - num_src + q)%nat.
Definition noise_space (j : nat) : cmat := fun i q => snd (eigh (C_hat n_snap bins X j)) i q.
(** 130-141 *)
Definition tops_matrix (f0 n : nat) : cmat := fun p col =>
  let k := (col / (M - num_src))%nat in let q := (col mod (M - num_src))%nat in
  csum M (fun m => Cmul (Conj (Cmul (phi f0 k m n) (signal_space tops_max m p))) (noise_space k m q)).
(** 78-143; no source, or as many sources as microphones, leaves arrays of the wrong shape *)
Definition tops : option (list (option R)) :=
  if (length bins <? 2)%nat then None else
  if (num_src =? 0)%nat || (M <=? num_src)%nat then None else
  let* f0 := nth_error bins tops_max in
  Some (map (fun n => let s := smallest num_src ((M - num_src) * (length bins - 1))%nat (tops_matrix f0 n) in if Req_EM_T s 0 then None else Some (/ s)) (seq 0 n_points)).
End Tops.
