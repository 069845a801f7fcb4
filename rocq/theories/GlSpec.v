(** Magnitudes of the short time spectrum of a signal, and the distance to given ones. *)
From Coq Require Import List ZArith Lia Reals.
From Verif Require Import Base Vec Sum Cpx DftModel.
Import ListNotations.
Local Open Scope R_scope.

(** Magnitude of bin [f] of the frame of [x] that starts at [k * hop]. *)
Definition mag (wa : vec) (hop : nat) (x : vec) (k f : nat) : R :=
  sqrt (Cabs2 (dft (length wa) (fun n => RtoC (nth n wa 0 * nth (k * hop + n) x 0)) f)).
(** Given are the bins up to N/2; the others mirror them. *)
Definition two_sided (N : nat) (X : list (list R)) (k f : nat) : R := nth (if (f <=? N / 2)%nat then f else N - f)%nat (nth k X []) 0.
(** Squared distance over all frames and all bins. *)
Definition distance (wa : vec) (hop : nat) (X : list (list R)) (x : vec) : R :=
  bsum (length X) (fun k => bsum (length wa) (fun f => (mag wa hop x k f - two_sided (length wa) X k f) ^ 2)).
(** [F] frames of magnitudes for a transform of [N] points. *)
Definition magnitudes (N F : nat) (X : list (list R)) : Prop := length X = F /\ Forall (fun r => length r = (N / 2 + 1)%nat /\ Forall (Rle 0) r) X.
(** A call with [F] frames that overlap, over [F * hop] samples; fft_size is given or computed. *)
Definition valid_call (wa : vec) (hop F : nat) (X : list (list R)) (fft_size : option nat) : Prop :=
  (0 < hop < length wa)%nat /\ (2 <= F)%nat /\ (length wa - hop <= F * hop)%nat /\ magnitudes (length wa) F X /\ (fft_size = Some (length wa) \/ fft_size = None /\ Nat.Even (length wa)).
(** The samples that the STFT object keeps before those of [y] after [n] iterations. *)
Definition before (N hop n : nat) (y : vec) : vec := match n with O => repeat 0 (N - hop) | _ => skipn (length y - (N - hop)) y end.
