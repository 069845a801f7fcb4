(** Noise floor, documented gain, and frame-by-frame processing of a signal with overlap-add. *)
From Coq Require Import List ZArith Lia Reals.
From Verif Require Import Base Vec Sum Cpx DftModel StftSpec.
Import ListNotations.
Local Open Scope R_scope.

(** The smallest of the powers of the last [L + 1] frames; zero as long as there are fewer. *)
Definition noise_floor (L : nat) (P : nat -> R) (t : nat) (n : R) : Prop :=
  ((t < L)%nat -> n = 0) /\
  ((L <= t)%nat -> (forall i, (i <= L)%nat -> n <= P (t - i)%nat) /\ exists i, (i <= L)%nat /\ n = P (t - i)%nat).
(** Real power of a nonnegative number with a positive exponent. *)
Definition power (b a : R) : R := if Req_EM_T b 0 then 0 else Rpower b a.
(** max(((P - beta P_N) / P)^alpha, G_min); a negative difference counts as zero *)
Definition documented_gain (alpha beta gmin p n : R) : R := Rmax (power (Rmax ((p - beta * n) / p) 0) alpha) gmin.

(** The frame number [k] of the signal preceded by [N - hop] zeros, with its window: what is
    transformed. *)
Definition stream_spectrum (N hop : nat) (w : vec) (x : vec) (k : nat) : list C :=
  rfft N (frame N 0 0 (Some w) (delayed (N - hop) x) (k * hop)).
(** The output: frames [Ys] synthesised and added at multiples of [hop], zeros afterwards. *)
Definition resynthesis (N hop len : nat) (Ys : list (list C)) : vec :=
  map (fun t => if (t <? length Ys * hop)%nat then ola hop (map (inverse N None) Ys) t else 0) (seq 0 len).

(** The variance of the samples of a frame. *)
Definition energy (x : vec) : R :=
  let m := bsum (length x) (fun i => nth i x 0) / INR (length x) in
  bsum (length x) (fun i => (nth i x 0 - m) ^ 2) / INR (length x).
(** Exponential average, from zero, of values given from the oldest to the newest. *)
Definition smoothed (alpha : R) (es : list R) : R := bsum (length es) (fun i => (1 - alpha) * alpha ^ (length es - 1 - i) * nth i es 0).
(** The values below a threshold. *)
Definition below (thresh : R) (es : list R) : list R := filter (fun e => if Rlt_dec e thresh then true else false) es.

(** What is left in the buffer of the transform after the analysis of frame number [k]: the second
    half of the frame, then the same samples with their window. *)
Definition buffer_after (h : nat) (w : vec) (x : vec) (k : nat) : vec :=
  let u i := nth (k * h + i) (delayed h x) 0 in
  map (fun i => if (i <? h)%nat then u (h + i)%nat else nth i w 0 * u i) (seq 0 (2 * h)).
