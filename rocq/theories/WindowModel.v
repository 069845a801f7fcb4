(** /repo/pyroomacoustics/windows.py: bart 51-103, bart_hann 107-160, blackman 163-231, blackman_harris 235-287,
    bohman 291-345, cosine 349-402, flattop 406-468, gaussian 472-518, hamming 522-574, hann 578-630,
    kaiser 634-697, rect 701-715, triang 719-771.

    [None]: an exception, or a NaN (division by N - 1 = 0).  The decimal constants are taken as exact
    rationals; scipy.special.i0 is an argument of [kaiser]. *)
From Coq Require Import List ZArith Lia Reals Lra Bool.
From Verif Require Import Base.
Import ListNotations.
Local Open Scope R_scope.

Inductive wflag := asymmetric | symmetric | mdct.
Inductive wlength := wfull | wleft | wright.
(** np.arange(0, N / 2), np.arange(N / 2, N) with a float bound, np.arange(0, N) *)
Definition positions (N : nat) (len : wlength) : list R :=
  match len with
  | wleft => map INR (seq 0 ((N + 1) / 2))
  | wright => map (fun k => INR N / 2 + INR k) (seq 0 ((N + 1) / 2))
  | wfull => map INR (seq 0 N)
  end.
(** t / float(N - 1) or t / float(N); [None]: division by zero (N = 1 symmetric) *)
Definition normalise (N : nat) (sym : bool) (t : list R) : option (list R) :=
  if sym then (if Nat.eqb N 1 then match t with [] => Some [] | _ => None end else Some (map (fun n => n / (INR N - 1)) t))
  else Some (map (fun n => n / INR N) t).
(** The common shape: formula on the normalised positions, then the MDCT normalisation whose slices
    [w[: N / 2]] have a float bound and raise a TypeError. *)
Definition window (f : R -> R) (has_mdct : bool) (N : nat) (flag : wflag) (len : wlength) : option (list R) :=
  let* t := normalise N (match flag with asymmetric => false | symmetric => true | mdct => has_mdct end) (positions N len) in
  match flag with
  | mdct => if has_mdct then None else Some (map f t)
  | _ => Some (map f t)
  end.
Definition bart (N : nat) := window (fun t => 2 / (INR N - 1) * ((INR N - 1) / 2 - Rabs (t - (INR N - 1) / 2))) true N.
Definition bart_hann (N : nat) := window (fun t => 62 / 100 - 48 / 100 * Rabs (t / INR N - / 2) + 38 / 100 * cos (2 * PI * (t / INR N - / 2))) true N.
Definition blackman (N : nat) := window (fun t => 42 / 100 - / 2 * cos (2 * PI * t / (INR N - 1)) + 8 / 100 * cos (4 * PI * t / (INR N - 1))) true N.
Definition blackman_harris := window (fun t => 35875 / 100000 - 48829 / 100000 * cos (2 * PI * t) + 14128 / 100000 * cos (4 * PI * t) + 1168 / 100000 * cos (6 * PI * t)) false.
Definition cosine := window (fun t => cos (PI * (t - / 2)) ^ 2) true.
Definition flattop := window (fun t => 21557895 / 100000000 - 41663158 / 100000000 * cos (2 * PI * t) + 277263158 / 1000000000 * cos (4 * PI * t)
  + 83578947 / 1000000000 * cos (6 * PI * t) + 6947368 / 1000000000 * cos (8 * PI * t)) false.
Definition hamming := window (fun t => 54 / 100 - 46 / 100 * cos (2 * PI * t)) true.
Definition hann := window (fun t => / 2 * (1 - cos (2 * PI * t))) true.
Definition triang := window (fun t => 1 - Rabs (2 * t - 1)) true.
Definition rect (N : nat) : list R := repeat 1 N.
(** The next three compute [t] (which may be a NaN) and do not use it. *)
(** 334-336: np.linspace(-1, 1, N)[1:-1], zeros at both ends whatever N is *)
Definition bohman (N : nat) (flag : wflag) : option (list R) :=
  match flag with mdct => None | _ =>
  let x := map (fun k => Rabs (-1 + INR (S k) * (2 / (INR N - 1)))) (seq 0 (N - 2)) in
  Some (0 :: map (fun x => (1 - x) * cos (PI * x) + 1 / PI * sin (PI * x)) x ++ [0])
  end.
(** 514-516; [None]: std = 0 with a sample at the centre (0/0) *)
Definition gaussian (N : nat) (std : R) : option (list R) :=
  if Req_EM_T std 0 then None else Some (map (fun k => exp (- ((INR k - (INR N - 1) / 2) ^ 2) / (2 * std ^ 2))) (seq 0 N)).
Definition kaiser (i0 : R -> R) (N : nat) (beta : R) (flag : wflag) : option (list R) :=
  match flag with mdct => None | _ =>
  if Nat.eqb N 1 then None else
  let alpha := (INR N - 1) / 2 in
  Some (map (fun k => i0 (beta * sqrt (1 - ((INR k - alpha) / alpha) ^ 2)) / i0 beta) (seq 0 N))
  end.
