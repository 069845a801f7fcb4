(** /repo/pyroomacoustics/experimental/signals.py: window 10-20, exponential_sweep 23-72, linear_sweep 75-123.
    Exact arithmetic; [None] is an exception or NaN. *)
From Coq Require Import Reals List ZArith Lia Lra Bool.
From Verif Require Import Base Vec.
Import ListNotations.
Local Open Scope R_scope.

(** numpy.hanning(m): 0.5 + 0.5 cos(pi k / (m - 1)) with k = 1 - m, 3 - m, ..., m - 1; 1 for m = 1 *)
Definition hanning (m : nat) : list R :=
  if Nat.eqb m 1 then [1] else map (fun i => 1 / 2 + 1 / 2 * cos (PI * (2 * INR i + 1 - INR m) / (INR m - 1))) (seq 0 m).
(** 10-20; for [n_win] = 0 the slice [-n_win:] is the whole signal and is multiplied by an empty array, for [n_win] larger than the signal the
    lengths differ: both raise (an empty signal is not) *)
Definition window (signal : list R) (n_win : nat) : option (list R) :=
  let win := hanning (2 * n_win) in
  let L := length signal in
  if Nat.eqb L 0 then (if (n_win <=? 1)%nat then Some [] else None) else
  if Nat.eqb n_win 0 || (L <? n_win)%nat then None else
  let s1 := map (fun i => if (i <? n_win)%nat then nth i signal 0 * nth i win 0 else nth i signal 0) (seq 0 L) in
  Some (map (fun i => if (L - n_win <=? i)%nat then nth i s1 0 * nth (length win - n_win + (i - (L - n_win))) win 0 else nth i s1 0) (seq 0 L)).

(** 42-47, 94-99 *)
Definition clip_hi (fs : R) (f_hi : option R) : R :=
  match f_hi with
  | None => fs / 2
  | Some f => if Rlt_dec f 0 then fs / 2 + f else if Rlt_dec (fs / 2) f then fs / 2 else f
  end.
(** 49-50, 101-102: [lowest] is 1 for the exponential sweep, 0 for the linear one *)
Definition clip_lo (lowest f_lo : R) : R := if Rlt_dec f_lo lowest then lowest else f_lo.
(** 56, 109: floor(T / Ts), no samples when it is negative *)
Definition n_samples (T fs : R) : nat := Z.to_nat (Int_part (T / (1 / fs))).
(** 66-72, 117-123; int(fs * fade) *)
Definition finish (sweep : list R) (fs : R) (fade : option R) (ascending : bool) : option (list R) :=
  let s := if ascending then sweep else rev sweep in
  match fade with
  | Some f => if Rlt_dec 0 f then window s (Z.to_nat (Int_part (fs * f))) else Some s
  | None => Some s
  end.
(** 23-72; equal frequencies divide by log(1) = 0: every sample is NaN *)
Definition exponential_sweep (T fs f_lo : R) (f_hi fade : option R) (ascending : bool) : option (list R) :=
  let hi := clip_hi fs f_hi in let lo := clip_lo 1 f_lo in
  if Rlt_dec hi lo then None else
  let Ts := 1 / fs in let N := n_samples T fs in
  let om1 := 2 * PI * lo in let om2 := 2 * PI * hi in
  if Req_EM_T (ln (om2 / om1)) 0 then (if Nat.eqb N 0 then finish [] fs fade ascending else None) else
  finish (map (fun n => sin (om1 * INR N * Ts / ln (om2 / om1) * (exp (INR n / INR N * ln (om2 / om1)) - 1))) (seq 0 N)) fs fade ascending.
(** 75-123 *)
Definition linear_sweep (T fs f_lo : R) (f_hi fade : option R) (ascending : bool) : option (list R) :=
  let hi := clip_hi fs f_hi in let lo := clip_lo 0 f_lo in
  if Rlt_dec hi lo then None else
  let Ts := 1 / fs in let N := n_samples T fs in
  let rate := (hi - lo) / T in
  finish (map (fun n => let t := INR n * Ts in sin (2 * PI * (lo + 1 / 2 * rate * t) * t)) (seq 0 N)) fs fade ascending.
