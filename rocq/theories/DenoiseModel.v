(** /repo/pyroomacoustics/denoise/spectral_subtraction.py (123-221) and iterative_wiener.py
    (173-430): single channel noise reduction frame by frame.
    Real numbers instead of floats.  [None]: an exception, or numbers that are not finite (division
    by zero).  The STFT object is that of StftModel, the LPC routine that of UtilModel. *)
From Coq Require Import List ZArith Lia Reals Bool.
From Verif Require Import Base Vec Sum Cpx DftModel StftModel WindowModel UtilModel.
Import ListNotations.
Local Open Scope R_scope.

Definition rdiv (a b : R) : option R := if Req_EM_T b 0 then None else Some (a / b).

(** * Spectral subtraction *)
(** spectral_subtraction.py:123-132; [ss_prev]: one row per bin.  The lookback is not negative. *)
Record ssub := { ss_beta : R; ss_alpha : R; ss_bins : nat; ss_prev : list (list R); ss_gmin : R }.
Definition ssub_new (nfft : nat) (db_reduc : R) (lookback : nat) (beta alpha : R) : ssub :=
  {| ss_beta := beta; ss_alpha := alpha; ss_bins := (nfft / 2 + 1)%nat; ss_prev := repeat (repeat 0 (lookback + 1)) (nfft / 2 + 1)%nat; ss_gmin := Rpower 10 (- db_reduc / 20) |}.
(** b ** a for b >= 0; a NaN to the power 0 is 1, hence the option *)
Definition float_pow (b : option R) (a : R) : option R :=
  if Req_EM_T a 0 then Some 1 else
  let* b := b in
  if Req_EM_T b 0 then (if Rlt_dec a 0 then None else Some 0) else Some (Rpower b a).
(** 151-161, one bin; max(nan, gmin) is nan *)
Definition bin_gain (s : ssub) (p n : R) : option R :=
  let* g := float_pow (rdiv (Rmax (p - ss_beta s * n) 0) p) (ss_alpha s) in Some (Rmax g (ss_gmin s)).
Definition row_min (l : list R) : R := fold_left Rmin (tl l) (hd 0 l).
(** 134-167.  A gain [None] is a NaN or an infinity. *)
Definition compute_gain_filter (s : ssub) (X : list C) : option (ssub * list (option R)) :=
  let* X := if Nat.eqb (length X) (ss_bins s) then Some X else if Nat.eqb (length X) 1 then Some (repeat (nth 0 X C0) (ss_bins s)) else None in
  let p_sn := map (fun x => fst (Conj x * x)%C) X in
  let rows := map2 (fun row p => removelast row ++ [p]) (ss_prev s) p_sn in
  let p_n := map row_min rows in
  let gain := map2 (bin_gain s) p_sn p_n in
  Some ({| ss_beta := ss_beta s; ss_alpha := ss_alpha s; ss_bins := ss_bins s; ss_prev := map (fun row => tl row ++ firstn 1 row) rows; ss_gmin := ss_gmin s |}, gain).
(** A client: successive calls. *)
Fixpoint gain_filters (s : ssub) (Xs : list (list C)) : option (list (list (option R))) :=
  match Xs with
  | [] => Some []
  | X :: Xs => let* r := compute_gain_filter s X in let* gs := gain_filters (fst r) Xs in Some (snd r :: gs)
  end.

(** * One-shot functions *)
(** spectral_subtraction.py:200-221, iterative_wiener.py:409-430: the same loop.  [proc] gets
    stft.fft_in_buffer and stft.X.  Samples after the last whole block stay zero. *)
Fixpoint blocks {S} (proc : S -> vec -> list C -> option (S * list C)) (hop k : nat) (st : stft) (s : S) (x : vec) : option vec :=
  match k with
  | O => Some (zeros (length x))
  | Datatypes.S k =>
      let* r := analysis st (firstn hop x) in
      let* p := proc s (s_buf (fst r)) (nth 0 (snd r) []) in
      let* q := synthesis (fst r) (Some (One (snd p))) in
      let* y := snd q in
      let* ys := blocks proc hop k (fst q) (fst p) (skipn hop x) in
      Some (y ++ ys)
  end.
Definition one_shot {S} (proc : S -> vec -> list C -> option (S * list C)) (N : nat) (s : S) (x : vec) : option vec :=
  let hop := (N / 2)%nat in
  let* w := hann N asymmetric wfull in
  let* st := stft_new N (Some hop) (Some w) None true None in
  if Nat.eqb hop 0 then None else blocks proc hop (length x / hop) st s x.
(** spectral_subtraction.py:211-215 *)
Definition ssub_proc (s : ssub) (_ : vec) (X : list C) : option (ssub * list C) :=
  let* r := compute_gain_filter s X in
  let* g := mapM (fun g => g) (snd r) in
  Some (fst r, map2 Cscal g X).
Definition apply_spectral_sub (x : vec) (nfft : nat) (db_reduc : R) (lookback : nat) (beta alpha : R) : option vec :=
  one_shot ssub_proc nfft (ssub_new nfft db_reduc lookback beta alpha) x.

(** * Iterative Wiener filter *)
(** iterative_wiener.py:173-194 *)
Record wiener := { wi_len : nat; wi_order : nat; wi_iter : nat; wi_alpha : R; wi_thresh : R; wi_speech : vec; wi_noise : R; wi_filt : vec }.
Definition wiener_new (frame_len order iterations : nat) (alpha thresh : R) : option wiener :=
  if Nat.odd frame_len then None else if Rlt_dec 1 alpha then None else if Rlt_dec alpha 0 then None else
  Some {| wi_len := frame_len; wi_order := order; wi_iter := iterations; wi_alpha := alpha; wi_thresh := thresh;
          wi_speech := repeat 1 (frame_len / 2 + 1)%nat; wi_noise := 0; wi_filt := repeat 1 (frame_len / 2 + 1)%nat |}.
Definition with_psd (s : wiener) (speech : vec) (noise : R) (filt : vec) : wiener :=
  {| wi_len := wi_len s; wi_order := wi_order s; wi_iter := wi_iter s; wi_alpha := wi_alpha s; wi_thresh := wi_thresh s; wi_speech := speech; wi_noise := noise; wi_filt := filt |}.
Definition mean (x : vec) : R := bsum (length x) (fun i => nth i x 0) / INR (length x).
(** 217: np.std(current_frame) ** 2; NaN for an empty frame *)
Definition frame_energy (x : vec) : option R :=
  if Nat.eqb (length x) 0 then None else Some (bsum (length x) (fun i => (nth i x 0 - mean x) ^ 2) / INR (length x)).
(** 282-283 *)
Definition compute_speech_psd (a : vec) (g2 : R) (nfft : nat) : option vec :=
  mapM (fun A => rdiv g2 (Cabs2 A)) (rfft nfft (1 :: map Ropp a)).
(** 324-326: the inverse of the integrand *)
Definition all_pole_den (a : vec) (w : R) : R :=
  Cabs2 (C1 - csum (length a) (fun k => (RtoC (nth k a 0) * cis (- (INR (k + 1) * w)))%C))%C.
(** 336-346: the trapezoidal rule on the points of np.arange(-pi, pi, 2 * pi / 1000).  Their number
    [npts], 1000 or 1001 according to rounding, is an argument. *)
Definition all_pole_integral (npts : nat) (a : vec) : option R :=
  let d_omega := 2 * PI / 1000 in
  let omega i := - PI + INR i * d_omega in
  let* f := mapM (fun i => rdiv 1 (all_pole_den a (omega i))) (seq 0 npts) in
  Some (bsum (npts - 1) (fun i => (nth i f 0 + nth (S i) f 0) / 2 * d_omega)).
(** 286-348 with a scalar noise level *)
Definition compute_squared_gain (npts : nat) (a : vec) (noise : R) (y : vec) : option R :=
  let N := length y in
  if Nat.eqb N 0 then None else
  let rhs := bsum N (fun i => nth i y 0 ^ 2) - INR N * noise in
  let* integral := all_pole_integral npts a in
  rdiv (rhs * 2 * PI / INR N) integral.
(** 369 *)
Definition compute_wiener_filter (speech : vec) (noise : R) : option vec := mapM (fun p => rdiv p (p + noise)) speech.
(** 233-243: one iteration; [lpc] is that of utilities.py on real arrays *)
Definition wiener_iter (npts : nat) (frame : vec) (dft : list C) (st : wiener * vec) (_ : nat) : option (wiener * vec) :=
  let (s, s_i) := st in
  let* a := lpc s_i (wi_order s) true in
  let a := map fst a in
  let* g2 := compute_squared_gain npts a (wi_noise s) frame in
  let* psd := compute_speech_psd a g2 (wi_len s) in
  let* h := compute_wiener_filter psd (wi_noise s) in
  Some (with_psd s psd (wi_noise s) h, irfft (wi_len s) (map2 Cscal h dft)).
(** 196-245.  Also returns the caller's array [frame_dft] after the call. *)
Definition compute_filtered_output (npts : nat) (s : wiener) (frame : vec) (frame_dft : option (list C)) : option (wiener * list C * option (list C)) :=
  let dft := match frame_dft with Some X => X | None => rfft (length frame) frame end in
  if Nat.eqb (wi_len s) 0 then None else
  if negb (Nat.eqb (length dft) (wi_len s / 2 + 1)) then None else
  let dft := map (Cscal (/ sqrt (INR (wi_len s)))) dft in
  let* e := frame_energy frame in
  let* s := if Rlt_dec e (wi_thresh s) then
      let noise := wi_alpha s * wi_noise s + (1 - wi_alpha s) * e in
      let* h := compute_wiener_filter (wi_speech s) noise in
      Some (with_psd s (wi_speech s) noise h)
    else let* r := foldM (wiener_iter npts frame dft) (seq 0 (wi_iter s)) (s, frame) in Some (fst r) in
  Some (s, map2 Cscal (wi_filt s) dft, match frame_dft with Some _ => Some dft | None => None end).
(** A client: successive calls. *)
Fixpoint filtered_outputs (npts : nat) (s : wiener) (calls : list (vec * option (list C))) : option (wiener * list (list C)) :=
  match calls with
  | [] => Some (s, [])
  | (f, X) :: calls => let* r := compute_filtered_output npts s f X in let* q := filtered_outputs npts (fst (fst r)) calls in Some (fst q, snd (fst r) :: snd q)
  end.
(** 418-421 *)
Definition wiener_proc (npts : nat) (s : wiener) (buf : vec) (X : list C) : option (wiener * list C) :=
  let* r := compute_filtered_output npts s buf (Some X) in Some (fst (fst r), snd (fst r)).
Definition apply_iterative_wiener (npts : nat) (x : vec) (frame_len order iterations : nat) (alpha thresh : R) : option vec :=
  let* s := wiener_new frame_len order iterations alpha thresh in
  one_shot (wiener_proc npts) frame_len s x.
