(** /repo/pyroomacoustics/metrics.py: mse, snr, sweeping_echo_measure.  Real signals; [None] is an
    exception, NaN or infinity. *)
From Coq Require Import List ZArith Lia Reals Lra Bool R_Ifp.
From Verif Require Import Base Vec Sum Cpx DftModel StftModel SyncModel.
Import ListNotations.
Local Open Scope R_scope.

(** mse, 129-142, of two vectors and of two arrays (rows); shapes must agree (broadcasting is not
    modelled) *)
Definition sqdist (x y : list R) : R := Rsum (map2 (fun a b => (a - b) ^ 2) x y).
Definition mse (x y : list R) : option R :=
  if negb (Nat.eqb (length x) (length y)) then None else if Nat.eqb (length x) 0 then None else Some (sqdist x y / INR (length x)).
Definition mse2 (x y : list (list R)) : option R :=
  if negb (Nat.eqb (length x) (length y)) then None else if Nat.eqb (length x) 0 then None else
  if negb (forallb (fun p => Nat.eqb (length (fst p)) (length (snd p))) (combine x y)) then None else
  Some (Rsum (map2 sqdist x y) / INR (length x)).
(** snr, 164-165 *)
Definition snr (ref deg : list R) : option R :=
  if negb (Nat.eqb (length ref) (length deg)) then None else
  if Req_EM_T (sqdist ref deg) 0 then None else Some (Rsum (map (fun a => a ^ 2) ref) / sqdist ref deg).

(** sweeping_echo_measure, 272-290: the transform and the grid; scipy's hann is symmetric *)
Definition fft_size : nat := 512.
Definition fft_hop : nat := 256.
Definition fft_zp : nat := 3584.
Definition hann_sym (N i : nat) : R := 1 / 2 - 1 / 2 * cos (2 * PI * INR i / INR (N - 1)).
Definition ana_win : vec := map (hann_sym fft_size) (seq 0 fft_size).
(** half of the [nfft / 2 + 1] bins returned *)
Definition n_freqs : nat := ((fft_size + fft_zp) / 2 + 1) / 2.
Definition time_of (fs : R) (k : nat) : R := INR k * INR fft_hop / fs.
Definition freq_of (fs : R) (b : nat) : R := fs / 2 * INR b / INR (n_freqs - 1).
(** 295-303; [S] as a function of frame and bin *)
Definition band (fs : R) (b : nat) : bool :=
  (Z.leb (Int_part (INR n_freqs / fs * 50)) (Z.of_nat b) && Z.ltb (Z.of_nat b) (- Int_part (- (INR n_freqs / fs * (9 / 10 * fs / 2)))))%bool.
Definition norm_factor (fs : R) (S : nat -> nat -> C) (k : nat) : R := Rsum (map (fun b => Cabs2 (S k b)) (filter (band fs) (seq 0 n_freqs))).
Definition phi (fs : R) (S : nat -> nat -> C) (k b : nat) : option R :=
  if Req_EM_T (norm_factor fs S k) 0 then None else Some (Cabs (S k b) / sqrt (norm_factor fs S k)).
(** 306-324 *)
Definition n_coeffs : nat := 500.
Definition slope (i : nat) : R := 5000 + (150000 - 5000) * INR i / INR (n_coeffs - 1).
Definition masked (fs t_min t_max fb a : R) (k b : nat) : bool :=
  let t := time_of fs k in let f := freq_of fs b in
  if Rlt_dec t_min t then if Rlt_dec t t_max then if Rlt_dec (t * a - fb / 2) f then if Rlt_dec f (t * a + fb / 2) then true else false else false else false else false.
Definition cells (F : nat) (fs t_min t_max fb a : R) : list (nat * nat) :=
  filter (fun p => masked fs t_min t_max fb a (fst p) (snd p)) (flat_map (fun k => map (pair k) (seq 0 n_freqs)) (seq 0 F)).
Definition mean (l : list R) : option R := if Nat.eqb (length l) 0 then None else Some (Rsum l / INR (length l)).
Definition slope_mean (F : nat) (S : nat -> nat -> C) (fs t_min t_max fb a : R) : option R :=
  let* l := mapM (fun p => phi fs S (fst p) (snd p)) (cells F fs t_min t_max fb a) in mean l.
(** 327; a mean of zero gives a logarithm of minus infinity, and zero *)
Definition flatness (ss : list R) : option R :=
  let m := Rsum (map Rabs ss) / INR (length ss) in
  if Req_EM_T m 0 then None else
  if forallb (fun s => if Req_EM_T s 0 then false else true) ss then Some (exp (Rsum (map (fun s => ln (Rabs s)) ss) / INR (length ss)) / m) else Some 0.
(** the spectrogram; a single frame is squeezed and cannot be unpacked; only positive rates *)
Definition spectrogram (rir : vec) : option (list (list C)) :=
  let* S := one_shot_analysis rir fft_size fft_hop (Some ana_win) fft_zp 0 in
  if Nat.eqb (length S) 1 then None else Some S.
Definition slope_means (rir : vec) (fs t_min t_max fb : R) : option (list R) :=
  let* S := spectrogram rir in
  mapM (fun i => slope_mean (length S) (fun k b => nth b (nth k S []) C0) fs t_min t_max fb (slope i)) (seq 0 n_coeffs).
Definition sweeping_echo_measure (rir : vec) (fs t_min t_max fb : R) : option R :=
  if Rle_dec fs 0 then None else let* ss := slope_means rir fs t_min t_max fb in flatness ss.
