(** /repo/pyroomacoustics/acoustics.py: octave bands (102-129), the cosine filter bank (182-233,
    362-527), the Antoni filter bank (236-288, 549-815), over real and complex numbers. Transforms are
    those of DftModel (numpy.fft). Not modelled: minimum phase filters. *)
From Coq Require Import List ZArith Lia Reals Bool.
From Verif Require Import Base Vec Sum Cpx DftModel SimulateModel ParamModel.
Import ListNotations.
Local Open Scope R_scope.

(** ** Octave bands (acoustics.py:102-129): bands and centres *)
Definition octave_count (third : bool) (n : nat) : nat := if third then (n * 3 - 2)%nat else n.
Definition octave_centers (fc : R) (third : bool) (start : R) (n : nat) : vec :=
  let div := if third then 3 else 1 in
  map (fun i => fc * Rpower 2 ((start * div + INR i) / div)) (seq 0 (octave_count third n)).
Definition octave_bands (fc : R) (third : bool) (start : R) (n : nat) : list (R * R) * vec :=
  let div := if third then 3 else 1 in
  let fcentre := octave_centers fc third start n in
  let fd := Rpower 2 (/ 2 / div) in
  (map (fun f => (f / fd, f * fd)) fcentre, fcentre).
(** math.floor(np.log2(fs / base_frequency)), acoustics.py:407, 607 *)
Definition n_octaves (fs base : R) : Z := Int_part (log2 (fs / base)).

(** ** Cosine filter bank (acoustics.py:182-233) *)
Section Cosine.
Variables (centers : vec) (fs : R) (keep_dc : bool).
Let n := length centers.
Let c (i : nat) := nth i centers 0.
(** new_bands, 191-195 *)
Definition cosine_band (b : nat) : R * R :=
  if Nat.eqb b 0 then (c 0 / 2, c 1) else if Nat.eqb b (n - 1) then (c (n - 2), fs / 2) else (c (b - 1), c (b + 1)).
(** 202-221, entry of band [b] at frequency [freq] (the masks of the two sides are disjoint) *)
Definition cosine_mag (b : nat) (freq : R) : R :=
  let '(b0, b1) := cosine_band b in
  let center := c b in
  let rising :=
    if Nat.eqb b 0 && keep_dc then (if Rlt_dec freq center then 1 else 0)
    else if Rle_dec b0 freq then (if Rlt_dec freq center then / 2 * (1 + cos (2 * PI * freq / center)) else 0) else 0 in
  if negb (Nat.eqb b (n - 1)) then
    (if Rle_dec center freq then (if Rlt_dec freq b1 then / 2 * (1 - cos (2 * PI * freq / b1)) else rising) else rising)
  else (if Rle_dec center freq then 1 else rising).
(** The whole function; [None]: IndexError (fewer than two bands, or a band without any positive bin) *)
Definition cosine_response (n_fft : nat) : option (list vec) :=
  let freq k := INR k / INR n_fft * fs in
  let rows := map (fun b => map (fun k => cosine_mag b (freq k)) (seq 0 (n_fft / 2 + 1))) (seq 0 n) in
  if (n <? 2)%nat then None else
  if forallb (existsb (fun m => if Rlt_dec 0 m then true else false)) rows then Some rows else None.
End Cosine.

(** OctaveBandsFactory._make_filters, acoustics.py:503-527 (min_phase=False): one filter per band *)
Definition factory_filters (n_fft : nat) (mag : list vec) : list vec :=
  let delay k := omega n_fft (Z.of_nat (k * (n_fft / 2 + 1))) in
  map (fun row => irfft n_fft (map (fun k => (RtoC (nth k row 0%R) * delay k)%C) (seq 0 (n_fft / 2 + 1)))) mag.
(** fftconvolve(x, h, mode="same") along samples *)
Definition conv_same (x h : vec) : vec := firstn (length x) (skipn ((length h - 1) / 2) (conv x h)).
(** OctaveBandsFactory.analysis of all bands, acoustics.py:424-461: one signal per band *)
Definition factory_analysis (filters : list vec) (x : vec) : list vec := map (conv_same x) filters.
(** OctaveBandsFactory.energy, acoustics.py:486-500: the array of band signals has shape (samples,
    bands) and is summed along its last axis *)
Definition factory_energy (filters : list vec) (x : vec) : vec :=
  let x_bands := factory_analysis filters x in
  map (fun t => Rsum (map (fun y => nth t y 0 * nth t y 0) x_bands)) (seq 0 (length x)).

(** ** Antoni filter bank (acoustics.py:236-288) *)
(** numpy.round: half to even *)
Definition rint (x : R) : Z :=
  let f := Int_part x in
  if Rlt_dec (x - IZR f) (/ 2) then f else if Rlt_dec (/ 2) (x - IZR f) then (f + 1)%Z else if Z.even f then f else (f + 1)%Z.
(** phi, 265-269 *)
Definition antoni_phi (slope : nat) (p P : Z) : R :=
  / 2 * (Nat.iter slope (fun phi => sin (PI / 2 * phi)) (IZR p / IZR P) + 1).
Record antoni := { an_G : nat -> nat -> R; an_low : nat -> Z; an_km : nat -> Z; an_high : nat -> Z }.
Section Antoni.
Variables (n_fft : nat) (centers : vec) (bands : list (R * R)) (fs overlap : R) (slope : nat).
Let n := length centers.
Let n_freq := (n_fft / 2 + 1)%nat.
Definition an_bin (f : R) : Z := rint (f / fs * INR n_fft).
(** 246-255 *)
Definition an_k1 (b : nat) : Z := if Nat.eqb b 0 then 0%Z else an_bin (fst (nth b bands (0, 0))).
Definition an_P (b : nat) : Z := rint (overlap * IZR (an_bin (snd (nth b bands (0, 0))) - an_bin (nth b centers 0))).
(** 258-282, one turn of the loop. [None]: ValueError (the transition of 2P+1 bins does not fit); bands
    below zero or a negative overlap, whose Python slices count from the end, are not modelled. *)
Definition antoni_step (G : nat -> nat -> R) (band : nat) : option (nat -> nat -> R) :=
  let k1 := an_k1 band in
  let P := an_P band in
  if (P <? 0)%Z || (k1 <? 0)%Z then None else
  if (0 <? P)%Z && ((k1 - P <? 0)%Z || (Z.of_nat n_freq <? k1 + P + 1)%Z) then None else
  let inside k := ((0 <? P) && (k1 - P <=? k) && (k <? k1 + P + 1))%Z in
  let phi k := antoni_phi slope (k - k1)%Z P in
  Some (fun b k =>
    let k' := Z.of_nat k in
    if Nat.eqb b (band - 1) then (if (k1 + P <=? k')%Z then 0 else if inside k' then cos (PI / 2 * phi k') else G b k)
    else if Nat.eqb b band then (if (k' <? k1 - P)%Z then 0 else if inside k' then sin (PI / 2 * phi k') else G b k)
    else G b k).
(** 236-288; [None] also for no band (k1[0] fails) *)
Definition antoni_response : option antoni :=
  if Nat.eqb n 0 then None else
  let* G := foldM antoni_step (seq 1 (n - 1)) (fun _ _ => 1) in
  Some {| an_G := G;
          an_low := fun b => if Nat.eqb b 0 then 0%Z else (an_k1 b - an_P b)%Z;
          an_km := fun b => an_bin (nth b centers 0);
          an_high := fun b => if Nat.eqb b (n - 1) then Z.of_nat n_freq else (an_k1 (b + 1) + an_P (b + 1))%Z |}.
End Antoni.

(** ** Antoni decomposition (acoustics.py:642-815) *)
Definition Ci : C := (0, 1).
Definition Cpow (z : C) (k : nat) : C := Nat.iter k (Cmul z) C1.
Section Wavelet.
Variables (A : antoni) (n_bands n_fft : nat).
(** X, 675: zero beyond the last bin (the padding of 681-687) *)
Definition wav_X (x : vec) (k : nat) : C := Cscal (/ sqrt (INR n_fft)) (nth k (rfft n_fft x) C0).
(** G with the same padding *)
Definition wav_G (b k : nat) : R := if (k <? n_fft / 2 + 1)%nat then an_G A b k else 0.
(** Nm, 679 *)
Definition wav_N (b : nat) : Z := ((an_high A b - an_low A b + 1) / 2)%Z.
Definition wav_low (b : nat) : nat := Z.to_nat (an_low A b).
(** 691-707, one band; [None]: ValueError (transform of length 0) *)
Definition wavelet_analysis (x : vec) (b : nat) : option (list C) :=
  if (wav_N b <=? 0)%Z then None else
  let N := Z.to_nat (wav_N b) in
  let k t := (wav_low b + t)%nat in
  let delta := sqrt (1 / (2 * INR N)) in
  let W_pos j := dft (2 * N) (fun t => (RtoC (wav_G b (k t)) * wav_X x (k t))%C) j in
  let W_neg j := Conj (dft (2 * N) (fun t => (RtoC (wav_G b (k t)) * Conj (wav_X x (k t)))%C) j) in
  let W_np := map W_neg (map (fun i => (N - 1 - i)%nat) (seq 0 (N - 1))) ++ map W_pos (seq 0 (N + 1)) in
  let j i := (Z.of_nat i - Z.of_nat N + 1)%Z in
  let cexp i := cis (PI * IZR (an_km A b - an_low A b) * IZR (j i) / INR N) in
  Some (map (fun i => (Cscal delta (Cpow Ci b) * cexp i * nth i W_np C0)%C) (seq 0 (2 * N))).
(** 740-767, the band signal made of the coefficients of band [b] *)
Definition wavelet_synthesis (len : nat) (b : nat) (coeffs : list C) : vec :=
  let N := (length coeffs / 2)%nat in
  let delta := sqrt (1 / (2 * INR N)) in
  let cexp1 t := cis (- PI * IZR (Z.of_nat (wav_low b + t) - an_km A b) * (INR N - 1) / INR N) in
  let cexp2 t := cis (- PI * IZR (an_km A b - an_low A b) * INR t / INR N) in
  let Y t := Conj (dft (2 * N) (fun s => Conj (cexp2 s * nth s coeffs C0)%C) t) in
  let X_filt k := if (wav_low b <=? k)%nat && (k <? wav_low b + 2 * N)%nat
    then let t := (k - wav_low b)%nat in (Cscal (wav_G b k * delta) (Cpow (Copp Ci) b) * cexp1 t * Y t)%C else C0 in
  firstn len (map (fun v => v * sqrt (INR n_fft)) (irfft n_fft (map X_filt (seq 0 (n_fft / 2 + 1))))).
End Wavelet.
(** n_fft of wavelet_analysis, 674 (oversampling 2) *)
Definition wav_nfft (len : nat) : nat := (2 ^ Nat.log2_up (2 * len))%nat.
(** AntoniOctaveFilterBank(base, fs, overlap, slope, third).analysis(x), 588-616 and 789-815: one signal
    per band; [None]: math.log2(0) (no sample), or an error of the parts *)
Definition antoni_of (base fs overlap : R) (slope : nat) (third : bool) (n_fft : nat) : option antoni :=
  let '(bands, centers) := octave_bands base third 0 (Z.to_nat (n_octaves fs base)) in
  antoni_response n_fft centers bands fs overlap slope.
Definition antoni_bands (fs base : R) (third : bool) : nat := octave_count third (Z.to_nat (n_octaves fs base)).
Definition antoni_analysis (base fs overlap : R) (slope : nat) (third : bool) (x : vec) : option (list vec) :=
  if Nat.eqb (length x) 0 then None else
  let n_fft := wav_nfft (length x) in
  let* A := antoni_of base fs overlap slope third n_fft in
  mapM (fun b => let* w := wavelet_analysis A n_fft x b in Some (wavelet_synthesis A n_fft (length x) b w)) (seq 0 (antoni_bands fs base third)).
(** energy, 769-787 *)
Definition antoni_energy (base fs overlap : R) (slope : nat) (third : bool) (x : vec) : option vec :=
  if Nat.eqb (length x) 0 then None else
  let n_fft := wav_nfft (length x) in
  let* A := antoni_of base fs overlap slope third n_fft in
  mapM (fun b => let* w := wavelet_analysis A n_fft x b in Some (2 * Rsum (map Cabs2 w))) (seq 0 (antoni_bands fs base third)).
