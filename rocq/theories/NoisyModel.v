(** /repo/pyroomacoustics/utilities.py: create_noisy_signal 73-149, rms 152-166, normalize_pwr 229-237,
    dB 366-370.

    Exact real arithmetic.  Signals of several channels are lists of frames, signals of one channel lists
    of frames of one number; a signal and a noise with different numbers of channels are not modelled.
    [None] is an exception, or a result with numbers that are not finite (0/0, log of zero). *)
From Coq Require Import List ZArith Lia Reals Lra Bool.
From Verif Require Import Base Vec UtilModel MeasureModel.
Import ListNotations.
Local Open Scope R_scope.

(** 152-166: the mean of no numbers is NaN *)
Definition rms (x : vec) : option R :=
  match x with [] => None | _ => Some (sqrt (Rsum (map (fun v => v * v) x) / INR (length x))) end.
(** 229-237 *)
Definition normalize_pwr (sig1 sig2 : vec) : option vec :=
  match sig1, sig2 with
  | [], _ => Some []
  | _, [] => None
  | _, _ =>
      let p1 := Rsum (map (fun v => v ^ 2) sig1) / INR (length sig1) in
      let p2 := Rsum (map (fun v => v ^ 2) sig2) / INR (length sig2) in
      if Req_EM_T p1 0 then None else Some (map (fun v => v * sqrt (p2 / p1)) sig1)
  end.
(** 366-370 *)
Definition dB (signal : vec) (power : bool) : option vec :=
  mapM (fun v => if Req_EM_T v 0 then None else Some ((if power then 10 else 20) * log10 (Rabs v))) signal.

(** x[:k] and x[k:] along the first axis *)
Definition slice_to {A} (x : list A) (k : Z) : list A :=
  if (0 <=? k)%Z then firstn (Z.to_nat k) x else firstn (Z.to_nat (Z.of_nat (length x) + k)) x.
Definition slice_from {A} (x : list A) (k : Z) : list A :=
  if (0 <=? k)%Z then skipn (Z.to_nat k) x else skipn (Z.to_nat (Z.of_nat (length x) + k)) x.
(** a + b: the numbers of frames are equal or one of them is one *)
Definition add_frames (a b : list vec) : option (list vec) :=
  if Nat.eqb (length a) (length b) then Some (map2 (map2 Rplus) a b)
  else match a, b with
       | [x], _ => Some (map (map2 Rplus x) b)
       | _, [y] => Some (map (fun x => map2 Rplus x y) a)
       | _, _ => None
       end.
Definition scale (k : R) (x : list vec) : list vec := map (map (fun v => v * k)) x.
(** 73-149 from the arrays of the two files ([clean], and [noise_file] with its sampling rate);
    [white n] are n frames drawn by numpy.  Also 117-124 (normalize of the drawn noise). *)
Definition create_noisy (fs : Z) (clean : list vec) (snr : R) (noise_file : option (Z * list vec)) (white : nat -> list vec)
    (offset : option R) : option (list vec * list vec * list vec * Z) :=
  let offset_samp := match offset with Some o => trunc (o * IZR fs) | None => 0%Z end in
  let output_len := (Z.of_nat (length clean) + offset_samp)%Z in
  let* noise := match noise_file with
    | Some (fs_n, x) =>
        if negb (fs_n =? fs)%Z then None else
        if (Z.of_nat (length x) <? output_len)%Z then None else Some (slice_to x output_len)
    | None =>
        if (output_len <? 0)%Z then None else
        let x := white (Z.to_nat output_len) in
        if Req_EM_T (absmax (concat x)) 0 then None else Some (map (map (fun v => v / absmax (concat x))) x)
    end in
  let* signal_level := rms (concat clean) in
  let* noise_level := rms (concat (slice_from noise offset_samp)) in
  if Req_EM_T noise_level 0 then None else
  let noise_fact := signal_level / noise_level * Rpower 10 (- snr / 20) in
  let noise_weighted := scale noise_fact noise in
  let* noisy := add_frames clean noise_weighted in
  let norm_fact := absmax (concat noisy) in
  if Req_EM_T norm_fact 0 then None else
  let noisy := map (map (fun v => v / norm_fact)) noisy in
  let mean := Rsum (concat noisy) / INR (length (concat noisy)) in
  Some (map (map (fun v => v - mean)) noisy, map (map (fun v => v / norm_fact)) clean, map (map (fun v => v / norm_fact)) noise_weighted, fs).
