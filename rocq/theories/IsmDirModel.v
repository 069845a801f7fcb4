(** /repo/pyroomacoustics/simulation/ism.py: multi_convolve 40-58 and compute_ism_rir 111-279
    with directivities; utilities.py angle_function 821-863.  Exact real arithmetic (the
    float32 roundings of lines 204-240 are not modelled).  [None] is an exception. *)
From Coq Require Import List ZArith Lia Reals Lra Bool.
From Verif Require Import Base Vec Sum Cpx DftModel WallModel SphereModel RirModel.
Import ListNotations.
Local Open Scope R_scope.

(** ** multi_convolve, ism.py:40-58 *)
(** A two-dimensional array of signals: number of columns and rows. *)
Record batch := { b_taps : nat; b_rows : list (list R) }.
(** ism.py:41-47: [None] when the numbers of rows differ *)
Fixpoint conv_len (shape max_len : nat) (signals : list batch) : option nat :=
  match signals with
  | [] => Some max_len
  | s :: rest => if negb (Nat.eqb shape (length (b_rows s))) then None
                 else conv_len shape (max_len + b_taps s - 1) rest
  end.
(** ism.py:49: [2 ** math.ceil(np.log2(max_len))]; log2 of 0 is -inf and its ceiling raises *)
Definition pow2_len (max_len : nat) : option nat :=
  if Nat.eqb max_len 0 then None else Some (2 ^ Nat.log2_up max_len)%nat.
(** ism.py:51-56, one row: product of the spectra, inverse, first [max_len] samples *)
Definition row_conv (n max_len : nat) (first : list R) (rest : list (list R)) : list R :=
  let fd := fold_left (fun fd r => map2 Cmul fd (rfft n r)) rest (rfft n first) in
  firstn max_len (irfft n fd).
Definition multi_convolve (signals : list batch) : option batch :=
  match signals with
  | [] => None
  | s0 :: rest =>
      let shape := length (b_rows s0) in
      let* max_len := conv_len shape (b_taps s0) rest in
      let* n := pow2_len max_len in
      Some {| b_taps := max_len;
              b_rows := map (fun i => row_conv n max_len (nth i (b_rows s0) []) (map (fun s => nth i (b_rows s) []) rest)) (seq 0 shape) |}
  end.

(** ** Directivities *)
(** utilities.py:821-863, one point [s1] and the reference [v2]: azimuth and colatitude *)
Definition angle_function (s1 v2 : list R) : option (R * R) :=
  if negb (Nat.eqb (length s1) (length v2)) then None else
  let two := Nat.eqb (length s1) 2 in
  let s1 := if two then s1 ++ [0] else s1 in
  let v2 := if two then v2 ++ [0] else v2 in
  let '(az, co, _) := cart2spher (vminus s1 v2) in
  Some (az, if two then PI / 2 else co).

(** directivities/base.py:50-62, the three kinds of responses a Directivity may have, one per
    (azimuth, colatitude): a number; one number per octave band; an impulse response *)
Inductive directivity :=
  | DFlat (g : R * R -> R)
  | DBands (n : nat) (g : R * R -> list R)
  | DTaps (n : nat) (h : R * R -> list R).

(** [oct_band_amplitude *= gain] for a gain of shape (n,): the last axis must fit *)
Definition times_flat (amps : list (list R)) (n : nat) (g : list R) : option (list (list R)) :=
  if Nat.eqb (length g) n then Some (map (fun row => map2 Rmult row g) amps)
  else match g with [x] => Some (map (fun row => map (fun a => a * x) row) amps) | _ => None end.
(** The same for a gain with rows [g] of [cols] entries.  The array on the left has
    [length amps] rows of [n] entries and keeps its shape, so each dimension of the gain
    must be the same or 1. *)
Definition times_grid (amps : list (list R)) (n cols : nat) (g : list (list R)) : option (list (list R)) :=
  if (Nat.eqb (length g) (length amps) || Nat.eqb (length g) 1) && (Nat.eqb cols n || Nat.eqb cols 1) then
    Some (map (fun b => map (fun j =>
      let r := if Nat.eqb (length g) 1 then 0%nat else b in
      let k := if Nat.eqb cols 1 then 0%nat else j in
      nth j (nth b amps []) 0 * nth k (nth r g []) 0) (seq 0 n)) (seq 0 (length amps)))
  else None.
(** ism.py:141-172 for one of the two directivities: amplitudes and impulse responses so far *)
Definition add_gain (dir : option directivity) (angles : list (R * R)) (st : list (list R) * list batch)
    : option (list (list R) * list batch) :=
  let '(amps, irs) := st in
  match dir with
  | None => Some (amps, irs)
  | Some (DFlat g) => let* a := times_flat amps (length angles) (map g angles) in Some (a, irs)
  | Some (DBands n g) => let* a := times_grid amps (length angles) n (map g angles) in Some (a, irs)
  | Some (DTaps n h) => Some (amps, irs ++ [{| b_taps := n; b_rows := map h angles |}])
  end.

(** ** compute_ism_rir, ism.py:111-279 *)
(** ism.py:201-203 *)
Definition int_delays (dist : list R) (c fs : R) : list Z := map (fun d => Zfloor (d / c * fs)) dist.
Definition frac_parts (dist : list R) (c fs : R) : list R := map (fun d => d / c * fs - IZR (Zfloor (d / c * fs))) dist.
(** Row [i] of a flat array with rows of [cols] entries. *)
Definition unflatten (rows cols : nat) (x : list R) : list (list R) :=
  map (fun i => map (fun k => nth (i * cols + k) x 0) (seq 0 cols)) (seq 0 rows).
(** [amps.T], one row per image *)
Definition transpose (n : nat) (amps : list (list R)) : list (list R) :=
  map (fun j => map (fun row => nth j row 0) amps) (seq 0 n).

(** ism.py:200-240.  [synth] stands for octave_bands.synthesis(., min_phase): the filter of
    [n_fft] taps for the amplitudes of one image. *)
Definition full_band (synth : list R -> list R) (n_fft : nat) (min_phase : bool) (dist : list R) (amps : list (list R)) (irs : list batch)
    (c : R) (fs : Z) (fdl gran threads : nat) (result : list R) : Prop :=
  let n := length dist in
  let ip := int_delays dist c (IZR fs) in
  exists flat irs' rir,
    fractional_delay (frac_parts dist c (IZR fs)) fdl gran threads (repeat 0 (n * fdl)) flat /\
    (let fd := {| b_taps := fdl; b_rows := unflatten n fdl flat |} in
     (if Nat.eqb (length amps) 1
      then let* m := multi_convolve (irs ++ [fd]) in
           Some {| b_taps := b_taps m;
                   b_rows := map2 (fun row a => map (fun x => x * a) row) (b_rows m) (nth 0 amps []) |}
      else multi_convolve (irs ++ [fd; {| b_taps := n_fft; b_rows := map synth (transpose n amps) |}])) = Some irs') /\
    delay_sum (b_rows irs') (b_taps irs') ip (repeat 0 (Z.to_nat (Zlist_max ip + Z.of_nat (b_taps irs')))) threads rir /\
    result = if (1 <? length amps)%nat && negb min_phase then skipn (n_fft / 2) rir else rir.

(** [directions]: the directions in which the images leave the source (src_directions) *)
Definition compute_ism_rir_dir (filt : nat -> list R -> list R) (synth : list R -> list R) (n_fft : nat) (min_phase : bool)
    (images : list (list R)) (damping : list (list R)) (visible : list bool) (mic : list R)
    (mic_dir src_dir : option directivity) (directions : list (list R))
    (air : option (list R)) (c : R) (fs : Z) (fdl gran threads : nat) (result : list R) : Prop :=
  let dist := map (fun im => vdist im mic) (select visible images) in
  let att := map (select visible) damping in
  exists amps0 mic_angles amps irs,
    dist <> [] /\
    amplitudes att dist air = Some amps0 /\
    match mic_dir with
    | None => mic_angles = []
    | Some _ => mapM (fun im => angle_function im mic) (select visible images) = Some mic_angles
    end /\
    (let src_angles := map (fun d => let '(az, co, _) := cart2spher d in (az, co)) (select visible directions) in
     let* st := add_gain mic_dir mic_angles (amps0, []) in add_gain src_dir src_angles st) = Some (amps, irs) /\
    match irs with
    | [] =>
        let time := ism_times dist c (IZR fs) fdl in
        let N := Z.to_nat (ism_length time (IZR fs) fdl) in
        bands_loop filt (length amps) N time amps fs fdl gran threads 0 (repeat 0 N) result
    | _ => full_band synth n_fft min_phase dist amps irs c fs fdl gran threads result
    end.
