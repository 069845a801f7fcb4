(** /repo/pyroomacoustics/simulation/rt.py: from ray tracing histograms to impulse responses.

    Exact real arithmetic; random draws are arguments (numbers of [0, 1) and signs); [None] is a
    raised exception. Not modelled: [poisson_sequence]'s draw of exactly zero is an exception here
    (the code computes an infinite time, and then refuses the negative array size); the octave band
    filters [octave_bands.analysis] and [octave_bands.synthesis] are arguments (they are modelled in
    BandsModel). *)
From Coq Require Import List ZArith Lia Reals Bool.
From Verif Require Import Base Vec RirModel SimulateModel BandsModel.
Import ListNotations.
Local Open Scope R_scope.

(** ** poisson_sequence, rt.py:39-62 *)
(** rt.py:44, 56: the constant and the rate used at the time of the last point *)
Definition fpcv (volume c : R) : R := 4 * PI * c ^ 3 / volume.
Definition rate (volume c max_rate t0 last : R) : R := Rmin (fpcv volume c * (t0 + last) ^ 2) max_rate.
(** rt.py:46-48 *)
Definition start_time (volume c : R) (t0 : option R) : R :=
  match t0 with Some t => t | None => Rpower (2 * ln 2 / fpcv volume c) (/ 3) end.
(** rt.py:52-60, at most [fuel] turns; [None] also when they are not enough; [z] are the draws *)
Fixpoint poisson_loop (fuel : nat) (volume c max_rate t0 stop : R) (z : nat -> R) (last : R) : option (list R) :=
  if Rlt_dec last stop then
    match fuel with
    | O => None
    | S n => if Req_EM_T (z 0%nat) 0 then None else
        let dt := ln (1 / z 0%nat) / rate volume c max_rate t0 last in
        let* r := poisson_loop n volume c max_rate t0 stop (fun i => z (S i)) (last + dt) in Some (last :: r)
    end
  else Some [last].
Definition poisson_sequence (fuel : nat) (volume duration c max_rate : R) (t0 : option R) (z : nat -> R) : option (R * list R) :=
  let t := start_time volume c t0 in
  let* times := poisson_loop fuel volume c max_rate t (t + duration) z t in Some (t, times).

(** ** binary_sequence, rt.py:65-73 *)
(** rt.py:69: [(times * fs).astype(np.int64)], for times that are not negative *)
Definition delta_index (fs t : R) : nat := Z.to_nat (Zfloor (t * fs)).
Definition indices (fs : R) (times : vec) : list nat := map (delta_index fs) times.
(** [seq[indices] = values]: the last assignment to a sample counts *)
Fixpoint scatter (buf : vec) (idx : list nat) (values : vec) : option vec :=
  match idx, values with
  | i :: idx', v :: values' => let* buf' := store buf i v in scatter buf' idx' values'
  | _, _ => Some buf
  end.
Definition binary_sequence (fs : R) (times signs : vec) : option vec :=
  match times with
  | [] => None
  | _ => let idx := indices fs times in scatter (repeat 0 (last idx 0%nat + 1)) idx signs
  end.

(** ** seq_rolling_power, rt.py:174-177 *)
Definition seq_rolling_power (x : vec) (hbss mult : nat) : vec :=
  conv_same (map (fun v => v ^ 2) x) (repeat (1 / INR mult) (mult * hbss)).

(** ** directional_sequence, rt.py:76-144 *)
Definition tiny : R := / 10 ^ 10.
(** rt.py:109-110 *)
Definition power_norm (p : vec) : vec := map (fun v => if Rlt_dec tiny v then 1 / v else 0) p.
(** rt.py:115-116: the column of the histogram used for a delta at time [t] *)
Definition delta_bin (t0 bin_size : R) (n_bins : nat) (t : R) : nat :=
  Nat.min (Z.to_nat (Zfloor ((t - t0) / bin_size))) (n_bins - 1).
(** rt.py:120-124: one column of [cdf]; [col] is the column of the histogram *)
Definition cumsum (col : vec) : vec := map (fun k => Rsum (firstn (S k) col)) (seq 0 (length col)).
Definition cdf (col : vec) : vec :=
  let u := map (fun _ => 1) col in
  let col' := if Rlt_dec tiny (Rsum col) then col else u in
  map (fun v => v / Rsum col') (cumsum col').
(** rt.py:131: how many entries of the cdf the draw exceeds *)
Definition choose (z : R) (col : vec) : nat := length (filter (fun v => if Rlt_dec v z then true else false) (cdf col)).
Definition column (m : list vec) (j : nat) : vec := map (fun row => nth j row 0) m.

(** rt.py:142-143: [seq[i : i + n] += x] *)
Definition add_at (buf : vec) (i : nat) (x : vec) : vec :=
  map (fun k => nth k buf 0 + (if (i <=? k)%nat then nth (k - i) x 0 else 0)) (seq 0 (length buf)).

Record draws := { d_sign1 : vec; d_dir : vec; d_sign2 : vec }.

(** One delta: its sample, sign and taps, scaled (rt.py:142-143). *)
Definition delta (fs t0 bin_size : R) (response hist : list vec) (norm : vec) (d : draws) (times : vec) (j : nat) : nat * vec :=
  let t := nth j times 0 in
  let i := delta_index fs t in
  let col := column hist (delta_bin t0 bin_size (length (nth 0 hist [])) t) in
  (i, map (fun x => nth j (d_sign2 d) 0 * x * sqrt (nth i norm 0)) (nth (choose (nth j (d_dir d) 0) col) response [])).
Definition directional_sequence (fs t0 bin_size : R) (times : vec) (response hist : list vec) (d : draws) : option vec :=
  let n_taps := length (nth 0 response []) in
  let* seq_bp := binary_sequence fs times (d_sign1 d) in
  let norm := power_norm (seq_rolling_power seq_bp (Z.to_nat (Zfloor (bin_size * fs))) 2) in
  let idx := indices fs times in
  if forallb (fun j => Nat.ltb (choose (nth j (d_dir d) 0)
                          (column hist (delta_bin t0 bin_size (length (nth 0 hist [])) (nth j times 0)))) (length response))
             (seq 0 (length times))
  then Some (fold_left (fun buf j => let '(i, x) := delta fs t0 bin_size response hist norm d times j in add_at buf i x)
                       (seq 0 (length times)) (repeat 0 (last idx 0%nat + n_taps + 1)))
  else None.

(** ** interp_hist, rt.py:147-171, on one row *)
(** [np.linspace(pad, N - 1 - pad, n)[k]] *)
Definition anchor (N n : nat) (k : nat) : R :=
  let pad := INR (N / n / 2) in
  if Nat.eqb n 1 then pad else pad + INR k * ((INR N - 1 - pad - pad) / (INR n - 1)).
(** [interp1d(t, hist)] at [x] (numpy.interp) *)
Fixpoint interp (pts : list (R * R)) (x : R) : R :=
  match pts with
  | [] => 0
  | [(_, y)] => y
  | (t1, y1) :: (((t2, y2) :: _) as r) => if Rlt_dec x t2 then (y2 - y1) / (t2 - t1) * (x - t1) + y1 else interp r x
  end.
(** rt.py:162-171. With [pad = 0] the slice [0:-0] is empty (assigning more than one value to it
    fails) and the slice [-0:] is everything; [out[-pad]] is the sample number [N - pad], or 0. *)
Definition interp_hist (hist : vec) (N : nat) : option vec :=
  let n := length hist in
  if Nat.eqb n 0 then None else
  let pad := (N / n / 2)%nat in
  let pts := map (fun k => (anchor N n k, nth k hist 0)) (seq 0 n) in
  let f := map (fun i => interp pts (INR i)) (seq pad (N - pad - pad)) in
  if Nat.eqb pad 0 then (if Nat.eqb N 1 then Some (repeat 0 N) else None)
  else
    let out1 := repeat 0 pad ++ f ++ repeat 0 pad in
    let out2 := repeat (nth pad out1 0) pad ++ skipn pad out1 in
    Some (firstn (N - pad) out2 ++ repeat (nth (N - pad) out2 0) pad).

(** ** adjust_length_and_stack, rt.py:180-190, one histogram row *)
Definition adjust_length (n : nat) (h : vec) : vec := firstn n (h ++ repeat 0 (n - length h)).

(** ** compute_rt_rir, rt.py:193-306 *)
(** rt.py:210-213; a histogram is a list of bands, all of the same length *)
Definition over_bands (h : list vec) : vec := map (fun j => Rsum (column h j)) (seq 0 (length (nth 0 h []))).
Definition last_el (h : list vec) : nat :=
  let x := over_bands h in
  fold_left (fun n j => if Req_EM_T (nth j x 0) 0 then n else S j) (seq 0 (length x)) 0%nat.
Definition list_max_nat (l : list nat) : nat := fold_right Nat.max 0%nat l.
(** the sum of the directions, band [b]: [hist_bands[b]], and of the bands, direction [k]: [hist_directions[k]] *)
Definition hist_band (hist_all : list (list vec)) (n_bins b : nat) : vec :=
  map (fun j => Rsum (map (fun h => nth j (nth b h []) 0) hist_all)) (seq 0 n_bins).
Definition hist_direction (hist_all : list (list vec)) (n_bins : nat) : list vec :=
  map (fun h => map (fun j => Rsum (column h j)) (seq 0 n_bins)) hist_all.

Inductive responses := Fir (taps : list vec) | Gains (g : vec) | Bands (g : list vec).

Record setup := { s_bin_size : R; s_hbss : nat; s_volume : R; s_fdl : nat; s_c : R; s_fs : R;
                  s_analysis : nat -> vec -> vec; s_bank : nat; s_synthesis : list vec -> list vec }.

(** rt.py:246-256 *)
Definition responses_of (s : setup) (n_dirs n_bands : nat) (r : responses) : option (list vec) :=
  match r with
  | Fir taps => Some taps
  | Gains g => if (Nat.eqb (length g) n_dirs || Nat.eqb (length g) 1)%bool
               then Some (map (fun k => [nth (if Nat.eqb (length g) 1 then 0%nat else k) g 0]) (seq 0 n_dirs)) else None
  | Bands g => if forallb (fun row => Nat.eqb (length row) n_bands) g then Some (s_synthesis s g) else None
  end.

(** rt.py:299-301 *)
Definition air_gain (s : setup) (coeff : R) (i : nat) : R := exp (- / 2 * coeff * INR i / s_fs s * s_c s).
(** [a * b] on equal lengths *)
Definition mult_rows (a b : vec) : option vec := if Nat.eqb (length a) (length b) then Some (map2 Rmult a b) else None.

Definition compute_rt_rir (s : setup) (fuel : nat) (t0 : R) (histograms : list (list vec)) (resp : responses)
    (air : option vec) (z : nat -> R) (d : draws) : option vec :=
  let n_bins := list_max_nat (map last_el histograms) in
  let fdl2 := (s_fdl s / 2)%nat in
  if Nat.eqb n_bins 0 then Some (repeat 0 fdl2) else
  if Nat.eqb (s_hbss s) 0 then None else
  let t_max := INR n_bins * s_bin_size s in
  let n_bins := Z.to_nat (Zceil (t_max * s_fs s / INR (s_hbss s))) in
  let N := (n_bins * s_hbss s)%nat in
  let hist_all := map (map (adjust_length n_bins)) histograms in
  let n_dirs := length histograms in
  let n_bands := length (nth 0 histograms []) in
  let* response := responses_of s n_dirs n_bands resp in
  let* p := poisson_sequence fuel (s_volume s) (INR N / s_fs s) (s_c s) 10000 (Some t0) z in
  let* x := directional_sequence (s_fs s) (fst p) (s_bin_size s) (snd p) response (hist_direction hist_all n_bins) d in
  let x := firstn N x in
  let* rir_bands := mapM (fun b =>
      let* hist := interp_hist (hist_band hist_all n_bins b) N in
      mult_rows (if (1 <? n_bands)%nat then s_analysis s b x else x) (map (fun v => sqrt (Rmax v 0)) hist))
    (seq 0 n_bands) in
  let* rir_bands :=
    match air with
    | None => Some rir_bands
    | Some co =>
        let rb := if Nat.eqb n_bands 1 then map (fun b => s_analysis s b (nth 0 rir_bands [])) (seq 0 (s_bank s)) else rir_bands in
        if Nat.eqb (length co) (length rb)
        then mapM (fun b => mult_rows (nth b rb []) (map (air_gain s (nth b co 0)) (seq 0 N))) (seq 0 (length rb))
        else None
    end in
  Some (repeat 0 fdl2 ++ map (fun i => Rsum (column rir_bands i)) (seq 0 N)).
