(** /repo/pyroomacoustics/libroom_src/rir_builder.cpp and the sizing arithmetic of
    /repo/pyroomacoustics/simulation/ism.py.

    Simplifications: [float]/[double] are [R], [int]/[size_t] are [Z]/[nat] without
    overflow ([fdl - 1] on an unsigned 0 is covered by the parity test); the block size
    computed with [ceil(double(n) / double(t))] is the integer quotient rounded up;
    dispatch on the array type is left out.  Tasks are the lists of their accesses to the
    shared output (ParModel.v); the tables they read are read with bounds checks: [None]
    is a read outside an array, or a thrown exception, or [*max_element] of nothing. *)
From Coq Require Import List ZArith Lia Reals Lra Bool.
From Verif Require Import Base Vec GeometryModel WallModel ParModel.
Import ListNotations.
Local Open Scope R_scope.

(** [int(std::floor(x))], [int(std::ceil(x))] *)
Definition Zfloor (x : R) : Z := Int_part x.
Definition Zceil (x : R) : Z := (- Int_part (- x))%Z.

(** [a[i]] for an index that may be negative *)
Definition getZ {A} (l : list A) (i : Z) : option A := if (i <? 0)%Z then None else nth_error l (Z.to_nat i).
(** An index computed as a (possibly negative) integer used as a position. *)
Definition pos (i : Z) : option nat := if (i <? 0)%Z then None else Some (Z.to_nat i).

(** rir_builder.cpp:93-101 (and 296-304): table of the sinc function; [n] starts at
    -fdl2 - 1 and grows by 1/lut_gran. *)
Definition sinc (n : R) : R := if Req_EM_T n 0 then 1 else sin (PI * n) / (PI * n).
Definition sinc_lut (fdl gran : nat) : list R :=
  let fdl2 := ((fdl - 1) / 2)%nat in
  map (fun idx => sinc (- INR fdl2 - 1 + INR idx * (1 / INR gran))) (seq 0 ((fdl + 2) * gran)).
(** rir_builder.cpp:103-106: Hann window.  (For fdl = 1 the C++ divides 0 by 0.) *)
Definition hann (fdl : nat) : list R :=
  map (fun idx => 1/2 - 1/2 * cos (PI * INR (2 * idx) / INR (fdl - 1))) (seq 0 fdl).

(** rir_builder.cpp:109-110, 138 (and 204, 230, 307): block size. *)
Definition block_size (n threads : nat) : nat := ((n + threads - 1) / threads)%nat.
(** rir_builder.cpp:119-121: indices handled by thread [t]. *)
Definition block (n threads t : nat) : list nat :=
  let t_start := (t * block_size n threads)%nat in
  let t_end := Nat.min (t_start + block_size n threads) n in
  seq t_start (t_end - t_start).

(** rir_builder.cpp:126-147: the accesses made for one arrival. *)
Definition arrival_acts (fs : Z) (fdl gran offset : nat) (lut win : list R) (tim alp : R) : option (list act) :=
  let fdl2 := ((fdl - 1) / 2)%nat in
  let sample_frac := IZR fs * tim in
  let time_ip := Zfloor sample_frac in
  let time_fp := sample_frac - IZR time_ip in
  let x_off_frac := (1 - time_fp) * INR gran in
  let lut_gran_off := Zfloor x_off_frac in
  let x_off := x_off_frac - IZR lut_gran_off in
  mapM (fun k =>
    let lut_pos := (lut_gran_off + Z.of_nat (k * gran))%Z in
    let f := (time_ip - Z.of_nat fdl2 + Z.of_nat k)%Z in
    let* a := getZ lut lut_pos in
    let* b := getZ lut (lut_pos + 1) in
    let* h := nth_error win k in
    let* p := pos (Z.of_nat offset + f) in
    Some (Add p (alp * h * (a + x_off * (b - a))))) (seq 0 fdl).

(** rir_builder.cpp:118-152: the task of thread [t] in the first phase. *)
Definition build_task (fs : Z) (fdl gran threads rir_len : nat) (lut win time alpha : list R) (t : nat)
    : option (list act) :=
  let* l := mapM (fun idx =>
    let* tim := nth_error time idx in
    let* alp := nth_error alpha idx in
    arrival_acts fs fdl gran (t * rir_len) lut win tim alp) (block (length time) threads t) in
  Some (concat l).

(** rir_builder.cpp:156-168 (and 232-248): the task of thread [t] that sums the partial
    buffers [out] into the result. *)
Definition sum_task (threads len : nat) (out : list R) (t : nat) : option (list act) :=
  let* l := mapM (fun idx => mapM (fun u => let* v := nth_error out (u * len + idx) in Some (Add idx v)) (seq 0 threads))
                 (block len threads t) in
  Some (concat l).

(** rir_builder.cpp:60-91: the checks. *)
Definition rir_accepts (rir_len : nat) (time alpha : list R) (fs : Z) (fdl : nat) : bool :=
  let fdl2 := ((fdl - 1) / 2)%nat in
  if negb (Nat.eqb (length time) (length alpha)) then false else
  if negb (Nat.eqb (fdl mod 2) 1) then false else
  match time with
  | [] => false
  | _ =>
    let max_sample := (Zceil (IZR fs * list_max time) + Z.of_nat fdl2)%Z in
    let min_sample := (Zfloor (IZR fs * list_min time) - Z.of_nat fdl2)%Z in
    if (min_sample <? 0)%Z then false else
    if (Z.of_nat rir_len <=? max_sample)%Z then false else true
  end.

(** The tasks of the two phases. *)
Definition build_tasks (rir_len : nat) (time alpha : list R) (fs : Z) (fdl gran threads : nat) : option (list (list act)) :=
  mapM (build_task fs fdl gran threads rir_len (sinc_lut fdl gran) (hann fdl) time alpha) (seq 0 threads).
Definition sum_tasks (threads len : nat) (out : list R) : option (list (list act)) :=
  mapM (sum_task threads len out) (seq 0 threads).

(** rir_builder.cpp:44-170 [threaded_rir_builder_impl]: one possible outcome.  Waiting
    for the futures separates the two phases. *)
Definition rir_builder (rir time alpha : list R) (fs : Z) (fdl gran threads : nat) (result : list R) : Prop :=
  rir_accepts (length rir) time alpha fs fdl = true /\
  exists ps out qs,
    build_tasks (length rir) time alpha fs fdl gran threads = Some ps /\
    executes (repeat 0 (threads * length rir)) ps out /\
    sum_tasks threads (length rir) out = Some qs /\
    executes rir qs result.

(** ** delay_sum, rir_builder.cpp:178-252; [irs] has one row per filter, all of the same
    length [n_taps]. *)
Definition Zlist_max (l : list Z) : Z := fold_left Z.max (tl l) (hd 0%Z l).
Definition Zlist_min (l : list Z) : Z := fold_left Z.min (tl l) (hd 0%Z l).
Definition ds_accepts (irs : list (list R)) (n_taps : nat) (delays : list Z) (out_len : nat) : bool :=
  if negb (Nat.eqb (length irs) (length delays)) then false else
  match delays with
  | [] => false
  | _ => if (Zlist_min delays <? 0)%Z then false else
         if (Z.of_nat out_len <? Zlist_max delays + Z.of_nat n_taps)%Z then false else true
  end.
Definition ds_task (irs : list (list R)) (n_taps : nat) (delays : list Z) (out_len threads t : nat) : option (list act) :=
  let* l := mapM (fun idx => mapM (fun k =>
      let* row := nth_error irs idx in
      let* v := nth_error row k in
      let* d := nth_error delays idx in
      let* p := pos (Z.of_nat (t * out_len) + d + Z.of_nat k) in
      Some (Add p v)) (seq 0 n_taps)) (block (length irs) threads t) in
  Some (concat l).
Definition ds_tasks (irs : list (list R)) (n_taps : nat) (delays : list Z) (out_len threads : nat) :=
  mapM (ds_task irs n_taps delays out_len threads) (seq 0 threads).
Definition delay_sum (irs : list (list R)) (n_taps : nat) (delays : list Z) (output : list R) (threads : nat)
    (result : list R) : Prop :=
  ds_accepts irs n_taps delays (length output) = true /\
  exists ps out qs,
    ds_tasks irs n_taps delays (length output) threads = Some ps /\
    executes (repeat 0 (threads * length output)) ps out /\
    sum_tasks threads (length output) out = Some qs /\
    executes output qs result.

(** ** fractional_delay, rir_builder.cpp:267-344.  [out] is n_times x cols, flattened row
    by row. *)
Definition fd_odd (cols : nat) : nat := if Nat.eqb (cols mod 2) 0 then (cols - 1)%nat else cols.
Definition fd_row (cols gran idx : nat) (lut win : list R) (tim : R) : option (list act) :=
  let x_off_frac := (1 - tim) * INR gran in
  let lut_gran_off := Zfloor x_off_frac in
  let x_off := x_off_frac - IZR lut_gran_off in
  mapM (fun k =>
    let lut_pos := (lut_gran_off + Z.of_nat (k * gran))%Z in
    let* a := getZ lut lut_pos in
    let* b := getZ lut (lut_pos + 1) in
    let* h := nth_error win k in
    Some (Put (idx * cols + k) (h * (a + x_off * (b - a))))) (seq 0 (fd_odd cols)).
Definition fd_task (time : list R) (cols gran threads t : nat) : option (list act) :=
  let* l := mapM (fun idx =>
    let* tim := nth_error time idx in
    fd_row cols gran idx (sinc_lut (fd_odd cols) gran) (hann (fd_odd cols)) tim) (block (length time) threads t) in
  Some (concat l).
Definition fractional_delay (time : list R) (cols gran threads : nat) (out result : list R) : Prop :=
  length out = (length time * cols)%nat /\
  exists ps, mapM (fd_task time cols gran threads) (seq 0 threads) = Some ps /\ executes out ps result.

(** ** simulation/ism.py:124-245, the times and the length of the impulse response *)
Definition ism_times (dist : list R) (c fs : R) (fdl : nat) : list R :=
  map (fun d => d / c + INR (fdl / 2) / fs) dist.
Definition ism_length (time : list R) (fs : R) (fdl : nat) : Z :=
  (Zceil (list_max time * fs + INR (fdl / 2) + 1) + 1)%Z.

(** ** simulation/ism.py:111-279 [compute_ism_rir], without directivities (Case 1 and 2)
    [images], [damping] have one entry (per band) per image source; [visible] is the mask
    of the microphone.  Selecting by the mask is lines 126-127; [filt b x] stands for
    [octave_bands.analysis(x, band=b)]. *)
Fixpoint select {A} (mask : list bool) (l : list A) : list A :=
  match mask, l with
  | true :: m, a :: l' => a :: select m l'
  | false :: m, _ :: l' => select m l'
  | _, _ => []
  end.
(** numpy broadcasting of a (n, .) array against a (m, .) array along the first axis. *)
Definition broadcast {A B} (a : list A) (b : list B) : option (list (A * B)) :=
  if Nat.eqb (length a) (length b) then Some (combine a b)
  else match a, b with
  | [x], _ => Some (map (fun y => (x, y)) b)
  | _, [y] => Some (map (fun x => (x, y)) a)
  | _, _ => None
  end.
(** ism.py:136, 61-67: octave band amplitudes, one row per band. *)
Definition spread (dist att : list R) : list R := map (fun p => fst p / snd p) (combine att dist).
Definition absorbed (dist : list R) (p : list R * R) : list R :=
  map (fun q => fst q * exp (- (1/2) * snd p * snd q)) (combine (fst p) dist).
Definition amplitudes (damping : list (list R)) (dist : list R) (air : option (list R)) : option (list (list R)) :=
  let flat := map (spread dist) damping in
  match air with
  | None => Some flat
  | Some a => let* l := broadcast flat a in Some (map (absorbed dist) l)
  end.
(** The loop over bands of ism.py:260-277; the result is the sum over bands. *)
Definition band_result (filt : nat -> list R -> list R) (n_bands b : nat) (ir : list R) : list R :=
  if (1 <? n_bands)%nat then filt b ir else ir.
Fixpoint bands_loop (filt : nat -> list R -> list R) (n_bands N : nat) (time : list R) (amps : list (list R))
    (fs : Z) (fdl gran threads b : nat) (acc result : list R) : Prop :=
  match amps with
  | [] => result = acc
  | alpha :: rest => exists ir,
      rir_builder (repeat 0 N) time alpha fs fdl gran threads ir /\
      bands_loop filt n_bands N time rest fs fdl gran threads (S b) (vadd acc (band_result filt n_bands b ir)) result
  end.
(** [time.max()] of an empty array raises. *)
Definition compute_ism_rir (filt : nat -> list R -> list R) (images : list (list R)) (damping : list (list R))
    (visible : list bool) (mic : list R) (air : option (list R)) (c : R) (fs : Z) (fdl gran threads : nat)
    (result : list R) : Prop :=
  let dist := map (fun im => vdist im mic) (select visible images) in
  let att := map (select visible) damping in
  let time := ism_times dist c (IZR fs) fdl in
  let N := Z.to_nat (ism_length time (IZR fs) fdl) in
  dist <> [] /\ exists amps, amplitudes att dist air = Some amps /\
  bands_loop filt (length amps) N time amps fs fdl gran threads 0 (repeat 0 N) result.
