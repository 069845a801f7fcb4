(** /repo/pyroomacoustics/utilities.py: to_float32 (169-188), to_16b (191-197), clip (200-207), normalize
    (210-226), convmtx (478-490), fractional_delay (592-614), fractional_delay_filter_bank (617-663), levinson (666-715),
    autocorr (718-764), lpc (767-792), goertzel (795-806).

    Arrays are one-dimensional lists.  numpy does not raise on a division by zero: the NaN or infinity it
    leaves in the result is [None] here, like an exception.  Signals are exact real numbers except in the
    16 bit conversions, which round to single precision. *)
From Coq Require Import List ZArith Lia Reals Lra Bool R_Ifp.
From Flocq Require Import Core.
From Verif Require Import Base Vec Sum Cpx DftModel RirModel SimulateModel SyncModel.
Import ListNotations.
Local Open Scope R_scope.

(** ** Conversions *)
(** astype(np.float32) and float32 arithmetic: rounding to nearest, ties to even; the exponent range is
    not bounded above (no value here comes near 2^128) *)
Definition rnd32 (x : R) : R := round radix2 (FLT_exp (-149) 24) ZnearestE x.
(** to_float32 on an integer array whose dtype starts at [min_val], 183-185; [None]: division by zero
    (unsigned dtypes: abs(0)) *)
Definition to_float32 (min_val : Z) (data : list Z) : option vec :=
  if (min_val =? 0)%Z then match data with [] => Some [] | _ => None end
  else Some (map (fun v => rnd32 (rnd32 (IZR v) / rnd32 (IZR (Z.abs min_val)))) data).
(** astype(np.int16) of one float: truncation; [None]: out of range (the result of the C cast is
    undefined).  The test of the range is on the truncated value. *)
Definition trunc (x : R) : Z := if Rle_dec 0 x then Int_part x else (- Int_part (- x))%Z.
Definition astype_int16 (x : R) : option Z :=
  if ((-32768 <=? trunc x) && (trunc x <=? 32767))%Z then Some (trunc x) else None.
Definition to_16b (signal : vec) : option (list Z) := mapM (fun s => astype_int16 (rnd32 (32767 * s))) signal.
(** clip(signal, high, low) *)
Definition clip (signal : vec) (high low : R) : vec :=
  let s := map (fun v => if Rlt_dec high v then high else v) signal in
  map (fun v => if Rlt_dec v low then low else v) s.
(** normalize(signal, bits) on floats; [None]: no sample (max of an empty array) or silence (0/0).
    [bits] at least one. *)
Definition absmax (l : vec) : R := fold_right Rmax 0 (map Rabs l).
Definition normalize (signal : vec) (bits : option nat) : option vec :=
  match signal with [] => None | _ =>
  let m := absmax signal in
  if Req_EM_T m 0 then None else
  let s := map (fun v => v / m) signal in
  match bits with
  | None => Some s
  | Some b => let top := 2 ^ (b - 1) in Some (clip (map (fun v => v * (top - 1)) s) (top - 1) (- top))
  end end.

(** ** Convolution matrix *)
(** scipy.linalg.toeplitz(c, r): first column [c], first row [r] except its first entry *)
Definition toeplitz_cr (c r : vec) : list vec :=
  map (fun i => map (fun j => if (j <=? i)%nat then nth (i - j) c 0 else nth (j - i) r 0) (seq 0 (length r))) (seq 0 (length c)).
(** [None]: np.zeros(-1) *)
Definition convmtx (x : vec) (n : nat) : option (list vec) :=
  if Nat.eqb n 0 then None else Some (toeplitz_cr (x ++ repeat 0 (n - 1)) (repeat 0 n)).

(** ** Fractional delays *)
(** np.hanning(L) *)
Definition hanning (L : nat) : vec := map (fun t => if Nat.eqb L 1 then 1 else / 2 - / 2 * cos (2 * PI * INR t / INR (L - 1))) (seq 0 L).
(** fractional_delay(t0) for a scalar, [L] = frac_delay_length *)
Definition fractional_delay (L : nat) (t0 : R) : vec :=
  map (fun t => nth t (hanning L) 0 * sinc (INR t - (INR L - 1) / 2 - t0)) (seq 0 L).
(** list.min() *)
Definition rmin (l : vec) : R := match l with [] => 0 | a :: t => fold_right Rmin a t end.
Definition zmax (l : list Z) : Z := match l with [] => 0%Z | a :: t => fold_right Z.max a t end.
(** [None]: no delay (min of an empty array), or a store outside the flat array *)
Definition fractional_delay_filter_bank (L : nat) (delays : vec) : option (list vec) :=
  match delays with [] => None | _ =>
  let d := map (fun x => x - rmin delays) delays in
  let N := length d in
  let filter_length := (Z.of_nat L + zmax (map Zceil d))%Z in
  let bank_flat := repeat 0 (Z.to_nat (Z.of_nat N * filter_length)) in
  let di i := Zfloor (nth i d 0) in
  let df i := nth i d 0 - IZR (di i) in
  let stores := flat_map (fun i => map (fun t =>
      ((Z.of_nat t + (di i + filter_length * Z.of_nat i))%Z, nth t (hanning L) 0 * sinc (INR t - df i - (INR L - 1) / 2))) (seq 0 L)) (seq 0 N) in
  let* bank := foldM (fun bank iv => let* i := pos (fst iv) in store bank i (snd iv)) stores bank_flat in
  Some (map (fun i => firstn (Z.to_nat filter_length) (skipn (i * Z.to_nat filter_length) bank)) (seq 0 N))
  end.

(** ** Levinson recursion (one column of b; the columns of a matrix share [a], [epsilon] and are
    otherwise treated alike).  [None]: no equation, too short a first column (shape errors) or a division
    by a zero prediction error. *)
Definition Cdiv (a b : C) : C := Cscal (/ Cabs2 b) (a * Conj b)%C.
Definition Csum (l : list C) : C := fold_right Cadd C0 l.
Record lev := { lv_a : list C; lv_x : list C; lv_eps : C }.
Definition lev_step (r b : list C) (st : lev) (j : nat) : option lev :=
  let a := lv_a st in let x := lv_x st in let epsilon := lv_eps st in
  let rj := firstn j (skipn 1 r) in
  if negb (Nat.eqb (length rj) (length a)) then None else
  let g := Csum (map2 (fun ri ai => (Conj ri * ai)%C) rj (rev a)) in
  if C_eq_dec epsilon C0 then None else
  let gamma := Copp (Cdiv g epsilon) in
  let a' := map2 Cadd (a ++ [C0]) (map (Cmul gamma) (C0 :: map Conj (rev a))) in
  let epsilon' := (epsilon * RtoC (1 - Cabs2 gamma))%C in
  let delta := Csum (map2 (fun ri xi => (Conj ri * xi)%C) rj (rev x)) in
  if C_eq_dec epsilon' C0 then None else
  let q := Cdiv (nth j b C0 - delta)%C epsilon' in
  Some {| lv_a := a'; lv_x := map2 Cadd (x ++ [C0]) (map (Cmul q) (map Conj (rev a'))); lv_eps := epsilon' |}.
Definition levinson (r b : list C) : option (list C) :=
  match r, b with
  | r0 :: _, b0 :: _ =>
      if C_eq_dec r0 C0 then None else
      let* st := foldM (lev_step r b) (seq 1 (length b - 1)) {| lv_a := [C1]; lv_x := [Cdiv b0 r0]; lv_eps := r0 |} in
      Some (lv_x st)
  | _, _ => None
  end.

(** ** Autocorrelation *)
Inductive ac_method := ac_fft | ac_time | ac_numpy | ac_pra.
(** x[:z] *)
Definition pyfirst {A} (l : list A) (z : Z) : list A := firstn (slice_bound (length l) z) l.
(** np.dot of vectors; [None]: shapes not aligned *)
Definition np_dot (a b : vec) : option R := if Nat.eqb (length a) (length b) then Some (dot a b) else None.
(** np.correlate(a, v, "full") on reals; [None]: an empty argument *)
Definition np_correlate (a v : vec) : option vec :=
  match a, v with [], _ | _, [] => None | _, _ =>
  Some (map (fun k => bsum (length v) (fun n => if (length v - 1 <=? n + k)%nat then nth (n + k - (length v - 1)) a 0 * nth n v 0 else 0)) (seq 0 (length a + length v - 1)))
  end.
Definition autocorr_raw (x : vec) (p : nat) (m : ac_method) : option vec :=
  let L := length x in
  match m with
  | ac_fft => match x with [] => None | _ =>
      let X := rfft (2 * L) (x ++ repeat 0 L) in
      Some (firstn (p + 1) (irfft (2 * (length X - 1)) (map (fun z => (z * Conj z)%C) X))) end
  | ac_time => mapM (fun m => np_dot (pyfirst x (Z.of_nat L - Z.of_nat m)) (skipn m x)) (seq 0 (p + 1))
  | ac_numpy => let* c := np_correlate x x in Some (firstn (p + 1) (skipn (L - 1) c))
  | ac_pra => let* c := correlate x x 1 false in Some (firstn (p + 1) (skipn (L - 1) c))
  end.
(** 761-764; [None] for an empty signal, and for unbiased estimates of lags not shorter than the signal:
    whatever the method, the shapes differ or the division by zero of lag L makes a NaN *)
Definition autocorr (x : vec) (p : nat) (biased : bool) (m : ac_method) : option vec :=
  let L := length x in
  if Nat.eqb L 0 then None else
  let* r := autocorr_raw x p m in
  if biased then Some (map (fun v => v / INR L) r) else
  if (L <=? p)%nat then None else Some (map2 Rdiv r (map (fun m => INR (L - m)) (seq 0 (p + 1)))).
(** lpc(x, p, biased), with real arrays; [None] also for p = 0 (levinson on an empty array) *)
Definition lpc (x : vec) (p : nat) (biased : bool) : option (list C) :=
  let* r := autocorr x p biased ac_numpy in
  levinson (map RtoC (firstn p r)) (map RtoC (skipn 1 r)).

(** ** Goertzel *)
(** scipy.signal.lfilter([1], [1, a1, a2], x) with zero initial state: direct form recursion; the list of outputs *)
Fixpoint lfilter2 (a1 a2 : R) (s1 s2 : R) (x : vec) : vec :=
  match x with [] => [] | v :: t => let s := v - a1 * s1 - a2 * s2 in s :: lfilter2 a1 a2 s s1 t end.
(** [None]: fewer than two samples (s[-2]) *)
Definition goertzel (x : vec) (k : Z) : option C :=
  let N := length x in
  let f := IZR k / INR N in
  let s := lfilter2 (- 2 * cos (2 * PI * f)) 1 0 0 x in
  if (N <? 2)%nat then None else
  Some (cis (2 * PI * f) * RtoC (nth (N - 1) s 0) - RtoC (nth (N - 2) s 0))%C.
