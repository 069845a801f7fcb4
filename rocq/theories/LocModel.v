(** Parts of /repo/pyroomacoustics/experimental: deconvolution.py (deconvolve), localization.py
    (tdoa, tdoa_loc).

    Exact real arithmetic, so the casts to float32 do nothing.  [None]: an exception, or NaN in
    the result. *)
From Coq Require Import List ZArith Lia Reals Lra Bool.
From Verif Require Import Base Vec Sum Cpx DftModel AuxivaModel SyncModel.
Import ListNotations.
Local Open Scope R_scope.

(** deconvolution.py:30-34, localization.py:131-133: lengths of both signals, rounded up to an
    even number; numpy refuses a transform of length 0 *)
Definition fft_len (a b : nat) : nat := let n := (a + b - 1)%nat in if Nat.even n then n else (n + 1)%nat.

(** h[:length] (deconvolution.py:52) *)
Definition upto (h : vec) (length_ : Z) : vec :=
  if (0 <=? length_)%Z then firstn (Z.to_nat length_) h else firstn (length h - Z.to_nat (- length_)) h.
(** deconvolution.py:12-52; dividing by a bin that is 0 (negative threshold) gives NaN *)
Definition deconvolve (y s : vec) (length_ : option Z) (thresh : R) : option vec :=
  let n := fft_len (length y) (length s) in
  if Nat.eqb n 0 then None else
  let len := match length_ with Some l => l | None => Z.of_nat n end in
  let Y := map (Cscal (/ sqrt (INR n))) (rfft n y) in
  let S := map (Cscal (/ sqrt (INR n))) (rfft n s) in
  let* H := mapM (fun p => if Rlt_dec thresh (Cabs (snd p)) then if C_eq_dec (snd p) C0 then None else Some (Cdiv (fst p) (snd p)) else Some C0) (combine Y S) in
  Some (upto (irfft n H) len).

(** localization.py:142-143; [None]: 0/0 *)
Definition whiten (X : list C) : option (list C) := mapM (fun z => if C_eq_dec z C0 then None else Some (Cscal (/ Cabs z) z)) X.
(** localization.py:138-151; [None]: every value is NaN *)
Definition gcc (x1 x2 : vec) (interp : nat) (phat : bool) : option vec :=
  let n := fft_len (length x1) (length x2) in
  let X1 := rfft n x1 in let X2 := rfft n x2 in
  let* Y1 := if phat then whiten X1 else Some X1 in
  let* Y2 := if phat then whiten X2 else Some X2 in
  let cc := irfft (interp * n) (map2 (fun a b => (a * Conj b)%C) Y1 Y2) in
  let t_max := (n / 2 + 1)%nat in
  Some (skipn (length cc - t_max) cc ++ firstn t_max cc).
(** localization.py:96-158; numpy.argmax of an array of NaN is 0 *)
Definition gcc_tdoa (x1 x2 : vec) (interp : nat) (fs : R) (phat : bool) : option R :=
  let n := fft_len (length x1) (length x2) in
  if Nat.eqb n 0 || Nat.eqb interp 0 then None else
  if Req_EM_T (fs * INR interp) 0 then None else
  let i := match gcc x1 x2 interp phat with Some r => argmax (map Rabs r) | None => 0%nat end in
  Some ((INR i - INR (n / 2 + 1)) / (fs * INR interp)).

(** localization.py:31-37: the microphones (columns of R) and their delays with respect to the
    first one; those with no delay are left out, except the first *)
Definition kept (mics : list vec) (tdoa : vec) : option (list (vec * R)) :=
  if negb (Nat.eqb (length mics) (length tdoa)) then None else
  match combine mics (map (fun t => t - nth 0 tdoa 0) tdoa) with
  | [] => None
  | p :: l => Some (p :: filter (fun p => if Req_EM_T (snd p) 0 then false else true) l)
  end.
(** localization.py:39-52: rows of ABC.T and entries of D *)
Definition tdoa_system (mics : list vec) (tdoa : vec) (c : R) : option (list vec * vec) :=
  let* k := kept mics tdoa in
  match k with
  | (r0, _) :: (r1, t1) :: l =>
      if Req_EM_T c 0 then None else
      let n0 := vnorm r0 ^ 2 in let n1 := vnorm r1 ^ 2 in
      Some (map (fun p => vminus (map (fun x => 2 * x / (c * snd p)) (vminus (fst p) r0)) (map (fun x => 2 * x / (c * t1)) (vminus r1 r0))) l,
            map (fun p => c * t1 - c * snd p + (vnorm (fst p) ^ 2 - n0) / (c * snd p) - (n1 - n0) / (c * t1)) l)
  | _ => None (* tau[1]: IndexError *)
  end.
(** What scipy.linalg.lstsq returns for a matrix with [n] columns: the smallest of the best
    solutions. *)
Definition resid (A : list vec) (b x : vec) : R := Rsum (map (fun p => (dot (fst p) x - snd p) ^ 2) (combine A b)).
Definition is_lstsq (n : nat) (A : list vec) (b x : vec) : Prop :=
  length x = n /\ forall y, length y = n -> resid A b x <= resid A b y /\ (resid A b y = resid A b x -> vsq x <= vsq y).
(** tdoa_loc (14-93) may return [loc] *)
Definition tdoa_loc (dim : nat) (mics : list vec) (tdoa : vec) (c : R) (loc : vec) : Prop :=
  exists A b, tdoa_system mics tdoa c = Some (A, b) /\ is_lstsq dim A b loc.
