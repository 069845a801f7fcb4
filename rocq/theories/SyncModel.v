(** /repo/pyroomacoustics/sync.py (11-122): correlate, tdoa, delay_estimation, time_align.

    Real signals.  The NaN array that a division by zero leaves is [None]; np.argmax of it is 0. *)
From Coq Require Import List ZArith Lia Reals Lra Bool R_Ifp.
From Verif Require Import Base Vec Sum Cpx DftModel SimulateModel.
Import ListNotations.
Local Open Scope R_scope.

Definition Cabs (z : C) : R := sqrt (Cabs2 z).
(** X /= np.abs(X) + np.mean(np.abs(X)) * 1e-10 (71-74) *)
Definition phat_weight (X : list C) : option (list C) :=
  let eps := Rsum (map Cabs X) / INR (length X) * / 10 ^ 10 in
  mapM (fun z => if Req_EM_T (Cabs z + eps) 0 then None else Some (Cscal (/ (Cabs z + eps)) z)) X.
(** correlate(x1, x2, interp, phat), 47-82; both signals non-empty; [None]: NaN *)
Definition correlate (x1 x2 : vec) (interp : nat) (phat : bool) : option vec :=
  let N1 := length x1 in let N2 := length x2 in
  let N := (N1 + N2 - 1)%nat in
  let X1 := rfft N x1 in let X2 := rfft N x2 in
  let* Y1 := if phat then phat_weight X1 else Some X1 in
  let* Y2 := if phat then phat_weight X2 else Some X2 in
  let out := irfft (N * interp) (map2 (fun a b => (a * Conj b)%C) Y1 Y2) in
  let k := (interp * (N2 - 1))%nat in
  (* out[-k:] is the whole array for k = 0 *)
  Some ((if Nat.eqb k 0 then out else skipn (length out - k) out) ++ firstn (interp * N1) out).
(** np.argmax: first position of the maximum *)
Fixpoint argmax_from (best : R) (at_ i : nat) (l : vec) : nat :=
  match l with
  | [] => at_
  | v :: t => if Rlt_dec best v then argmax_from v i (S i) t else argmax_from best at_ (S i) t
  end.
Definition argmax (l : vec) : nat := match l with [] => 0%nat | v :: t => argmax_from v 0 1 t end.
(** tdoa, 11-44; [None]: an empty signal (error in the transform) or no interpolated sample *)
Definition tdoa (signal reference : vec) (interp : nat) (phat : bool) (fs : R) : option R :=
  if Nat.eqb (length signal) 0 || Nat.eqb (length reference) 0 || Nat.eqb interp 0 then None else
  let i := match correlate signal reference interp phat with Some r => argmax (map Rabs r) | None => 0%nat end in
  Some ((INR i / INR interp - (INR (length reference) - 1)) / fs).
(** np.median *)
Fixpoint insert (a : R) (l : vec) : vec := match l with [] => [a] | b :: t => if Rle_dec a b then a :: b :: t else b :: insert a t end.
Definition sort (l : vec) : vec := fold_right insert [] l.
Definition median (l : vec) : R :=
  let s := sort l in let n := length s in
  (nth ((n - 1) / 2) s 0 + nth (n / 2) s 0) / 2.
(** int(x): truncation *)
Definition pyint (x : R) : Z := if Rle_dec 0 x then Int_part x else (- Int_part (- x))%Z.
(** delay_estimation, 85-97; [None]: division by zero (L = 0) or int(nan) (no whole block) *)
Definition delay_estimation (x1 x2 : vec) (L : nat) : option Z :=
  if Nat.eqb L 0 then None else
  let K := (Nat.min (length x1) (length x2) / L)%nat in
  if Nat.eqb K 0 then None else
  let* delays := mapM (fun k => tdoa (firstn L (skipn (k * L) x1)) (firstn L (skipn (k * L) x2)) 1 true 1) (seq 0 K) in
  Some (pyint (median delays)).
(** [sig[a:b] = v] on an array; [None]: shapes differ *)
Definition slice_set (buf : vec) (a b : Z) (v : vec) : option vec :=
  let a' := slice_bound (length buf) a in let b' := slice_bound (length buf) b in
  let n := (b' - a')%nat in
  if Nat.eqb (length v) n then Some (map (fun i => if (a' <=? i)%nat && (i <? b')%nat then nth (i - a') v 0 else nth i buf 0) (seq 0 (length buf)))
  else if Nat.eqb (length v) 1 then Some (map (fun i => if (a' <=? i)%nat && (i <? b')%nat then nth 0 v 0 else nth i buf 0) (seq 0 (length buf)))
  else None.
(** deg[a:b] *)
Definition pyslice (l : vec) (a b : Z) : vec :=
  let a' := slice_bound (length l) a in let b' := slice_bound (length l) b in firstn (b' - a') (skipn a' l).
(** time_align, 100-122 *)
Definition align_by (ref_len : nat) (deg : vec) (delay : Z) : option vec :=
  let R := Z.of_nat ref_len in let D := Z.of_nat (length deg) in
  let sig := repeat 0 ref_len in
  if (0 <=? delay)%Z then
    let len := Z.min D (R - delay) in
    slice_set sig delay (len + delay) (pyslice deg 0 len)
  else
    let len := Z.min (D + delay) R in
    slice_set sig 0 len (pyslice deg (- delay) (- delay + len)).
Definition time_align (ref deg : vec) (L : nat) : option vec :=
  let* delay := delay_estimation ref deg L in align_by (length ref) deg delay.
