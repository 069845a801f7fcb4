(** /repo/pyroomacoustics/adaptive/util.py: products with structured matrices by the FFT and
    circulant approximations.  numpy's rfft/irfft are the sums of DftModel; real numbers instead
    of floats; the mkl_fft variant (80-130) is not modelled. *)
From Coq Require Import List ZArith Lia Reals Bool.
From Verif Require Import Base Vec Sum Cpx DftModel RlsModel.
Import ListNotations.
Local Open Scope R_scope.

(** util.py:43 and 116: int(2 ** np.ceil(np.log2(k))) for k >= 1 *)
Definition fft_length (k : nat) : nat := (2 ^ Nat.log2_up k)%nat.
(** column [q] of a matrix with [n] rows *)
Definition column (n : nat) (A : list vec) (q : nat) : vec := map (fun i => entry A i q) (seq 0 n).

(** util.py:26-55.  [A] has rows of length [p]; [None]: ValueError *)
Definition toeplitz_multiplication (p : nat) (c r : vec) (A : list vec) : option (list vec) :=
  let m := length c in
  let n := length r in
  let fft_len := fft_length (m + n - 1) in
  let zp := (fft_len + 1 - m - n)%nat in
  if negb (Nat.eqb (length A) n) then None else
  let x := c ++ repeat 0 zp ++ rev (tl r) in
  let xf := rfft fft_len x in
  let Af := map (fun q => rfft fft_len (column n A q)) (seq 0 p) in  (* one row per column of A *)
  let prod := map (fun a => map (fun k => (nth k a C0 * nth k xf C0)%C) (seq 0 (fft_len / 2 + 1))) Af in
  let res := map (irfft fft_len) prod in
  Some (mk m p (fun i q => nth i (nth q res []) 0)).

(** util.py:58-78 without mkl_fft *)
Definition hankel_multiplication (p : nat) (c r : vec) (A : list vec) : option (list vec) :=
  let A := firstn (length r) A in
  let* y := toeplitz_multiplication p (rev c) r A in
  Some (rev y).

(** util.py:17-23: division by len - 1 *)
Definition fast_autocorr (x : vec) : option vec :=
  let n := length x in
  if Nat.eqb n 0 then None else (* rfft with n = 0 raises *)
  let X := rfft (2 * n) x in
  let r := irfft (2 * n) (map (fun z => RtoC (Cabs2 z)) X) in
  if Nat.eqb n 1 then None else Some (map (fun v => v / INR (n - 1)) (firstn n r)).

(** numpy: c[-m:] = v, with [None] for a shape mismatch; -0 is 0, the whole array *)
Definition assign_tail (c : vec) (m : nat) (v : vec) : option vec :=
  let k := if Nat.eqb m 0 then length c else m in
  if Nat.eqb (length v) k then Some (firstn (length c - k) c ++ v) else None.
(** util.py:172-195 (matrix=False) *)
Definition strang_circ (r : vec) : option vec :=
  let n := length r in
  let m := if Nat.eqb (n mod 2) 0 then (n / 2)%nat else ((n - 1) / 2)%nat in
  assign_tail r m (rev (firstn m (tl r))).
(** util.py:198-224 (matrix=False) *)
Definition opt_circ (r : vec) : vec :=
  let n := length r in
  let r_rev := 0 :: rev (tl r) in
  let c := map (fun i => (INR i * nth i r_rev 0 + INR (n - i) * nth i r 0) / INR n) (seq 0 n) in
  match c with [] => [] | c0 :: _ => c0 :: rev (tl c) end.
(** scipy.linalg.circulant, used with matrix=True *)
Definition circulant (c : vec) (i j : nat) : R := nth ((i + (length c - j)) mod length c) c 0.
