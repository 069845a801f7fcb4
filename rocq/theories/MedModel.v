(** /repo/pyroomacoustics/metrics.py: median, on one-dimensional data (other axes are treated
    fibre by fibre; [keepdims] only reshapes).  Exact reals: rounding of the quantiles of scipy is
    not modelled. *)
From Coq Require Import List ZArith Lia Reals Lra Bool.
From Verif Require Import Base Vec Sum.
Import ListNotations.
Local Open Scope R_scope.

(** np.sort, 40 *)
Fixpoint insert (a : R) (l : list R) : list R := match l with [] => [a] | b :: l' => if Rle_dec a b then a :: l else b :: insert a l' end.
Fixpoint sort (l : list R) : list R := match l with [] => [] | a :: l' => insert a (sort l') end.
(** 43-48; [None]: IndexError on an empty axis *)
Definition median (x : list R) : option R :=
  let s := sort x in let n := length x in
  if Nat.eqb n 0 then None else
  Some (if Nat.odd n then nth (n / 2) s 0 else 1 / 2 * (nth (n / 2 - 1) s 0 + nth (n / 2) s 0)).
(** scipy.stats.binom(n, 0.5): number of subsets, cdf, ppf *)
Fixpoint binomial (n k : nat) : nat := match k, n with O, _ => 1%nat | S _, O => 0%nat | S k', S n' => (binomial n' k' + binomial n' k)%nat end.
Definition bcdf (n : nat) (k : Z) : R := bsum (Z.to_nat (k + 1)) (fun i => INR (binomial n i)) / 2 ^ n.
Definition ppf (n : nat) (q : R) : option Z :=
  if Rlt_dec q 0 then None else if Rlt_dec 1 q then None else
  if Req_EM_T q 0 then Some (-1)%Z else
  option_map Z.of_nat (find (fun k => if Rle_dec q (bcdf n (Z.of_nat k)) then true else false) (seq 0 (S n))).
(** Indexing from either end. *)
Definition pyget (s : list R) (i : Z) : option R :=
  let n := Z.of_nat (length s) in
  if (Z.leb 0 i && Z.ltb i n)%bool then Some (nth (Z.to_nat i) s 0)
  else if (Z.leb (- n) i && Z.ltb i 0)%bool then Some (nth (Z.to_nat (n + i)) s 0) else None.
Definition interval (s : list R) (m : R) (j k : Z) : option (R * R) :=
  let* a := pyget s j in let* b := pyget s k in Some (a - m, b - m).
(** 61, the bound for using the normal approximation *)
Definition clt_bound (alpha : R) : R := Rmax (10 / alpha) (10 / (2 - alpha)).
(** 63-85 *)
Definition small_ci (alpha : R) (s : list R) (m : R) : option (R * R) :=
  let n := length s in
  let* lo := ppf n (alpha / 2) in let* hi := ppf n (1 - alpha / 2) in
  let j := (lo - 1)%Z in let k := (hi - 1)%Z in
  let k := if Rlt_dec (bcdf n k - bcdf n j) (1 - alpha) then (k + 1)%Z else k in
  if Rlt_dec (bcdf n k - bcdf n j) (1 - alpha) then None else
  if Z.ltb j 0 then None else interval s m j k.
(** 89-98; [quantile] is that of the standard normal distribution *)
Definition large_ci (quantile : R -> R) (alpha : R) (s : list R) (m : R) : option (R * R) :=
  if Rlt_dec alpha 0 then None else if Rlt_dec 2 alpha then None else
  let n := INR (length s) in let eta := quantile (1 - alpha / 2) in
  interval s m (Int_part (1 / 2 * n - 1 / 2 * eta * sqrt n) - 1) (- Int_part (- (1 / 2 * n + 1 / 2 * eta * sqrt n))).
(** 58-98 and the return value; [None]: an exception *)
Definition median_ci (quantile : R -> R) (alpha : R) (x : list R) : option (R * (R * R)) :=
  let* m := median x in
  if Req_EM_T alpha 0 then None else if Req_EM_T alpha 2 then None else
  let* ci := if Rlt_dec (INR (length x)) (clt_bound alpha) then small_ci alpha (sort x) m else large_ci quantile alpha (sort x) m in
  Some (m, ci).
