(** /repo/pyroomacoustics/experimental/point_cloud.py: points from a distance matrix; and
    experimental/localization.py: edm_line_search.  An n x n matrix is a function of row and column.
    Real numbers instead of floats; [None]: an exception, or numbers that are not finite. *)
From Coq Require Import List ZArith Lia Reals Bool.
From Verif Require Import Base Vec Sum SyncModel PcModel.
Import ListNotations.
Local Open Scope R_scope.

Definition matrix := nat -> nat -> R.
(** np.dot on n x n matrices *)
Definition mdot (n : nat) (A B : matrix) : matrix := fun i j => bsum n (fun k => A i k * B k j).
(** point_cloud.py:135-136, J *)
Definition centering (n : nat) : matrix := fun i j => (if Nat.eqb i j then 1 else 0) - 1 / INR n.
(** point_cloud.py:137 *)
Definition gram (n : nat) (D : matrix) : matrix := fun i j => - (/ 2) * mdot n (centering n) (mdot n D (centering n)) i j.
(** point_cloud.py:124-148.  [eig]: np.linalg.eig, the eigenvalues and the matrix with an eigenvector
    in each column; the real part of the eigenvalues is not modelled since they are real.  diag(s)[0:dim]
    has min(dim, n) rows.  The square root of a negative number: NaN. *)
Definition classical_mds (eig : nat -> matrix -> (nat -> R) * matrix) (argsort : list R -> list nat) (dim n : nat) (D : matrix) : option (list vec) :=
  if Nat.eqb n 0 then None else
  let '(s, U) := eig n (gram n D) in
  let o := rev (argsort (map s (seq 0 n))) in
  let k := Nat.min dim n in
  if existsb (fun j => if Rlt_dec (s (nth j o 0%nat)) 0 then true else false) (seq 0 k) then None else
  Some (map (fun i => map (fun j => sqrt (s (nth j o 0%nat)) * U i (nth j o 0%nat)) (seq 0 k)) (seq 0 n)).
(** point_cloud.py:150-159; [None]: a division by zero or the root of a negative number *)
Definition trilateration_single_point (c Dx Dy : R) : option (R * R) :=
  if Req_EM_T c 0 then None else
  let z := (c * c - (Dy * Dy - Dx * Dx)) / (2 * c) in
  if Rlt_dec (Dx * Dx - z * z) 0 then None else Some (sqrt (Dx * Dx - z * z), z).
(** point_cloud.py:161-180.  Row 1 is written, for dim = 2, and then range(2, m) with no m: NameError *)
Definition trilateration (dim n : nat) (D : matrix) : option (list vec) :=
  if negb (Nat.eqb dim 2) || (n <? 2)%nat then None else None.
Inductive method := Mds | Tri.
(** point_cloud.py:98-122 *)
Definition from_edm eig argsort (dim rows cols : nat) (D : matrix) (m : method) : option (list vec) :=
  if negb (Nat.eqb rows cols) then None else
  match m with Tri => trilateration dim rows D | Mds => classical_mds eig argsort dim rows D end.

(** localization.py:198-199 and 209: the EDM of the points, bordered by the squares of [r] *)
Definition bordered (n : nat) (E : list (list R)) (r : vec) : matrix := fun i j =>
  if (i <? n)%nat then (if (j <? n)%nat then nth j (nth i E []) 0 else nth i r 0 * nth i r 0)
  else if (j <? n)%nat then nth j r 0 * nth j r 0 else 0.
(** np.linspace *)
Definition lin_space (a b : R) (n : nat) : vec := map (fun i => if Nat.eqb n 1 then a else a + INR i * ((b - a) / (INR n - 1))) (seq 0 n).
(** w[:stop] for an integer stop, possibly negative *)
Definition upto {A} (z : Z) (l : list A) : list A := firstn (if (z <? 0)%Z then (length l - Z.to_nat (- z))%nat else Z.to_nat z) l.
Definition rmin (l : vec) : R := fold_right Rmin (hd 0 l) l.
(** localization.py:172-214.  [eigh]: scipy.linalg.eigh with eigvals_only *)
Definition edm_line_search (eigh : nat -> matrix -> vec) (pc : cloud) (tdoa : vec) (b0 b1 : R) (steps : nat) : option (vec * vec) :=
  let n := length (c_pts pc) in
  if Nat.eqb (length tdoa) 0 then None else
  let dif := map (fun t => t - rmin tdoa) tdoa in
  let d := lin_space b0 b1 steps in
  if negb (Nat.eqb (length tdoa) n) && negb (Nat.eqb (length tdoa) 1) && negb (Nat.eqb steps 0) then None else
  let dif := if Nat.eqb (length tdoa) 1 then repeat (hd 0 dif) n else dif in
  Some (map (fun di => let w := sort (map Rabs (eigh (S n) (bordered n (pc_edm pc) (map (fun x => x + di) dif)))) in
               Rsum (upto (Z.of_nat (S n) - 5) w)) d, d).
