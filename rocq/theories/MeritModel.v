(** /repo/pyroomacoustics/beamforming.py: snr 876-915, udr 917-948, rake_max_udr_weights 1145-1178,
    rake_max_udr_filters 1180-1255.

    Exact arithmetic; [None] is an exception or a result that is not finite.  The results of
    numpy.linalg.cholesky, inv, eig and scipy.linalg.eigh are arguments.  With dB=True the functions
    return ten times the decimal logarithm of what is given here. *)
From Coq Require Import Reals List ZArith Lia Lra Bool.
From Verif Require Import Base Vec Sum Cpx SphereModel BeamModel.
Import ListNotations.
Local Open Scope R_scope.

(** 877, 918: numpy.argmin(numpy.abs(self.frequencies - f)) *)
Definition nearest (freqs : list R) (f : R) : option nat :=
  match freqs with [] => None | _ => Some (argmin (fun i => Some (Rabs (nth i freqs 0 - f))) (length freqs)) end.

Section Array.
Variables (c : R) (Rm : list (list R)) (ctr : list R) (freqs : list R).
Let M := length Rm.
(** 900-906, 932-938; [Xq] are the images of the interferer *)
Definition disturbance_matrix (f : R) (Xq : option (list (list R))) (Rn : nat -> nat -> C) : option (nat -> nat -> C) :=
  match Xq with
  | None => Some Rn
  | Some Q => let* B := steering c Rm ctr f Q true false in let b := sumcols (length Q) B in Some (fun i j => (Rn i j + b i * Conj (b j))%C)
  end.
Definition quotient (num den : C) : option R := if C_eq_dec den C0 then None else Some (fst (num * Cinv den)%C).
(** snr with dB=False; [W m i] is self.weights[m, i] *)
Definition snr (W : nat -> nat -> C) (X : list (list R)) (Xq : option (list (list R))) (Rn : nat -> nat -> C) (f : R) : option R :=
  let* i := nearest freqs f in
  let* A := steering c Rm ctr (nth i freqs 0) X true false in
  let* K := disturbance_matrix (nth i freqs 0) Xq Rn in
  let w := fun m => W m i in
  let a := sumcols (length X) A in
  quotient (cdot M w a * cdot M a w)%C (cdot M w (cmv M K w)).
(** udr with dB=False *)
Definition udr (W : nat -> nat -> C) (X : list (list R)) (Xq : option (list (list R))) (Rn : nat -> nat -> C) (f : R) : option R :=
  let* i := nearest freqs f in
  let* A := steering c Rm ctr (nth i freqs 0) X true false in
  let* K := disturbance_matrix (nth i freqs 0) Xq Rn in
  let w := fun m => W m i in
  quotient (csum (length X) (fun k => (cdot M w (fun m => A m k) * cdot M (fun m => A m k) w)%C)) (cdot M w (cmv M K w)).

(** rake_max_udr_weights at frequency [f].  One image: rake_max_sinr_weights is called with arrays instead of
    sources and raises.  [chol], [inv] and [eig] may raise; [eig] gives the matrix of eigenvectors. *)
Variables chol inv eig : nat -> (nat -> nat -> C) -> option (nat -> nat -> C).
Definition max_udr_weights (f : R) (X : list (list R)) (Xq : option (list (list R))) (Rn : nat -> nat -> C) (attn ff : bool) : option (nat -> C) :=
  if Nat.eqb (length X) 1 then None else
  let* A := steering c Rm ctr f X attn ff in
  let* b := bad_field c Rm ctr f Xq attn ff in
  let* L := chol M (noise_cov b Rn 0) in
  let* Li := inv M L in
  let* v := eig M (cmm M (cmm (length X) (cmm M Li A) (herm A)) (herm Li)) in
  let* LHi := inv M (herm L) in
  Some (cmv M LHi (fun r => v r 0%nat)).
End Array.

(** rake_max_udr_filters: [Hc] is the (M Lg) x ncol channel matrix, n = M Lg rows; the first [L] columns belong to
    the source, the next [L] to the interferer if there is one.  kappa = int(delay * fs), precedence = int(0.030 * fs). *)
Section Filters.
Variables (n L kappa precedence : nat) (Hc : nat -> nat -> R) (interferer : bool) (Rn : nat -> nat -> R).
(** numpy.dot(H[:, a:b], H[:, a:b].T) *)
Definition gram_cols (a b : nat) (i j : nat) : R := bsum (b - a) (fun t => Hc i (a + t)%nat * Hc j (a + t)%nat).
Definition last_useful : nat := Nat.min L (kappa + precedence).
Definition ncol : nat := if interferer then (2 * L)%nat else L.
Definition udr_A : nat -> nat -> R := gram_cols (Nat.min kappa ncol) last_useful.
Definition udr_B (i j : nat) : R :=
  gram_cols 0 (Nat.min kappa ncol) i j + gram_cols L ncol i j + Rn i j + (if interferer then gram_cols last_useful L i j else 0).
(** scipy.linalg.eigh(A, b=B): eigenvalues in ascending order with B-orthonormal eigenvectors, the columns of [V] *)
Definition eigh_result (A B : nat -> nat -> R) (lam : nat -> R) (V : nat -> nat -> R) : Prop :=
  (forall i j, (i < n)%nat -> (j < n)%nat -> ip n (fun r => V r i) (mv n B (fun r => V r j)) = kron i j) /\
  (forall x r, (r < n)%nat -> x r = bsum n (fun i => V r i * ip n (fun r => V r i) (mv n B x))) /\
  (forall i r, (i < n)%nat -> (r < n)%nat -> mv n A (fun r => V r i) r = lam i * mv n B (fun r => V r i) r) /\
  (forall i j, (i <= j < n)%nat -> lam i <= lam j).
(** the filters and the value returned *)
Definition max_udr_filters (g : nat -> R) (ratio : R) : Prop :=
  (0 < n)%nat /\ exists lam V, eigh_result udr_A udr_B lam V /\ ratio = lam (n - 1)%nat /\ forall r, (r < n)%nat -> g r = V r (n - 1)%nat.
End Filters.
