(** Fractional delay filters by convex optimisation.
    /repo/pyroomacoustics/multirate.py: frac_delay 4-69.

    The solver (cvxopt.solvers.socp) is a relation: it returns a minimiser of f^T x subject to hq - Gq x being in the second
    order cone, for all the cones; no minimiser: sol["x"] is None and the function raises.  low_pass 72-94 is scipy's remez;
    resample 97-131 always raises (fractions.gcd is gone). *)
From Coq Require Import List ZArith Lia Reals Lra.
From Verif Require Import Base Sum.
Import ListNotations.
Local Open Scope R_scope.

(** cvxopt.solvers.socp with cones of dimension three: objective, list of (Gq, hq), n variables *)
Definition in_cone (s : nat -> R) : Prop := sqrt (s 1%nat * s 1%nat + s 2%nat * s 2%nat) <= s 0%nat.
Definition feasible (n : nat) (cones : list ((nat -> nat -> R) * (nat -> R))) (x : nat -> R) : Prop :=
  forall G h, In (G, h) cones -> in_cone (fun r => h r - bsum n (fun j => G r j * x j)).
Definition socp (n : nat) (f : nat -> R) (cones : list ((nat -> nat -> R) * (nat -> R))) (x : nat -> R) : Prop :=
  feasible n cones x /\ forall y, feasible n cones y -> bsum n (fun j => f j * x j) <= bsum n (fun j => f j * y j).

(** 24: int(C * N), C not negative *)
Definition n_constraints (c_ratio : R) (n_taps : nat) : nat := Z.to_nat (Int_part (c_ratio * INR n_taps)).
(** 25: np.linspace(0, w_max * pi, N_C) *)
Definition freq (w_max : R) (n_c i : nat) : R := if Nat.eqb n_c 1 then 0 else INR i * (w_max * PI / INR (n_c - 1)).
(** 36 *)
Definition objective (n_taps j : nat) : R := if Nat.eqb j n_taps then 1 else 0.
(** 41-44 *)
Definition cone_mtx (n_taps : nat) (w : R) (r j : nat) : R :=
  match r with
  | 0%nat => - objective n_taps j
  | 1%nat => if Nat.eqb j n_taps then 0 else cos (w * INR j)
  | _ => if Nat.eqb j n_taps then 0 else - sin (w * INR j)
  end.
(** 45-47 *)
Definition cone_vec (delta w : R) (r : nat) : R := match r with 0%nat => 0 | 1%nat => cos (w * delta) | _ => - sin (w * delta) end.
(** 4-69: [h] is a possible result *)
Definition frac_delay (delta : R) (n_taps : nat) (w_max c_ratio : R) (h : nat -> R) : Prop :=
  let n_c := n_constraints c_ratio n_taps in
  let cones := map (fun i => let w := freq w_max n_c i in (cone_mtx n_taps w, cone_vec delta w)) (seq 0 n_c) in
  exists x, socp (n_taps + 1) (objective n_taps) cones x /\ forall j, (j < n_taps)%nat -> h j = x j.
