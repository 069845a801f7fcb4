(** What independent vector analysis minimises. *)
From Coq Require Import List ZArith Lia Reals Lra Bool.
From Verif Require Import Base Vec Sum Cpx AuxivaModel.
Import ListNotations.
Local Open Scope R_scope.

(** [u V w^H] for rows [u], [w] *)
Definition form (M : nat) (V : mat) (u w : nat -> C) : C := csum M (fun d => (csum M (fun c => u c * V c d) * Conj (w d))%C).

Definition mulmat (M : nat) (A B : mat) : mat := fun i j => csum M (fun k => (A i k * B k j)%C).
Definition invertible (M : nat) (A : mat) : Prop := exists B : mat, forall i j, (i < M)%nat -> (j < M)%nat ->
  mulmat M A B i j = unit_vec i j /\ mulmat M B A i j = unit_vec i j.
(** What numpy.linalg.solve does: the solution, for invertible matrices only. *)
Definition is_solve (solve : nat -> mat -> (nat -> C) -> option (nat -> C)) : Prop :=
  forall n A b x, solve n A b = Some x ->
    invertible n A /\ forall i, (i < n)%nat -> csum n (fun j => (A i j * x j)%C) = b i.

(** A determinant of n x n matrices, up to a factor: a function of the entries that is linear
    in every row and zero for matrices with two equal rows. *)
Record alternating (n : nat) (D : mat -> C) : Prop := {
  alt_ext : forall A B, (forall i j, (i < n)%nat -> (j < n)%nat -> A i j = B i j) -> D A = D B;
  alt_add : forall A s u v, (s < n)%nat -> D (set_row A s (fun j => u j + v j)%C) = (D (set_row A s u) + D (set_row A s v))%C;
  alt_scal : forall A s k u, (s < n)%nat -> D (set_row A s (fun j => k * u j)%C) = (k * D (set_row A s u))%C;
  alt_same : forall A s k, (s < n)%nat -> (k < n)%nat -> s <> k -> D (set_row A s (A k)) = C0 }.

(** The determinant, expanded along the first column. *)
Definition minor (A : mat) (i : nat) : mat := fun r c => A (if (r <? i)%nat then r else S r) (S c).
Fixpoint det (n : nat) (A : mat) : C :=
  match n with
  | O => C1
  | S m => csum n (fun i => ((if Nat.even i then C1 else Copp C1) * A i 0%nat * det m (minor A i))%C)
  end.

(** The contrast functions, of the energy [e] over all frequencies: the norm for the Laplace
    model, its logarithm for the Gauss model; quadratic below the floor [eps] of the weights. *)
Definition contrast (model : source_model) (F : nat) (eps e : R) : R :=
  match model with
  | Laplace => if Rlt_dec (2 * sqrt e) eps then e / eps + eps / 4 else sqrt e
  | Gauss => if Rlt_dec (e / INR F) eps then e / eps + INR F * ln eps else INR F + INR F * ln (e / INR F)
  end.
(** The objective: mean contrast of the separated sources minus the logarithm of the squared
    determinants. *)
Definition objective (model : source_model) (F M T : nat) (eps : R) (X : nat -> nat -> nat -> C) (D : mat -> C) (W : nat -> mat) : R :=
  bsum M (fun s => / INR T * bsum T (fun t => contrast model F eps (bsum F (fun f => Cabs2 (csum M (fun c => (W f s c * X f c t)%C)))))) -
  bsum F (fun f => ln (Cabs2 (D (W f)))).
