(** What independent low-rank matrix analysis minimises. *)
From Coq Require Import List ZArith Lia Reals Lra Bool.
From Verif Require Import Base Vec Sum Cpx AuxivaModel AuxivaSpec.
Import ListNotations.
Local Open Scope R_scope.

(** Fit of the power [p] by the model spectrum [r]: minus the log-likelihood of a complex
    Gaussian of variance [r]. *)
Definition fit (p r : R) : R := p / r + ln r.
(** Fit of the powers of source [s] by [K] components. *)
Definition source_fit (F N K : nat) (P : nat -> nat -> R) (T V : nat -> nat -> R) : R :=
  bsum F (fun f => bsum N (fun t => fit (P f t) (bsum K (fun k => T f k * V t k)))).
(** The objective: mean fit of the separated sources minus the log squared determinants. *)
Definition nll (F M N K : nat) (X : nat -> nat -> nat -> C) (W : nat -> mat) (T V : nat -> nat -> nat -> R) : R :=
  / INR N * bsum M (fun s => source_fit F N K (fun f t => Cabs2 (csum M (fun c => (W f s c * X f c t)%C))) (T s) (V s)) -
  bsum F (fun f => ln (Cabs2 (det M (W f)))).
