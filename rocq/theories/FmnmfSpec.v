(** What FastMNMF fits: the powers of the projected signals are exponentially distributed with
    the means given by the model. *)
From Coq Require Import List ZArith Lia Reals Lra Bool.
From Verif Require Import Base Vec Sum Cpx AuxivaModel AuxivaSpec.
Import ListNotations.
Local Open Scope R_scope.

(** Minus the logarithm of the density of a power [p] of mean [y]. *)
Definition cost (p y : R) : R := p / y + ln y.
(** Mean of the power at frequency [f], frame [t], channel [m]: every source has [K]
    components plus a constant [e1], all together another constant [e2]. *)
Definition mean (N K : nat) (e1 e2 : R) (W H G : nat -> nat -> nat -> R) (f t m : nat) : R :=
  bsum N (fun n => (bsum K (fun k => W n f k * H n k t) + e1) * G n f m) + e2.
(** Minus the log-likelihood of the input. *)
Definition nll (F M N K T : nat) (e1 e2 : R) (X : nat -> nat -> nat -> C) (Q : nat -> mat) (W H G : nat -> nat -> nat -> R) : R :=
  bsum F (fun f => bsum T (fun t => bsum M (fun m => cost (Cabs2 (csum M (fun j => (Q f m j * X f t j)%C))) (mean N K e1 e2 W H G f t m)))) -
  INR T * bsum F (fun f => ln (Cabs2 (det M (Q f)))).
(** Sum of all entries of an array. *)
Definition total3 (n m l : nat) (a : nat -> nat -> nat -> R) : R := bsum n (fun i => bsum m (fun j => bsum l (fun k => a i j k))).

(** What numpy.linalg.inv does: the inverse, or an exception. *)
Definition is_inv (inv : nat -> mat -> option mat) : Prop :=
  forall n A B, inv n A = Some B -> forall i j, (i < n)%nat -> (j < n)%nat -> mulmat n B A i j = unit_vec i j /\ mulmat n A B i j = unit_vec i j.
