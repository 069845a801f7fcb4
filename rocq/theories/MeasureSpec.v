(** Energy decay, regression and exponential fits, independently of the code. *)
From Coq Require Import List Reals.
From Verif Require Import Base.
Import ListNotations.
Local Open Scope R_scope.

(** The energy of h from sample i on, and its level in dB relative to the energy of all of h. *)
Definition energy_after (h : list R) (i : nat) : R := Rsum (map (fun x => x * x) (skipn i h)).
Definition level (h : list R) (i : nat) : R := 10 * (ln (energy_after h i / energy_after h 0) / ln 10).

(** Sum of squared residuals of the line a t + b, and the regression line: the least sum, and among
    several lines with this sum the least coefficients. *)
Definition residual (t d : list R) (a b : R) : R := Rsum (map (fun p => (a * fst p + b - snd p) * (a * fst p + b - snd p)) (combine t d)).
Definition is_lstsq (lstsq : list R -> list R -> R * R) : Prop :=
  forall t d, length t = length d -> forall a b,
    residual t d (fst (lstsq t d)) (snd (lstsq t d)) <= residual t d a b /\
    (residual t d a b = residual t d (fst (lstsq t d)) (snd (lstsq t d)) ->
     fst (lstsq t d) * fst (lstsq t d) + snd (lstsq t d) * snd (lstsq t d) <= a * a + b * b).
(** A curve b exp(a t) through all the points; and a fit that finds one if there is one. *)
Definition through (t y : list R) (a b : R) : Prop := forall p, In p (combine t y) -> b * exp (a * fst p) = snd p.
Definition is_fit (curve_fit : list R -> list R -> R -> R -> R * R) : Prop :=
  forall t y a0 b0, (exists a b, through t y a b) -> let p := curve_fit t y a0 b0 in through t y (fst p) (snd p).
