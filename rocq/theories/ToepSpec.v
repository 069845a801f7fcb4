(** Toeplitz, Hankel and circulant matrices. *)
From Coq Require Import List Lia Reals.
From Verif Require Import Base Vec Sum.
Import ListNotations.
Local Open Scope R_scope.

(** First column [c], first row [r] (whose first entry is not used). *)
Definition toeplitz (c r : vec) (i j : nat) : R := if (j <=? i)%nat then nth (i - j) c 0 else nth (j - i) r 0.
(** First column [c], last row [r] (whose first entry is not used). *)
Definition hankel_mat (c r : vec) (i j : nat) : R :=
  if (i + j <? length c)%nat then nth (i + j) c 0 else nth (i + j - (length c - 1)) r 0.
Definition is_circulant (n : nat) (M : nat -> nat -> R) : Prop :=
  exists d : nat -> R, forall i j, (i < n)%nat -> (j < n)%nat -> M i j = d ((i + (n - j)) mod n)%nat.
(** Squared Frobenius distance. *)
Definition frob2 (n : nat) (A B : nat -> nat -> R) : R := bsum n (fun i => bsum n (fun j => (A i j - B i j) * (A i j - B i j))).
