(** Exponentially weighted, regularised least squares. *)
From Coq Require Import List ZArith Lia Reals.
From Verif Require Import Base Vec LmsSpec Sum RlsModel.
Import ListNotations.
Local Open Scope R_scope.

(** The input window [k] samples before the end of the stream, and its reference. *)
Definition past_window (len : nat) (ss : list (R * R)) (k : nat) : vec := window len (skipn k (newest_first ss)).
Definition past_ref (ss : list (R * R)) (k : nat) : R := nth k (newest_refs ss) 0.

(** The weighted correlation matrix and cross-correlation. *)
Definition Phi (len : nat) (lmbd delta : R) (ss : list (R * R)) (i j : nat) : R :=
  delta * lmbd ^ length ss * (if Nat.eqb i j then 1 else 0) +
  Rsum (map (fun k => lmbd ^ k * (nth i (past_window len ss k) 0 * nth j (past_window len ss k) 0)) (seq 0 (length ss))).
Definition zeta (len : nat) (lmbd : R) (ss : list (R * R)) (i : nat) : R :=
  Rsum (map (fun k => lmbd ^ k * (past_ref ss k * nth i (past_window len ss k) 0)) (seq 0 (length ss))).

(** The cost that recursive least squares minimises. *)
Definition cost (len : nat) (lmbd delta : R) (ss : list (R * R)) (v : vec) : R :=
  delta * lmbd ^ length ss * vsq v +
  Rsum (map (fun k => let e := past_ref ss k - dot (past_window len ss k) v in lmbd ^ k * (e * e)) (seq 0 (length ss))).

(** The samples of the completed blocks of [L]. *)
Definition whole_blocks (L : nat) (ss : list (R * R)) : list (R * R) := firstn (L * (length ss / L)) ss.

(** numpy.linalg.solve on [n] by [n] systems: a matrix without kernel is accepted, and the
    result solves the system. *)
Definition solves (n : nat) (solve : list vec -> list vec -> option (list vec)) : Prop :=
  forall k A B, (forall b : nat -> R, (forall i, (i < n)%nat -> bsum n (fun j => entry (mk n n A) i j * b j) = 0) -> forall i, (i < n)%nat -> b i = 0) ->
  exists Y, solve (mk n n A) (mk n k B) = Some Y /\
    forall i j, (i < n)%nat -> (j < k)%nat -> bsum n (fun m => entry (mk n n A) i m * entry Y m j) = entry (mk n k B) i j.
