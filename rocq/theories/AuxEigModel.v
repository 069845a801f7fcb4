(** Independent vector analysis started from principal eigenvectors.
    /repo/pyroomacoustics/bss/auxiva.py: auxiva 75-260 with init_eig=True and no W0 (162-168).

    [eig] is np.linalg.eig, eigenvalues (real for a covariance) and eigenvectors in columns; [argsort] np.argsort.
    Conventions of AuxivaModel. *)
From Coq Require Import List ZArith Lia Reals Lra Bool.
From Verif Require Import Base Vec Sum Cpx BackModel AuxivaModel.
Import ListNotations.
Local Open Scope R_scope.

Section Eig.
Variable solve : nat -> mat -> (nat -> C) -> option (nat -> C).
Variable eig : nat -> mat -> (nat -> R) * mat.
Variable argsort : list R -> list nat.
Variables (F M S T : nat) (model : source_model) (eps : R) (X : nat -> nat -> nat -> C).

(** 167: np.argsort(v)[-n_src:] *)
Definition chosen (v : nat -> R) : list nat := let l := argsort (map v (seq 0 M)) in if Nat.eqb S 0 then l else skipn (length l - S) l.
(** 168: an array of M rows and one column per index goes to one of S rows and M columns; the shapes must agree or be one *)
Definition principal (e : (nat -> R) * mat) : option mat :=
  let ind := chosen (fst e) in
  if (Nat.eqb M S || Nat.eqb M 1) && (Nat.eqb (length ind) M || Nat.eqb (length ind) 1)
  then Some (fun s c => Conj (snd e (if Nat.eqb M 1 then 0%nat else s) (nth (if Nat.eqb (length ind) 1 then 0%nat else c) ind 0%nat)))
  else None.
(** 137-168 and the rest as with given matrices *)
Definition auxiva_eig (n_iter : nat) (proj_back : bool) : option ((nat -> nat -> nat -> C) * (nat -> mat)) :=
  if (M <? S)%nat then None else
  let* W0 := for_all_f F (fun f => principal (eig M (covariance T X f))) in
  auxiva solve F M S T model eps X n_iter (Some W0) proj_back.
End Eig.
