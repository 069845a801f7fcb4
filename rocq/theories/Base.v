(** Common vocabulary used by all models: C-style ranges, array writes that can
    fail, option sequencing, finite sums.  No property lives here. *)
From Coq Require Import List ZArith Lia Reals Lra.
Import ListNotations.

(** [for (p = lo; p <= hi; p++)] over machine integers seen as [Z]. *)
Definition crange (lo hi : Z) : list Z :=
  map (fun k => (lo + Z.of_nat k)%Z) (seq 0 (Z.to_nat (hi - lo + 1))).

(** Array store [l[i] = v]; [None] stands for an out-of-bounds store. *)
Fixpoint store {A} (l : list A) (i : nat) (v : A) : option (list A) :=
  match l, i with
  | [], _ => None
  | _ :: t, O => Some (v :: t)
  | h :: t, S j => match store t j v with None => None | Some t' => Some (h :: t') end
  end.

Definition bind {A B} (o : option A) (f : A -> option B) : option B :=
  match o with None => None | Some a => f a end.

Notation "'let*' x ':=' e 'in' f" := (bind e (fun x => f))
  (at level 200, x name, right associativity).

(** [mapM f l]: run [f] on every element, fail if one fails. *)
Fixpoint mapM {A B} (f : A -> option B) (l : list A) : option (list B) :=
  match l with
  | [] => Some []
  | a :: t => let* b := f a in let* t' := mapM f t in Some (b :: t')
  end.

(** [foldM f l acc]: left fold that may fail. *)
Fixpoint foldM {A S} (f : S -> A -> option S) (l : list A) (acc : S) : option S :=
  match l with
  | [] => Some acc
  | a :: t => let* acc' := f acc a in foldM f t acc'
  end.

(** Finite sums and products of reals. *)
Definition Rsum (l : list R) : R := fold_right Rplus 0%R l.
Definition Rprod (l : list R) : R := fold_right Rmult 1%R l.
