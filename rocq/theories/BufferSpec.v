(** What the buffer should do: a stack of samples, newest first, that can lose its oldest
    elements. *)
From Coq Require Import List ZArith Lia.
From Verif Require Import BufferModel.
Import ListNotations.

Section Stack.
Context {A : Type}.
Definition stack_step (l : list A) (o : bop A) : list A * answer A :=
  match o with
  | Push v => (v :: l, ANone)
  | Flush n => (firstn (length l - n) l, ANone)
  | Top n => (l, AList (firstn n l))
  | Size => (l, ASize (length l))
  | Get r => (l, AElt (if (r <? 0)%Z then nth_error (rev l) (Z.to_nat (- r - 1)) else nth_error l (Z.to_nat r)))
  end.
Fixpoint stack_run (l : list A) (ops : list (bop A)) : list (answer A) :=
  match ops with
  | [] => []
  | o :: ops => snd (stack_step l o) :: stack_run (fst (stack_step l o)) ops
  end.
End Stack.
