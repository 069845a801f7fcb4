(** /repo/pyroomacoustics/bss/auxiva.py: auxiva 75-260.  Exact complex arithmetic; arrays are
    functions of their indices.  The callback (200-207) is taken to have no effect; [None] is
    an exception.  [solve n A b] stands for numpy.linalg.solve with an n x n matrix and one
    right-hand side; it raises ([None]) for singular matrices.  The initial
    matrices are arbitrary; [init_eig] is in AuxEigModel. *)
From Coq Require Import List ZArith Lia Reals Lra Bool.
From Verif Require Import Base Vec Sum Cpx BackModel.
Import ListNotations.
Local Open Scope R_scope.

Definition mat := nat -> nat -> C.
(** numpy's division and (principal) square root of complex numbers *)
Definition Cdiv (a b : C) : C := Cscal (/ Cabs2 b) (a * Conj b)%C.
Definition csqrt (z : C) : C :=
  let re := sqrt ((Cabs z + fst z) / 2) in
  let im := sqrt ((Cabs z - fst z) / 2) in
  (re, if Rlt_dec (snd z) 0 then - im else im).
(** row [s] replaced *)
Definition set_row (W : mat) (s : nat) (row : nat -> C) : mat := fun i j => if Nat.eqb i s then row j else W i j.
Definition unit_vec (s : nat) : nat -> C := fun i => if Nat.eqb i s then C1 else C0.

Inductive source_model := Laplace | Gauss.

Section Auxiva.
Variable solve : nat -> mat -> (nat -> C) -> option (nat -> C).
(** numbers of frequencies, channels, sources and frames *)
Variables (F M S T : nat) (model : source_model) (eps : R).
(** [X f c t]: the input after auxiva.py:189 *)
Variable X : nat -> nat -> nat -> C.

(** auxiva.py:144: covariance of the input *)
Definition covariance (f : nat) : mat := fun c d => Cscal (/ INR T) (csum T (fun t => (X f c t * Conj (X f d t))%C)).

(** auxiva.py:192-193; [W f] is W_hat of the code, its first S rows are W *)
Definition demix (W : nat -> mat) (f s t : nat) : C := csum M (fun c => (W f s c * X f c t)%C).

(** auxiva.py:153-155, for one frequency: the rows below the first S have their first S
    entries set from the orthogonality constraint *)
Definition update_J_f (W : mat) (Cx : mat) : option mat :=
  let tmp : mat := fun k d => csum M (fun c => (W k c * Cx c d)%C) in
  let* z := mapM (fun i => solve S (fun k d => tmp k d) (fun k => tmp k (S + i)%nat)) (seq 0 (M - S)) in
  Some (fun r d => if (S <=? r)%nat && (d <? S)%nat then Conj (nth (r - S) z (fun _ => C0) d) else W r d).
Definition for_all_f (g : nat -> option mat) : option (nat -> mat) :=
  let* l := mapM g (seq 0 F) in Some (fun f => nth f l (fun _ _ => C0)).
Definition update_J (W : nat -> mat) : option (nat -> mat) := for_all_f (fun f => update_J_f (W f) (covariance f)).

(** auxiva.py:158-180: initial matrices [W0] ([None]: identity), the rest of W_hat *)
Definition init (W0 : option (nat -> mat)) : option (nat -> mat) :=
  let W : nat -> mat := fun f s c =>
    if (s <? S)%nat then match W0 with Some w => w f s c | None => if Nat.eqb s c then C1 else C0 end else C0 in
  if (S <? M)%nat then
    let* W' := update_J W in
    Some (fun f r d => if (S <=? r)%nat && (S <=? d)%nat then (if Nat.eqb r d then Copp C1 else C0) else W' f r d)
  else Some W.

(** auxiva.py:210-219: weights of the frames for source [s] *)
Definition weight (Y : nat -> nat -> nat -> C) (s t : nat) : R :=
  let e := bsum F (fun f => Cabs2 (Y f s t)) in
  let r := match model with Laplace => 2 * sqrt e | Gauss => e / INR F end in
  let r := if Rlt_dec r eps then eps else r in
  1 / r.
(** auxiva.py:225-228: weighted covariance *)
Definition weighted (rho : nat -> R) (f : nat) : mat :=
  fun c d => Cscal (/ INR T) (csum T (fun t => (Cscal (rho t) (X f c t) * Conj (X f d t))%C)).

(** auxiva.py:230-237, one frequency: the new row [s] *)
Definition new_row (W V : mat) (s : nat) : option (nat -> C) :=
  let WV : mat := fun i d => csum M (fun c => (W i c * V c d)%C) in
  let* x := solve M WV (unit_vec s) in
  let w := fun d => Conj (x d) in
  let denom := csum M (fun d => (csum M (fun c => w c * V c d) * Conj (w d))%C) in
  Some (fun d => Cdiv (w d) (csqrt denom)).
(** auxiva.py:222-241, one source *)
Definition update_source (Y : nat -> nat -> nat -> C) (W : nat -> mat) (s : nat) : option (nat -> mat) :=
  let* W' := for_all_f (fun f => let* row := new_row (W f) (weighted (weight Y s) f) s in Some (set_row (W f) s row)) in
  if (S <? M)%nat then update_J W' else Some W'.
(** auxiva.py:196-241 *)
Definition epoch (W : nat -> mat) : option (nat -> mat) :=
  let Y := demix W in foldM (update_source Y) (seq 0 S) W.
Fixpoint epochs (n_iter : nat) (W : nat -> mat) : option (nat -> mat) :=
  match n_iter with O => Some W | Datatypes.S n => let* W' := epoch W in epochs n W' end.

(** auxiva.py:75-260: the separated signals [t f s] and the filters; the first assertion of
    lines 137-139 *)
Definition auxiva (n_iter : nat) (W0 : option (nat -> mat)) (proj_back : bool) : option ((nat -> nat -> nat -> C) * (nat -> mat)) :=
  if (M <? S)%nat then None else
  let* W := init W0 in
  let* W := epochs n_iter W in
  let Y : nat -> nat -> nat -> C := fun t f s => demix W f s t in
  let Y : nat -> nat -> nat -> C := if proj_back
    then fun t f s => (Y t f s * Conj (projection_back T Y (fun t f => X f 0%nat t) None None f s))%C
    else Y in
  Some (Y, W).
End Auxiva.
