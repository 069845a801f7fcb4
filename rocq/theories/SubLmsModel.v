(** /repo/pyroomacoustics/adaptive/subband_lms.py: SubbandLMS.

    Arrays of shape (taps, bands) are functions of tap and band, blocks of input functions of the
    band, of the length the filter was made for (numpy would also broadcast one value to all
    bands).  Exact complex arithmetic, so storing in complex64 does nothing. *)
From Coq Require Import List ZArith Lia Reals Lra Bool.
From Verif Require Import Base Vec Sum Cpx AuxivaModel.
Import ListNotations.
Local Open Scope R_scope.

Record sub := { sbW : nat -> nat -> C; sbX : nat -> nat -> C; sbD : nat -> C; sbE : nat -> C }.
(** reset, 54-65 *)
Definition sub_reset : sub := {| sbW := fun _ _ => C0; sbX := fun _ _ => C0; sbD := fun _ => C0; sbE := fun _ => C0 |}.
(** update, 67-98; [None]: IndexError (no taps) *)
Definition sub_update (taps : nat) (mu : R) (nlms : bool) (s : sub) (Xn Dn : nat -> C) : option sub :=
  if Nat.eqb taps 0 then None else
  let X t b := match t with O => Xn b | S t' => sbX s t' b end in
  let E b := (Dn b - csum taps (fun t => Conj (sbW s t b) * X t b))%C in
  let upd t b := (RtoC mu * Conj (E b) * X t b)%C in
  let upd t b := if nlms then Cdiv (upd t b) (csum taps (fun t => Conj (X t b) * X t b) + RtoC (/ 10 ^ 6))%C else upd t b in
  Some {| sbW := fun t b => (sbW s t b + upd t b)%C; sbX := X; sbD := Dn; sbE := E |}.
(** one update after the other *)
Definition sub_run (taps : nat) (mu : R) (nlms : bool) (blocks : list ((nat -> C) * (nat -> C))) : option sub :=
  foldM (fun s p => sub_update taps mu nlms s (fst p) (snd p)) blocks sub_reset.
