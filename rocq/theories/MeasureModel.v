(** /repo/pyroomacoustics/experimental/rt60.py: [_fit_exp_and_extrapolate] and [measure_rt60] (the plot
    is left out).

    [lstsq t d] is numpy's solution of the regression of d on t and 1, [curve_fit t y a0 b0] scipy's fit
    of b exp(a t) started at a0, b0. *)
From Coq Require Import List ZArith Lia Reals Lra Bool.
From Verif Require Import Base GeometryModel WallModel.
Import ListNotations.
Local Open Scope R_scope.

Definition log10 (x : R) : R := ln x / ln 10.

(** An exception, a division by a zero slope (an infinite result), or a number. *)
Inductive outcome := Raises | Infinite | Est (t : R).

Section Measure.
Variable lstsq : list R -> list R -> R * R.
Variable curve_fit : list R -> list R -> R -> R -> R * R.

(** rt60.py:38-72 *)
Definition fit_exp (data_db : list R) (fs value : R) (linear_domain : bool) : outcome :=
  match data_db with
  | [] => Raises
  | d0 :: _ =>
      let data := map (fun d => d - d0) data_db in
      let t := map (fun i => INR i / fs) (seq 0 (length data)) in
      let p := lstsq t data in
      if linear_domain then
        let popt := curve_fit t (map (fun d => Rpower 10 (d / 10)) data) (fst p / (10 * log10 (exp 1))) (Rpower 10 (snd p / 10)) in
        if Req_EM_T (fst popt) 0 then Infinite else Est (value / 10 * ln 10 / fst popt)
      else if Req_EM_T (fst p) 0 then Infinite else Est (value / fst p)
  end.

(** rt60.py:118-120: np.cumsum(power[::-1])[::-1] *)
Fixpoint cumsum (acc : R) (l : list R) : list R := match l with [] => [] | x :: t => (acc + x) :: cumsum (acc + x) t end.
Definition schroeder (h : list R) : list R := rev (cumsum 0 (rev (map (fun x => x * x) h))).
(** rt60.py:122-126; None is the AssertionError or the IndexError *)
Definition threshold (energy : list R) (thres : R) : option (list R) :=
  if Rltb thres 1 then
    if Rltb 0 thres then
      match energy with [] => None | e0 :: _ => Some (map (fun e => Rmax (e - e0 * (1 - thres)) 0) energy) end
    else None
  else Some energy.
(** rt60.py:129-133: the last index with energy, or the length if there is none *)
Definition last_positive (energy : list R) : nat :=
  match filter (fun i => Rltb 0 (nth i energy 0)) (seq 0 (length energy)) with
  | [] => length energy
  | i :: l => fold_left Nat.max l i
  end.
(** np.min(np.where(x < v)[0]); None is the ValueError *)
Definition first_below (x : list R) (v : R) : option nat := find (fun i => Rltb (nth i x 0) v) (seq 0 (length x)).

(** rt60.py:75-161, 193.  If there is no energy at all the levels are not numbers, no comparison with them
    holds, and the result is 0 (line 145). *)
Definition measure_rt60 (h : list R) (fs decay_db thres : R) (linear_domain : bool) : outcome :=
  match threshold (schroeder h) thres with
  | None => Raises
  | Some energy =>
      let energy := firstn (last_positive energy) energy in
      match energy with
      | [] => Raises
      | e0 :: _ =>
          if Rltb 0 e0 then
            let energy_db := map (fun e => 10 * log10 e - 10 * log10 e0) energy in
            let min_energy_db := - list_min energy_db in
            let decay_db := if Rltb (min_energy_db - 5) decay_db then min_energy_db else decay_db in
            match first_below energy_db (-5) with
            | None => Est 0
            | Some i_5db =>
                let e_5db := nth i_5db energy_db 0 in
                let i_decay := match first_below energy_db (e_5db - decay_db) with Some i => i | None => length energy_db end in
                fit_exp (skipn i_5db (firstn i_decay energy_db)) fs (-60) linear_domain
            end
          else Est 0
      end
  end.
End Measure.
