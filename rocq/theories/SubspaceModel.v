(** Model of pyroomacoustics/denoise/subspace.py.  Matrices are functions of row and column. *)
From Coq Require Import List ZArith Lia Reals Bool.
From Verif Require Import Base Vec Sum DenoiseModel.
Import ListNotations.
Local Open Scope R_scope.

Definition mat := nat -> nat -> R.
Definition mzero : mat := fun _ _ => 0.
Definition madd (A B : mat) : mat := fun i j => A i j + B i j.
Definition msub (A B : mat) : mat := fun i j => A i j - B i j.
Definition mscal (c : R) (A : mat) : mat := fun i j => c * A i j.
Definition outer (u : vec) : mat := fun i j => nth i u 0 * nth j u 0.
Definition eye : mat := fun i j => if Nat.eqb i j then 1 else 0.
Definition mmul (n : nat) (A B : mat) : mat := fun i j => bsum n (fun k => A i k * B k j).

(** numpy.hanning, even length *)
Definition hanning (M : nat) : vec := map (fun i => / 2 - / 2 * cos (2 * PI * INR i / (INR M - 1))) (seq 0 M).

(** subspace.py:118-160 *)
Record subspace := { sb_len : nat; sb_mu : R; sb_hop : nat; sb_prev : vec; sb_prev_out : vec; sb_out : vec; sb_win : vec;
  sb_thresh : R; sb_nsamples : nat; sb_input : vec; sb_skip : nat; sb_nframes : nat; sb_nnoise : list nat;
  sb_cov_sn : mat; sb_hist_sn : list mat; sb_cov_n : mat; sb_hist_n : list mat }.
Definition subspace_new (frame_len : nat) (mu : R) (lookback skip : nat) (thresh : R) : option subspace :=
  if Nat.odd frame_len then None else
  let hop := (frame_len / 2)%nat in
  if Nat.eqb skip 0 then None else
  Some {| sb_len := frame_len; sb_mu := mu; sb_hop := hop; sb_prev := repeat 0 hop; sb_prev_out := repeat 0 hop; sb_out := repeat 0 hop; sb_win := hanning frame_len;
          sb_thresh := thresh; sb_nsamples := (hop * lookback + frame_len)%nat; sb_input := repeat 0 (hop * lookback + frame_len); sb_skip := skip;
          sb_nframes := (lookback * (hop / skip))%nat; sb_nnoise := repeat (hop / skip)%nat lookback;
          sb_cov_sn := mzero; sb_hist_sn := repeat mzero lookback; sb_cov_n := mzero; sb_hist_n := repeat mzero lookback |}.

(** 248-249; a NaN is not below the threshold *)
Definition is_noise (thresh : R) (f : vec) : bool := match frame_energy f with Some e => if Rlt_dec e thresh then true else false | None => false end.
Definition slice (a n : nat) (x : vec) : vec := firstn n (skipn a x).
(** 217-260.  lookback = 0: IndexError; no frame per block: division by zero. *)
Definition update_cov_matrices (s : subspace) (new : vec) : option subspace :=
  match sb_hist_sn s, sb_hist_n s, sb_nnoise s with
  | old_sn :: hist_sn, old_n :: hist_n, _ :: nnoise =>
      let cov_sn := msub (mscal (INR (sb_nframes s)) (sb_cov_sn s)) old_sn in
      let old_cov_n := sb_cov_n s in
      let cov_n := msub (mscal (INR (list_sum (sb_nnoise s))) (sb_cov_n s)) old_n in
      let input := skipn (sb_hop s) (sb_input s) ++ new in
      let frames := map (fun k => slice (sb_nsamples s - sb_hop s - sb_len s + k * sb_skip s) (sb_len s) input) (seq 0 ((sb_hop s + sb_skip s - 1) / sb_skip s)) in
      let new_sn := fold_left (fun m f => madd m (outer f)) frames mzero in
      let noise := filter (is_noise (sb_thresh s)) frames in
      let new_n := fold_left (fun m f => madd m (outer f)) noise mzero in
      let (new_n, count) := if Nat.eqb (length noise) 0 then (old_cov_n, 1%nat) else (new_n, length noise) in
      if Nat.eqb (sb_nframes s) 0 then None else
      let nnoise := nnoise ++ [count] in
      Some {| sb_len := sb_len s; sb_mu := sb_mu s; sb_hop := sb_hop s; sb_prev := sb_prev s; sb_prev_out := sb_prev_out s; sb_out := sb_out s; sb_win := sb_win s;
              sb_thresh := sb_thresh s; sb_nsamples := sb_nsamples s; sb_input := input; sb_skip := sb_skip s; sb_nframes := sb_nframes s; sb_nnoise := nnoise;
              sb_cov_sn := mscal (/ INR (sb_nframes s)) (madd cov_sn new_sn); sb_hist_sn := hist_sn ++ [new_sn];
              sb_cov_n := mscal (/ INR (list_sum nnoise)) (madd cov_n new_n); sb_hist_n := hist_n ++ [new_n] |}
  | _, _, _ => None
  end.

Section Oracles.
(** numpy.linalg.lstsq, eig (None: complex eigenvalues, not modelled), pinv; argsort *)
Variable lstsq : nat -> mat -> mat -> mat.
Variable eig : nat -> mat -> option (vec * mat).
Variable argsort : vec -> list nat.
Variable pinv : nat -> mat -> mat.

(** 200-215 *)
Definition compute_signal_projection (s : subspace) : option mat :=
  let n := sb_len s in
  let sigma := msub (lstsq n (sb_cov_n s) (sb_cov_sn s)) eye in
  let* ev := eig n sigma in
  let n_pos := length (filter (fun l => if Rlt_dec 0 l then true else false) (fst ev)) in
  let order := rev (argsort (fst ev)) in
  let* q := mapM (fun i => let l := nth i (fst ev) 0 in rdiv l (l + sb_mu s)) (firstn n_pos order) in
  let q1 : mat := fun i j => if Nat.eqb i j then nth i q 0 else 0 in
  let v_t : mat := fun i j => - snd ev j (nth i order 0%nat) in
  Some (mmul n (pinv n v_t) (mmul n q1 v_t)).
(** 162-198.  The result is the buffer current_out. *)
Definition sub_apply (s : subspace) (new : vec) : option (subspace * vec) :=
  if negb (Nat.eqb (length new) (sb_hop s)) then None else
  let frame := sb_prev s ++ new in
  let* s := update_cov_matrices s new in
  let* h := compute_signal_projection s in
  let out := map (fun i => nth i (sb_win s) 0 * bsum (sb_len s) (fun j => h i j * nth j frame 0)) (seq 0 (sb_len s)) in
  let current := map2 Rplus (sb_prev_out s) (firstn (sb_hop s) out) in
  Some ({| sb_len := sb_len s; sb_mu := sb_mu s; sb_hop := sb_hop s; sb_prev := new; sb_prev_out := skipn (sb_hop s) out; sb_out := current; sb_win := sb_win s;
           sb_thresh := sb_thresh s; sb_nsamples := sb_nsamples s; sb_input := sb_input s; sb_skip := sb_skip s; sb_nframes := sb_nframes s; sb_nnoise := sb_nnoise s;
           sb_cov_sn := sb_cov_sn s; sb_hist_sn := sb_hist_sn s; sb_cov_n := sb_cov_n s; sb_hist_n := sb_hist_n s |}, current).
(** A client: successive calls, each result copied at once. *)
Fixpoint sub_run (s : subspace) (blocks : list vec) : option (subspace * list vec) :=
  match blocks with
  | [] => Some (s, [])
  | b :: blocks => let* r := sub_apply s b in let* q := sub_run (fst r) blocks in Some (fst q, snd r :: snd q)
  end.
(** A client that keeps the returned arrays and reads them after the last call: each of them is the
    buffer current_out of the object. *)
Definition sub_kept (s : subspace) (blocks : list vec) : option (list vec) :=
  let* q := sub_run s blocks in Some (map (fun _ => sb_out (fst q)) blocks).
(** 263-314; a hop of zero loops forever *)
Definition apply_subspace (x : vec) (frame_len : nat) (mu : R) (lookback skip : nat) (thresh : R) : option vec :=
  let* s := subspace_new frame_len mu lookback skip thresh in
  let hop := (frame_len / 2)%nat in
  if Nat.eqb hop 0 then None else
  let k := (length x / hop)%nat in
  let* q := sub_run s (map (fun j => slice (j * hop) hop x) (seq 0 k)) in
  Some (concat (snd q) ++ repeat 0 (length x - k * hop)).
End Oracles.
