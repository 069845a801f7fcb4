(* Beamformer: steering vectors, weight and filter designs, conversions and
   processing.  Source: /repo/pyroomacoustics/beamforming.py lines 40-88 and
   562-1480.  Exact complex arithmetic; numpy.linalg.pinv and the Cholesky
   solvers are arguments. *)
From Coq Require Import Reals List ZArith Lia Lra Bool.
From Verif Require Import Base Vec Sum Cpx DftModel SimulateModel ArrayModel.
Import ListNotations.
Local Open Scope C_scope.

(* Complex matrices and column vectors as functions of the indices; the sizes
   are given where they are summed over. *)
Notation cmat := (nat -> nat -> C) (only parsing).
Notation cvec := (nat -> C) (only parsing).
Definition cmv (n : nat) (A : cmat) (v : cvec) : cvec := fun i => csum n (fun j => A i j * v j).
Definition cmm (n : nat) (A B : cmat) : cmat := fun i j => csum n (fun k => A i k * B k j).
(* beamforming.py:44-47  H(A) *)
Definition herm (A : cmat) : cmat := fun i j => Conj (A j i).
(* numpy.dot(H(u), v) *)
Definition cdot (n : nat) (u v : cvec) : C := csum n (fun i => Conj (u i) * v i).
(* beamforming.py:50-57  sumcols *)
Definition sumcols (K : nat) (A : cmat) : cvec := fun i => csum K (fun k => A i k).
Definition Cinv (a : C) : C := Cscal (/ Cabs2 a) (Conj a).

(* numpy.min of the entries (m, k), m < M, k < K; None when there are none. *)
Fixpoint fmin (l : list R) : option R :=
  match l with [] => None | x :: r => Some (match fmin r with None => x | Some y => Rmin x y end) end.
Definition fmax (l : list R) : option R := option_map Ropp (fmin (map Ropp l)).
Definition entries (M K : nat) (D : nat -> nat -> R) : list R :=
  flat_map (fun m => map (D m) (seq 0 K)) (seq 0 M).

Section Array.
Variable c : R.                  (* constants.get("c") *)
Variable Rm : list (list R).     (* microphone positions, the columns of R *)
Variable ctr : list R.           (* self.center *)
Let M := length Rm.

(* beamforming.py:704-727  the delays in metres used by steering_vector_2D_from_point *)
Definition near_distance (X : list (list R)) (m k : nat) : R := vdist (nth m Rm []) (nth k X []).
Definition far_distance (X : list (list R)) : option (nat -> nat -> R) :=
  let p := map (fun x => vminus x ctr) X in
  let nrm := sqrt (Rsum (map vsq p)) in          (* numpy.linalg.norm(p): Frobenius *)
  if Req_EM_T nrm 0 then None
  else let D := fun m k => (- (dot (nth m Rm []) (vscal (/ nrm) (nth k p []))))%R in
       match fmin (entries M (length X) D) with
       | None => None
       | Some mn => Some (fun m k => (D m k - mn)%R)
       end.
(* beamforming.py:688-733  steering_vector_2D_from_point; None when an entry
   is not finite (division by a zero distance) or an exception is raised. *)
Definition phase (f d : R) : C := cis (- (2 * PI * f * d / c))%R.
Definition steering (f : R) (X : list (list R)) (attn ff : bool) : option (nat -> nat -> C) :=
  match (if ff then far_distance X else Some (near_distance X)) with
  | None => None
  | Some D =>
      if attn
      then if existsb (fun d => if Req_EM_T d 0 then true else false) (entries M (length X) D) then None
           else Some (fun m k => Cscal (1 / (4 * PI) / D m k) (phase f (D m k)))
      else Some (fun m k => phase f (D m k))
  end.

(* beamforming.py:752-770  numpy.dot(H(self.weights[:, i]), steering vector) *)
Definition beam_response (w a : nat -> C) : C := cdot M w a.

(* beamforming.py:1054-1070  far_field_weights at frequency f; two dimensions only *)
Definition far_field_proj (phi : R) (m : nat) : R := dot (unit_vec2D phi) (vminus (nth m Rm []) ctr).
Definition far_field_weights (phi f : R) : option (nat -> C) :=
  if forallb (fun p => Nat.eqb (length p) 2) Rm
  then match fmax (map (far_field_proj phi) (seq 0 M)) with
       | None => None
       | Some mx => Some (fun m => cis (2 * PI * f * (far_field_proj phi m - mx) / c)%R)
       end
  else None.

(* beamforming.py:1072-1082  rake_delay_and_sum_weights at frequency f *)
Definition delay_and_sum_weights (f : R) (X : list (list R)) (attn ff : bool) : option (nat -> C) :=
  let* W := steering f X attn ff in
  Some (fun m => Cscal (1 / INR M / INR (length X)) (sumcols (length X) W m)).

(* The matrix R_n + sumcols(A_bad) H(sumcols(A_bad)) of beamforming.py:1102 and
   1144-1146.  Without interferer A_bad is the (1, 0) array and a_bad the (1, 1)
   zero array, broadcast; eye(A_bad.shape[0]) is then eye(1), broadcast too. *)
Definition noise_cov (abad : option (nat -> C)) (Rn : nat -> nat -> C) (rcond : R) : nat -> nat -> C := fun i j =>
  match abad with
  | Some a => a i * Conj (a j) + Rn i j + (if Nat.eqb i j then RtoC rcond else C0)
  | None => C0 + Rn i j + RtoC rcond
  end.
Definition bad_field (f : R) (Xq : option (list (list R))) (attn ff : bool) : option (option (nat -> C)) :=
  match Xq with
  | None => Some None
  | Some Q => let* B := steering f Q attn ff in Some (Some (sumcols (length Q) B))
  end.

Variable pinv : nat -> (nat -> nat -> C) -> nat -> nat -> C.   (* numpy.linalg.pinv of an n x n matrix *)

(* beamforming.py:1113-1150  rake_max_sinr_weights at frequency f; None when the
   denominator is zero. *)
Definition max_sinr_core (a : nat -> C) (K : nat -> nat -> C) : option (nat -> C) :=
  let Kinv := pinv M K in
  let g := cdot M a (cmv M Kinv a) in
  if C_eq_dec g C0 then None else Some (fun i => cmv M Kinv a i * Cinv g).
Definition max_sinr_weights (f : R) (X : list (list R)) (Xq : option (list (list R))) (Rn : nat -> nat -> C) (rcond : R)
    (attn ff : bool) : option (nat -> C) :=
  let* A := steering f X attn ff in
  let* b := bad_field f Xq attn ff in
  max_sinr_core (sumcols (length X) A) (noise_cov b Rn rcond).

(* beamforming.py:1084-1111  rake_one_forcing_weights at frequency f *)
Definition one_forcing_core (K : nat) (A : nat -> nat -> C) (Rnq : nat -> nat -> C) : nat -> C :=
  let Rinv := pinv M Rnq in
  let D := pinv K (cmm M (herm A) (cmm M Rinv A)) in
  sumcols K (cmm K (cmm M Rinv A) D).
Definition one_forcing_weights (f : R) (X : list (list R)) (Xq : option (list (list R))) (Rn : nat -> nat -> C)
    (attn ff : bool) : option (nat -> C) :=
  let* b := bad_field f Xq attn ff in
  let* A := steering f X attn ff in
  Some (one_forcing_core (length X) A (noise_cov b Rn 0)).
End Array.

(* ------------------------------------------------------------------ *)
(* Time-domain designs, beamforming.py:1247-1315 and 1410-1455; Hc is the
   (M Lg) x ncol channel matrix, n = M Lg.  The two Cholesky solves of the
   first are arguments: B solves K B = A and x solves D x = b. *)
Local Open Scope R_scope.
Definition perceptual_cols (ncol tau kappa : nat) : list nat :=
  firstn (tau + 1) (seq 0 ncol) ++ skipn (tau + kappa) (seq 0 ncol).
Definition perceptual_filters (solve : nat -> (nat -> nat -> R) -> (nat -> R) -> nat -> R)
    (n ncol tau kappa : nat) (Hc : nat -> nat -> R) (K : nat -> nat -> R) : option (nat -> R) :=
  let cols := perceptual_cols ncol tau kappa in
  let na := length cols in
  if Nat.leb na tau then None      (* b[tau, 0] = 1 is out of bounds *)
  else
  let A := fun i j => Hc i (nth j cols 0%nat) in
  let B := fun i j => solve n K (fun r => A r j) i in
  let D := fun i j => bsum n (fun r => A r i * B r j) in
  let x := solve na D (kron tau) in
  Some (fun i => bsum na (fun j => B i j * x j)).

(* rake_mvdr_filters: h = H[:, kappa], g = (R_xx + K_nq)^-1 h / <h, g> *)
Definition mvdr_filters (solve : nat -> (nat -> nat -> R) -> (nat -> R) -> nat -> R)
    (n : nat) (h : nat -> R) (K : nat -> nat -> R) : option (nat -> R) :=
  let g := solve n K h in
  let s := ip n h g in
  if Req_EM_T s 0 then None else Some (fun i => g i / s).

(* ------------------------------------------------------------------ *)
(* The Beamformer object, beamforming.py:584-665 and 955-1006: the settings and
   the design currently held.  Weights: one list of N/2+1 coefficients per
   microphone; filters: one list of Lg taps per microphone. *)
Record settings := { b_N : nat; b_Lg : nat; b_hop : nat; b_zpf : nat; b_zpb : nat }.
(* lines 584-607 *)
Definition make_settings (N : nat) (Lg hop : option nat) (zpf zpb : nat) : settings :=
  let N := if Nat.odd N then (N + 1)%nat else N in
  {| b_N := N; b_Lg := match Lg with None => N | Some l => l end;
     b_hop := match hop with None => ((N - zpf - zpb) / 2)%nat | Some h => h end;
     b_zpf := zpf; b_zpb := zpb |}.
(* lines 617-623  __add__: the third and fourth positional arguments of the
   constructor are N and Lg. *)
Definition add_settings (s : settings) : settings := make_settings (b_Lg s) (Some (b_N s)) (Some (b_hop s)) (b_zpf s) (b_zpb s).

Definition mapC (f : C -> C) (l : list C) : list C := map f l.
(* lines 625-646, branch N <= Lg; the least-squares branch N > Lg is not modelled *)
Definition filter_of_weights (N Lg : nat) (w : list C) : list R :=
  let tw := irfft N (map Conj w) in
  (skipn (N / 2) tw ++ firstn (N / 2) tw) ++ repeat 0 (Lg - N).
(* lines 664-676; numpy.fft.rfft(x, n=N) truncates or zero-pads *)
Definition weights_of_filter (N : nat) (g : list R) : list C := map Conj (rfft N g).

Record design := { d_weights : option (list (list C)); d_filters : option (list (list R)) }.
Inductive call := DesignWeights (w : list (list C)) | DesignFilters (g : list (list R)) | ProcessTD | Response.
(* the part of response (736-750) and of process (955-1006, FD=False) deciding
   what is used; the design used is returned *)
Definition use_filters (s : settings) (d : design) : option (design * list (list R)) :=
  match d_filters d, d_weights d with
  | Some g, _ => Some (d, g)
  | None, Some w => let g := map (filter_of_weights (b_N s) (b_Lg s)) w in
                    Some ({| d_weights := Some w; d_filters := Some g |}, g)
  | None, None => None
  end.
Definition use_weights (s : settings) (d : design) : option (design * list (list C)) :=
  match d_weights d, d_filters d with
  | Some w, _ => Some (d, w)
  | None, Some g => let w := map (weights_of_filter (b_N s)) g in
                    Some ({| d_weights := Some w; d_filters := Some g |}, w)
  | None, None => None
  end.
Definition design_step (s : settings) (d : design) (o : call) : design :=
  match o with
  | DesignWeights w => {| d_weights := Some w; d_filters := d_filters d |}
  | DesignFilters g => {| d_weights := d_weights d; d_filters := Some g |}
  | ProcessTD => match use_filters s d with Some (d', _) => d' | None => d end
  | Response => match use_weights s d with Some (d', _) => d' | None => d end
  end.
Definition no_design : design := {| d_weights := None; d_filters := None |}.
Definition design_run (s : settings) (l : list call) : design := fold_left (design_step s) l no_design.

(* lines 998-1004: the sum over the channels of the convolutions; the lengths
   are those of the first channel, numpy raises when another differs. *)
Definition add_same (a b : list R) : option (list R) :=
  if Nat.eqb (length a) (length b) then Some (vadd a b) else None.
Definition process_td (filters signals : list (list R)) : option (list R) :=
  match signals, filters with
  | s0 :: sr, g0 :: gr =>
      if Nat.ltb (length gr) (length sr) then None
      else foldM (fun acc p => add_same acc (conv (fst p) (snd p))) (combine gr sr) (conv g0 s0)
  | _, _ => None
  end.
