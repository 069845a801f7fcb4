(** Coherent signal subspace methods: /repo/pyroomacoustics/doa/cssm.py:84-158 and waves.py:80-153, with
    _compute_spatial_spectrum and _compute_correlation_matrices of music.py:147-167.

    Exact arithmetic.  Signals, mode vectors and covariances as in DoaModel.  Arguments: the peak search of the grid
    ([peaks], grid.find_peaks with k = num_src), numpy.argmax, numpy.linalg.inv ([None]: singular, raises), numpy.linalg.eigh and the
    left singular vectors of numpy.linalg.svd.  A value [None] of a spectrum is infinite; a result [None] is an exception. *)
From Coq Require Import List ZArith Lia Reals Bool.
From Verif Require Import Base Sum Cpx DoaModel.
Import ListNotations.
Local Open Scope R_scope.

Definition cmat : Type := nat -> nat -> C.
Section Cssm.
Variables (M n_snap n_points num_src : nat) (bins : list nat) (mode : nat -> nat -> nat -> C) (X : nat -> nat -> nat -> C).
Variable peaks : list (option R) -> list nat.
Variable argmax : list R -> nat.
Variable inv : cmat -> option cmat.
Variable eigh : cmat -> (nat -> R) * cmat.
Variable svd : nat -> cmat -> cmat.

(** music.py:158-167: by position in the list of bins *)
Definition C_hat (j : nat) : cmat := covariance n_snap X (nth j bins 0%nat).
(** music.py:147-156 *)
Definition spectrum (A : cmat) (k : nat) : list (option R) :=
  map (fun n => let d := Cabs (csum M (fun i => Cmul (Conj (mode k i n)) (csum M (fun j => Cmul (A i j) (mode k j n))))) in if Req_EM_T d 0 then None else Some (/ d)) (seq 0 n_points).
(** cssm.py:101-104: one over the spectrum *)
Definition first_guess (j : nat) : list (option R) := map (fun o => match o with Some p => Some (/ p) | None => Some 0 end) (spectrum (C_hat j) (nth j bins 0%nat)).
(** cssm.py:97-112, waves.py:93-105: the bins with enough peaks, and the peaks *)
Definition kept : list (nat * list nat) :=
  flat_map (fun j => let idx := peaks (first_guess j) in if (length idx <? num_src)%nat then [] else [(nth j bins 0%nat, idx)]) (seq 0 (length bins)).
Definition kept_bins : list nat := map fst kept.
(** cssm.py:118-119; argmax of nothing raises *)
Definition magnitude (k : nat) : R := bsum M (fun m => bsum n_snap (fun s => Cabs (X m k s))).
Definition reference : option nat := match kept_bins with [] => None | _ => nth_error kept_bins (argmax (map magnitude kept_bins)) end.
(** cssm.py:142-155, waves.py:131-142: [A, B], and the focusing matrix; too many peaks give a negative shape *)
Definition with_identity (k : nat) (beta : list nat) : cmat := fun i q => if (q <? length beta)%nat then mode k i (nth q beta 0%nat) else if (i =? q)%nat then C1 else C0.
Definition focusing (k f0 : nat) (beta : list nat) : option cmat :=
  if (M <? length beta)%nat then None else
  let* V := inv (with_identity k beta) in
  Some (fun i j => csum M (fun q => Cmul (with_identity f0 beta i q) (V q j))).
Definition sandwich (T A : cmat) : cmat := fun i l => csum M (fun p => csum M (fun q => Cmul (Cmul (T i p) (A p q)) (Conj (T l q)))).
(** cssm.py:137-158; [C_hat] is still the list for all the bins *)
Definition coherent_sum (f0 : nat) (betas : list (list nat)) : option cmat :=
  let* Ts := mapM (fun j => focusing (nth j kept_bins 0%nat) f0 (nth j betas [])) (seq 0 (length kept_bins)) in
  Some (fun i l => csum (length kept_bins) (fun j => sandwich (nth j Ts (fun _ _ => C0)) (C_hat j) i l)).
(** cssm.py:126-135: one iteration: the values of the grid *)
Definition cssm_values (f0 : nat) (betas : list (list nat)) : option (list (option R)) :=
  let* R := coherent_sum f0 betas in
  let E := snd (eigh R) in
  Some (spectrum (fun i j => csum (n_noise M num_src) (fun q => Cmul (E i q) (Conj (E j q)))) f0).
(** waves.py:143-153; wn[-1] of nothing raises *)
Definition waves_matrix (f0 : nat) (betas : list (list nat)) : option cmat :=
  let* Ts := mapM (fun j => focusing (nth j kept_bins 0%nat) f0 (nth j betas [])) (seq 0 (length kept_bins)) in
  let noise := n_noise M num_src in
  if (noise =? 0)%nat then None else
  Some (fun i c => let j := (c / num_src)%nat in let q := (noise + c mod num_src)%nat in
                   let '(w, E) := eigh (C_hat j) in let wn := w (noise - 1)%nat in
                   Cmul (csum M (fun m => Cmul (nth j Ts (fun _ _ => C0) i m) (E m q))) (RtoC ((w q - wn) / sqrt (w q * wn + 1)))).
(** waves.py:118-128 *)
Definition waves_values (f0 : nat) (betas : list (list nat)) : option (list (option R)) :=
  let* Z := waves_matrix f0 betas in
  let u := svd (length kept_bins * num_src)%nat Z in
  Some (spectrum (fun i j => csum (M - num_src) (fun q => Cmul (u i (num_src + q)%nat) (Conj (u j (num_src + q)%nat)))) f0).
(** cssm.py:122-135, waves.py:112-129 *)
Fixpoint iterate (values : nat -> list (list nat) -> option (list (option R))) (n f0 : nat) (betas : list (list nat)) (last : list (option R)) : option (list (option R)) :=
  match n with
  | O => Some last
  | S n => let* vs := values f0 betas in iterate values n f0 (repeat (peaks vs) (length kept_bins)) vs
  end.
Definition process (values : nat -> list (list nat) -> option (list (option R))) (num_iter : nat) : option (list (option R)) :=
  let* f0 := reference in
  iterate values num_iter f0 (map snd kept) (first_guess (length bins - 1)).
Definition cssm : nat -> option (list (option R)) := process cssm_values.
Definition waves : nat -> option (list (option R)) := process waves_values.
End Cssm.
