(** /repo/pyroomacoustics/phase/gl.py: griffin_lim 103-192, with stft_kwargs left empty and the
    callback taken to have no effect.  Real numbers instead of floats.  [None]: an exception, or
    numbers that are not finite (division by zero).  The STFT object is that of StftModel.  The
    rows of [X] are the frames; numpy's broadcasting of [ini] to the shape of [X] is not modelled
    (it is an exception here). *)
From Coq Require Import List ZArith Lia Reals Bool.
From Verif Require Import Base Vec Sum Cpx DftModel StftModel DenoiseModel BackModel.
Import ListNotations.
Local Open Scope R_scope.

(** The argument ini: None, "random" with the numbers drawn by np.random.rand, or an array. *)
Inductive start := ZeroPhase | RandomPhase (u : list (list R)) | Given (P : list (list C)).
(** gl.py:141-147 *)
Definition unit_modulus (z : C) : option C := let* r := rdiv 1 (Cabs z) in Some (Cscal r z).
Definition initial_phase (X : list (list R)) (ini : start) : option (list (list C)) :=
  match ini with
  | ZeroPhase => Some (map (map (fun _ => C1)) X)
  | RandomPhase u => Some (map (map (fun r => cis (2 * PI * r))) u)
  | Given P => mapM (mapM unit_modulus) P
  end.
(** element by element; both arrays have the same shape *)
Definition entrywise {A B D} (f : A -> B -> option D) (X : list (list A)) (P : list (list B)) : option (list (list D)) :=
  if Nat.eqb (length X) (length P) && forallb (fun r => Nat.eqb (length (fst r)) (length (snd r))) (combine X P)
  then mapM (fun r => mapM (fun p => f (fst p) (snd p)) (combine (fst r) (snd r))) (combine X P) else None.
(** gl.py:172, 186: y[:-shift] = new[shift:] *)
Definition shifted (shift : nat) (new y : vec) : option vec :=
  if Nat.eqb shift 0 then (if (length new <=? 1)%nat then Some y else None) else Some (skipn shift new ++ skipn (length y - shift) y).
(** gl.py:183 *)
Definition enforce (X : list (list R)) (A : list (list C)) : option (list (list C)) :=
  entrywise (fun x a => let* r := rdiv x (Cabs a) in Some (Cscal r a)) X A.
(** gl.py:166-172 *)
Definition gl_init (st : stft) (shift : nat) (X : list (list R)) (P : list (list C)) : option (stft * vec) :=
  let* Y := entrywise (fun x p => Some (Cscal x p)) X P in
  let* r := synthesis st (Some (Many Y)) in
  let* y := snd r in
  let* y := shifted shift y y in
  Some (fst r, y).
(** gl.py:174-186, one iteration *)
Definition gl_step (shift : nat) (X : list (list R)) (s : stft * vec) : option (stft * vec) :=
  let (st, y) := s in
  let* a := analysis st y in
  let* Y := enforce X (snd a) in
  let* r := synthesis (fst a) (Some (Many Y)) in
  let* new := snd r in
  let* y := shifted shift new y in
  Some (fst r, y).
(** gl.py:103-192.  Also returns the caller's array ini after the call: line 147 works in place. *)
Definition griffin_lim (X : list (list R)) (hop : nat) (wa : vec) (fft_size : option nat) (n_iter : nat) (ini : start) : option (vec * start) :=
  let* P := initial_phase X ini in
  let N := match fft_size with Some n => n | None => 2 * (length (hd [] X) - 1) end%nat in
  let* ws := compute_synthesis_window wa hop in
  let* st := stft_new N (Some hop) (Some wa) (Some ws) true None in
  let* s := gl_init st (N - hop) X P in
  let* s := foldM (fun s (_ : nat) => gl_step (N - hop) X s) (seq 0 n_iter) s in
  Some (snd s, match ini with Given _ => Given P | _ => ini end).
