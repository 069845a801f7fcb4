(** What building an impulse response from arrivals means, independently of tables,
    blocks, threads and schedules. *)
From Coq Require Import List ZArith Reals Lra Bool.
From Verif Require Import Base Vec WallModel ParModel RirModel.
Import ListNotations.
Local Open Scope R_scope.

(** [f] sampled on the grid of step 1/g and joined by straight lines, at [x]. *)
Definition lerp_grid (g : nat) (f : R -> R) (x : R) : R :=
  let n := Zfloor (x * INR g) in
  f (IZR n / INR g) + (x * INR g - IZR n) * (f (IZR (n + 1) / INR g) - f (IZR n / INR g)).

(** The (symmetric) Hann window of length [fdl] at position [k]. *)
Definition hann_at (fdl : nat) (k : Z) : R := 1/2 - 1/2 * cos (2 * PI * IZR k / INR (fdl - 1)).

(** Sample [i] of the windowed sinc of length [fdl] of an arrival at sample [tau]
    (a real number): the window covers the [fdl] samples centred at floor(tau). *)
Definition pulse (fdl gran : nat) (tau : R) (i : Z) : R :=
  let k := (i - Zfloor tau + Z.of_nat ((fdl - 1) / 2))%Z in
  if (0 <=? k)%Z && (k <? Z.of_nat fdl)%Z then hann_at fdl k * lerp_grid gran sinc (IZR i - tau) else 0.

(** Sum of the pulses of all arrivals at sample [i]. *)
Definition arrivals_sum (fs : Z) (fdl gran : nat) (time alpha : list R) (i : nat) : R :=
  Rsum (map (fun j => nth j alpha 0 * pulse fdl gran (IZR fs * nth j time 0) (Z.of_nat i)) (seq 0 (length time))).

(** Sum of the delayed filters at sample [i]. *)
Definition delayed_sum (irs : list (list R)) (n_taps : nat) (delays : list Z) (i : nat) : R :=
  Rsum (map (fun j => let k := (Z.of_nat i - nth j delays 0)%Z in
     if (0 <=? k)%Z && (k <? Z.of_nat n_taps)%Z then nth (Z.to_nat k) (nth j irs []) 0 else 0) (seq 0 (length irs))).

(** Under every schedule, every access of every task is inside the array: an unfinished
    task can always make its next access. *)
Definition never_out_of_bounds (buf : list R) (ps : list (list act)) : Prop :=
  forall s, reaches buf ps s -> forall t x, nth_error (s_tasks s) t = Some x -> t_todo x <> [] ->
    exists s', pstep s s' /\ (forall u, u <> t -> nth_error (s_tasks s') u = nth_error (s_tasks s) u)
               /\ nth_error (s_tasks s') t <> nth_error (s_tasks s) t.

(** ** Image source impulse response *)
(** Amplitude at a microphone of image [j] in band [b]: spherical spreading, wall
    attenuation, and air absorption when there is any.  A single row of dampings (or a
    single air coefficient) serves for all bands. *)
Definition row {A} (d : A) (l : list A) (b : nat) : A := match l with [x] => x | _ => nth b l d end.
Definition image_amplitude (damping : list (list R)) (air : option (list R)) (b j : nat) (d : R) : R :=
  nth j (row [] damping b) 0 / d * match air with None => 1 | Some a => exp (- (row 0 a b * d) / 2) end.
Definition n_bands_of (damping : list (list R)) (air : option (list R)) : nat :=
  match air with None => length damping | Some a => if Nat.eqb (length damping) 1 then length a else length damping end.
Definition bands_compatible (damping : list (list R)) (air : option (list R)) : Prop :=
  match air with None => True | Some a => length a = length damping \/ length a = 1%nat \/ length damping = 1%nat end.

(** Sample [i] of band [b] of the response: one pulse per visible image, delayed by the
    propagation time plus half a filter length. *)
Definition ism_band (images : list (list R)) (damping : list (list R)) (visible : list bool) (mic : list R)
    (air : option (list R)) (c : R) (fs : Z) (fdl gran b i : nat) : R :=
  Rsum (map (fun j => if nth j visible false then
      let d := vdist (nth j images []) mic in
      image_amplitude damping air b j d * pulse fdl gran (IZR fs * d / c + INR ((fdl - 1) / 2)) (Z.of_nat i) else 0)
    (seq 0 (length images))).

(** ** Fractional delay filters: row [idx] is the windowed sinc delayed by [tim] samples
    relative to its centre. *)
Definition fd_tap (fdl gran : nat) (tim : R) (k : nat) : R :=
  hann_at fdl (Z.of_nat k) * lerp_grid gran sinc (INR k - INR ((fdl - 1) / 2) - tim).
