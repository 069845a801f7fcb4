(** /repo/pyroomacoustics/room.py:2357-2486 [Room.simulate], from the point where the RIRs
    are available.

    Exact real arithmetic; [fftconvolve] is the full linear convolution.  [None] is a
    raised exception.  Not modelled: [mic_array.record] (which stores the result), the
    keyword arguments of the callback. *)
From Coq Require Import List ZArith Lia Reals Lra Bool.
From Verif Require Import Base Vec RirModel.
Import ListNotations.
Local Open Scope R_scope.

(** soundsource.py: the attributes used by simulate. *)
Record source := { so_signal : option (list R); so_delay : R }.

(** scipy.signal.fftconvolve(h, x), mode 'full'; an empty operand gives an empty result. *)
Definition conv (h x : list R) : list R :=
  match h, x with
  | [], _ => []
  | _, [] => []
  | _, _ => map (fun n => Rsum (map (fun k => if (k <=? n)%nat then nth k h 0 * nth (n - k) x 0 else 0) (seq 0 (length h))))
                (seq 0 (length h + length x - 1))
  end.

(** Python slicing: bound [z] of a slice of an array of length [L]. *)
Definition slice_bound (L : nat) (z : Z) : nat :=
  if (z <? 0)%Z then Z.to_nat (Z.of_nat L + z) else Nat.min (Z.to_nat z) L.
(** [buf[a:b] += x] *)
Definition slice_add (buf : list R) (a b : Z) (x : list R) : option (list R) :=
  let a' := slice_bound (length buf) a in
  let b' := slice_bound (length buf) b in
  let n := (b' - a')%nat in
  if Nat.eqb (length x) n
  then Some (map (fun i => nth i buf 0 + if (a' <=? i)%nat && (i <? b')%nat then nth (i - a') x 0 else 0) (seq 0 (length buf)))
  else if Nat.eqb (length x) 1
  then Some (map (fun i => nth i buf 0 + if (a' <=? i)%nat && (i <? b')%nat then nth 0 x 0 else 0) (seq 0 (length buf)))
  else None.

Definition rir_at (rir : list (list (list R))) (m s : nat) : option (list R) :=
  let* row := nth_error rir m in nth_error row s.

(** room.py:2430-2437: [np.array([...]).max()] *)
Definition maxZ (l : list Z) : option Z := match l with [] => None | _ => Some (Zlist_max l) end.
Definition signal_end (fs : R) (s : source) : option Z :=
  let* x := so_signal s in Some (Z.of_nat (length x) + Zfloor (so_delay s * fs))%Z.
Definition buffer_length (rir : list (list (list R))) (M : nat) (fs : R) (sources : list source) : option Z :=
  let* lens := mapM (fun ij => let* h := rir_at rir (fst ij) (snd ij) in Some (Z.of_nat (length h)))
                    (list_prod (seq 0 M) (seq 0 (length sources))) in
  let* max_len_rir := maxZ lens in
  let* ends := mapM (signal_end fs) sources in
  let* max_sig_len := maxZ ends in
  let L := (max_len_rir + max_sig_len - 1)%Z in
  Some (if (L mod 2 =? 1)%Z then L + 1 else L)%Z.

(** room.py:2445-2454, for one source and one microphone *)
Definition premix_one (rir : list (list (list R))) (fs : R) (L m s : nat) (src : source) : option (list R) :=
  match so_signal src with
  | None => Some (repeat 0 L)
  | Some sig =>
      let d := Zfloor (so_delay src * fs) in
      let* h := rir_at rir m s in
      slice_add (repeat 0 L) d (d + Z.of_nat (length sig) + Z.of_nat (length h) - 1) (conv h sig)
  end.
(** premix_signals[s][m] *)
Definition premix (rir : list (list (list R))) (M : nat) (fs : R) (sources : list source) (L : nat) : option (list (list (list R))) :=
  mapM (fun s => let* src := nth_error sources s in mapM (fun m => premix_one rir fs L m s src) (seq 0 M)) (seq 0 (length sources)).

(** np.std *)
Definition mean (x : list R) : R := Rsum x / INR (length x).
Definition variance (x : list R) : R := mean (map (fun v => (v - mean x) ^ 2) x).
Definition std (x : list R) : R := sqrt (variance x).

Inductive mixing :=
| Plain
| Snr (snr : R) (reference_mic : nat)
| Callback (f : list (list (list R)) -> list (list R)).

(** [np.sum(premix_signals, axis=0)] *)
Definition sum_sources (L M : nat) (pm : list (list (list R))) : list (list R) :=
  map (fun m => map (fun i => Rsum (map (fun p => nth i (nth m p []) 0) pm)) (seq 0 L)) (seq 0 M).
Definition add_noise (gauss : nat -> nat -> R) (sigma2 : option R) (signals : list (list R)) : list (list R) :=
  match sigma2 with
  | None => signals
  | Some v => map (fun m => map (fun i => nth i (nth m signals []) 0 + sqrt v * gauss m i) (seq 0 (length (nth m signals []))))
                  (seq 0 (length signals))
  end.

(** Result: premix signals, microphone signals, new sigma2_awgn.  [gauss m i] are the
    standard normal draws. *)
Definition simulate (gauss : nat -> nat -> R) (rir : list (list (list R))) (M : nat) (fs : R) (sources : list source)
    (sigma2 : option R) (how : mixing) : option (list (list (list R)) * list (list R) * option R) :=
  if Nat.eqb (length sources) 0 then None else
  let* LZ := buffer_length rir M fs sources in
  let* L := pos LZ in
  let* pm := premix rir M fs sources L in
  match how with
  | Callback f => Some (pm, f pm, None)
  | Snr snr ref =>
      let* denom := mapM (fun p => let* x := nth_error p ref in Some (std x)) pm in
      let pm' := map (fun pd => map (map (fun v => v / snd pd)) (fst pd)) (combine pm denom) in
      let sigma2' := Some (Rpower 10 (- snr / 10) * INR (length sources)) in
      Some (pm', add_noise gauss sigma2' (sum_sources L M pm'), sigma2')
  | Plain => Some (pm, add_noise gauss sigma2 (sum_sources L M pm), sigma2)
  end.
