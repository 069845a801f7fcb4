(** What a microphone should record. *)
From Coq Require Import List ZArith Reals Bool.
From Verif Require Import Base RirModel SimulateModel.
Import ListNotations.
Local Open Scope R_scope.

(** A finite signal as a function of time, zero outside. *)
Definition at_time (x : list R) (t : Z) : R := if (t <? 0)%Z then 0 else nth (Z.to_nat t) x 0.
Definition signal_of (s : source) : list R := match so_signal s with Some x => x | None => [] end.
(** Sample [i] of the signal of a source, delayed, through the response [h]. *)
Definition heard (fs : R) (h : list R) (s : source) (i : Z) : R :=
  Rsum (map (fun k => nth k h 0 * at_time (signal_of s) (i - Zfloor (so_delay s * fs) - Z.of_nat k)) (seq 0 (length h))).
Definition response (rir : list (list (list R))) (m s : nat) : list R := nth s (nth m rir []) [].

(** A room that is ready for simulation: at least one source and one microphone, every
    source has a non-empty signal that does not start before time zero, and there is one
    non-empty response per pair. *)
Definition ready (rir : list (list (list R))) (M : nat) (fs : R) (sources : list source) : Prop :=
  sources <> [] /\ (0 < M)%nat /\ 0 <= fs /\ length rir = M /\
  (forall row, In row rir -> length row = length sources /\ forall h, In h row -> h <> []) /\
  (forall s, In s sources -> signal_of s <> [] /\ 0 <= so_delay s).

(** The least even number that is at least [n]. *)
Definition least_even_from (n L : Z) : Prop := Z.even L = true /\ (n <= L)%Z /\ forall k, Z.even k = true -> (n <= k)%Z -> (L <= k)%Z.

Definition is_max (P : Z -> Prop) (n : Z) : Prop := P n /\ forall k, P k -> (k <= n)%Z.
(** The length of the longest response. *)
Definition longest_response (rir : list (list (list R))) (M S : nat) : Z -> Prop :=
  is_max (fun k => exists m s, (m < M)%nat /\ (s < S)%nat /\ k = Z.of_nat (length (response rir m s))).
(** The number of samples after which all sources have fallen silent. *)
Definition latest_end (fs : R) (sources : list source) : Z -> Prop :=
  is_max (fun k => exists s, In s sources /\ k = (Z.of_nat (length (signal_of s)) + Zfloor (so_delay s * fs))%Z).

Definition silent : source := {| so_signal := None; so_delay := 0 |}.
(** Sample [i] of source number [s] at microphone [m]. *)
Definition contribution (rir : list (list (list R))) (fs : R) (sources : list source) (m s i : nat) : R :=
  heard fs (response rir m s) (nth s sources silent) (Z.of_nat i).
Definition total (n : nat) (f : nat -> R) : R := Rsum (map f (seq 0 n)).
Definition sample (x : list (list R)) (m i : nat) : R := nth i (nth m x []) 0.

(** decibels *)
Definition db (power_ratio : R) : R := 10 * (ln power_ratio / ln 10).
Definition population_variance (x : list R) : R :=
  let mu := Rsum x / INR (length x) in Rsum (map (fun v => (v - mu) * (v - mu)) x) / INR (length x).
