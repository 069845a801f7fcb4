(** Short time Fourier transform, overlap-add, and the partition condition on windows. *)
From Coq Require Import List ZArith Lia Reals.
From Verif Require Import Base Vec Sum Cpx DftModel.
Import ListNotations.
Local Open Scope R_scope.

(** A missing window is rectangular. *)
Definition win (w : option vec) (i : nat) : R := match w with None => 1 | Some w => nth i w 0 end.
Definition fits (N : nat) (w : option vec) : Prop := match w with None => True | Some w => length w = N end.
(** A window of [N] samples inside a transform with [zf] zeros before and [zb] after; a missing
    window stays missing. *)
Definition padded (zf zb : nat) (w : option vec) : option vec := option_map (fun w => repeat 0 zf ++ w ++ repeat 0 zb) w.

(** A frame: zeros, [N] windowed samples of [x] from position [t] on, zeros. *)
Definition frame (N zf zb : nat) (w : option vec) (x : vec) (t : nat) : vec :=
  repeat 0 zf ++ map (fun i => win w i * nth (t + i) x 0) (seq 0 N) ++ repeat 0 zb.
(** The spectra of the frames starting at multiples of [hop]. *)
Definition spectra (N hop zf zb : nat) (w : option vec) (x : vec) (F : nat) : list (list C) :=
  map (fun k => rfft (N + zb + zf) (frame N zf zb w x (k * hop))) (seq 0 F).
(** Streaming starts with [N - hop] zeros. *)
Definition delayed (d : nat) (x : vec) : vec := repeat 0 d ++ x.

(** The windowed inverse transform of a spectrum, and the overlap-add of frames at multiples of
    [hop]. *)
Definition inverse (n : nat) (w : option vec) (X : list C) : vec := map (fun i => win w i * nth i (irfft n X) 0) (seq 0 n).
Definition ola (hop : nat) (fs : list vec) (t : nat) : R :=
  bsum (length fs) (fun k => if (k * hop <=? t)%nat then nth (t - k * hop) (nth k fs []) 0 else 0).

(** The shifted products of the two windows add up to one at every position. *)
Definition partition (N hop : nat) (wa ws : option vec) : Prop :=
  forall i, (i < hop)%nat -> bsum N (fun k => if (i + k * hop <? N)%nat then win wa (i + k * hop) * win ws (i + k * hop) else 0) = 1.
Definition multiples (hop : nat) (bs : list vec) : Prop := Forall (fun b => exists k, length b = (k * hop)%nat) bs.
Definition convolution (h x : vec) (t : nat) : R := bsum (t + 1) (fun i => nth i h 0 * nth (t - i) x 0).

(** Division rounding up. *)
Definition ceil_div (a b : nat) : nat := ((a + b - 1) / b)%nat.
(** Blocks taken by streaming analysis: any, or exactly the announced number of frames. *)
Definition accepts (fx : option nat) (hop : nat) (b : vec) : Prop := match fx with None => True | Some F => (0 < F)%nat /\ length b = (F * hop)%nat end.
(** Frames made of a signal of [len] samples without streaming. *)
Definition batch_frames (N hop len : nat) : nat := if (len <? N)%nat then 1%nat else (ceil_div (len - N) hop + 1)%nat.
