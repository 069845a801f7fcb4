(** /repo/pyroomacoustics/bss/trinicon.py: trinicon 5-183.

    Exact arithmetic.  Arrays are functions of their indices; fftconvolve is the convolution.  [None] is an exception:
    no hop, blocks shorter than the filters, or a chunk shorter than what the output needs.  [delta_max] is taken positive,
    so that there is no division by zero.  Lines 106-109 are never reached, because m * hop never exceeds the length. *)
From Coq Require Import Reals List ZArith Lia Lra Bool.
From Verif Require Import Base Sum.
Import ListNotations.
Local Open Scope R_scope.

(** filters [w p q l], signals [s p n] *)
Definition filt := nat -> nat -> nat -> R.
Definition sigs := nat -> nat -> R.
(** fftconvolve(a, b, mode="valid") with b not longer than a *)
Definition valid (a : nat -> R) (lb : nat) (b : nat -> R) (i : nat) : R := bsum lb (fun l => b l * a (i + (lb - 1 - l))%nat).

Section trinicon.
(** microphones, filter length, blocks, block length, offline iterations *)
Variables (P L K N j_max : nat) (delta_max sigma2_0 mu lambd_a : R).
(** 73-75 *)
Definition initial : filt := fun p q l => if Nat.eqb l (L / 2) then (if Nat.eqb q (if (p <? P / 2)%nat then 0 else 1) then 1 else 0) else 0.

Section chunk.
(** the chunk of the signals, of length K * L + N *)
Variable x : sigs.
(** 120-132: outputs with the current filters *)
Definition y_c (w : filt) (q i : nat) : R := bsum P (fun p => valid (x p) L (w p q) (S i)).
Definition y_block (w : filt) (q i n : nat) : R := y_c w q (i * L + n)%nat.
(** 135 *)
Definition sigma2 (w : filt) (q i : nat) : R := bsum N (fun n => y_block w q i n * y_block w q i n).
(** 139-147: fftconvolve(y1, y0[::-1], mode="full")[N - L : N + L - 1] and its reverse *)
Definition full (a b : nat -> R) (k : nat) : R := bsum N (fun n => if (n <=? k)%nat && (k - n <? N)%nat then a n * b (k - n)%nat else 0).
Definition r_cross (w : filt) (q i k : nat) : R :=
  let r := full (y_block w 1 i) (fun n => y_block w 0 i (N - 1 - n)%nat) in
  let r0 := fun k => r (N - L + k)%nat in
  if Nat.eqb q 0 then r0 k else r0 (2 * L - 1 - 1 - k)%nat.
(** 150 *)
Definition delta (w : filt) (q i : nat) : R := delta_max * exp (- (sigma2 w q i / sigma2_0)).
(** 153-165 *)
Definition delta_w (w : filt) : filt := fun p q l =>
  bsum K (fun i => valid (fun k => r_cross w q i k / (sigma2 w q i + delta w q i)) L (fun t => w p (1 - q)%nat (L - 1 - t)%nat) (L - 1 - l)%nat) / INR K.
Definition offline (w : filt) : filt := fun p q l => w p q l - mu * delta_w w p q l.
Fixpoint offline_loop (j : nat) (w : filt) : filt := match j with O => w | S j' => offline_loop j' (offline w) end.
End chunk.

(** 101-183 *)
Section online.
Variable hop : nat.
Variable signals : sigs.
(** 105-114 *)
Definition chunk (m : nat) : sigs := fun p i =>
  if (K * L + N <=? m * hop)%nat then signals p (m * hop - (K * L + N) + i)%nat
  else if (i <? K * L + N - m * hop)%nat then 0 else signals p (i - (K * L + N - m * hop))%nat.
Definition online_w (w : filt) (m : nat) : filt := let w_new := offline_loop (chunk m) j_max w in fun p q l => lambd_a * w p q l + (1 - lambd_a) * w_new p q l.
(** 167-175: x[p, -hop - L + 1 :] *)
Definition online_y (y : sigs) (w : filt) (m : nat) : sigs := fun q n =>
  if ((m - 1) * hop <=? n)%nat && (n <? m * hop)%nat
  then y q n + bsum P (fun p => valid (fun k => chunk m p (K * L + N - (hop + L - 1) + k)%nat) L (w p q) (n - (m - 1) * hop)%nat) else y q n.
Fixpoint online (count m : nat) (w : filt) (y : sigs) : sigs * filt :=
  match count with O => (y, w) | S c => let w' := online_w w m in online c (S m) w' (online_y y w' m) end.
End online.

(** 66-183: the outputs [q n], their number of samples and the filters *)
Definition trinicon (alpha_on samples : nat) (signals : sigs) (w0 : option filt) : option (sigs * nat * filt) :=
  let w := match w0 with None => initial | Some w => w end in
  if Nat.eqb alpha_on 0 then None else
  let hop := (K * L / alpha_on)%nat in
  if Nat.eqb hop 0 then None else
  if (N <? L)%nat || (K * L + N <? hop + L - 1)%nat then None else
  (* 92-95: the padding is computed from the number of microphones *)
  let total := if Nat.eqb (samples mod hop) 0 then samples else (samples + (hop - P mod hop))%nat in
  let padded := fun p n => if (n <? samples)%nat then signals p n else 0 in
  let r := online hop padded (total / hop) 1 w (fun _ _ => 0) in
  Some (fst r, total, snd r).
End trinicon.
