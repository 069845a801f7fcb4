(** Covariance estimates of a stream, Wiener-like gains of the subspace method, oracles. *)
From Coq Require Import List ZArith Lia Reals Bool Permutation Sorted.
From Verif Require Import Base Vec Sum StftSpec DenoiseSpec.
Import ListNotations.
Local Open Scope R_scope.

(** The frame of [2 h] samples that starts [2 h] samples before sample [t] of the signal; zeros
    before the signal. *)
Definition past_frame (h : nat) (x : vec) (t : nat) : vec := map (fun j => nth (t + j) (delayed (2 * h) x) 0) (seq 0 (2 * h)).
(** The frames used with block number [u]: every [skip]-th one. *)
Definition block_frames (h skip : nat) (x : vec) (u : nat) : list vec := map (fun k => past_frame h x (u * h + k * skip)) (seq 0 ((h + skip - 1) / skip)).
Definition noise_frames (h skip : nat) (thresh : R) (x : vec) (u : nat) : list vec :=
  filter (fun f => if Rlt_dec (energy f) thresh then true else false) (block_frames h skip x u).
(** Sum of the products of two entries over frames. *)
Definition products (fs : list vec) (p q : nat) : R := bsum (length fs) (fun k => nth p (nth k fs []) 0 * nth q (nth k fs []) 0).

(** Noise covariance estimates [E] after each number of blocks: block [u] contributes the sum [S] of
    the products and the number [c] of its noise frames, or the previous estimate counted once;
    the estimate is the quotient of the sums over the last [L] blocks. *)
Definition noise_estimates (h skip L : nat) (thresh : R) (x : vec) (T : nat) (E S : nat -> nat -> nat -> R) (c : nat -> nat) : Prop :=
  (forall p q, E 0%nat p q = 0) /\
  (forall u, (u < T)%nat -> let fs := noise_frames h skip thresh x u in
     (fs = [] -> c u = 1%nat /\ forall p q, S u p q = E u p q) /\
     (fs <> [] -> c u = length fs /\ forall p q, S u p q = products fs p q)) /\
  (forall t, (t < T)%nat -> forall p q, let total := bsum L (fun l => if (l <=? t)%nat then INR (c (t - l)%nat) else INR (h / skip)) in
     0 < total /\ E (t + 1)%nat p q = bsum L (fun l => if (l <=? t)%nat then S (t - l)%nat p q else 0) / total).

(** Quadratic form of a matrix. *)
Definition quad (n : nat) (A : nat -> nat -> R) (v : nat -> R) : R := bsum n (fun i => bsum n (fun j => v i * A i j * v j)).

(** Gain on an eigenvector. *)
Definition subspace_gain (mu l : R) : R := if Rlt_dec 0 l then l / (l + mu) else 0.

(** What is assumed of the linear algebra. *)
Definition sorts (argsort : vec -> list nat) : Prop :=
  forall l, Permutation (argsort l) (seq 0 (length l)) /\ StronglySorted (fun a b => nth a l 0 <= nth b l 0) (argsort l).
Definition eigenpairs (n : nat) (A : nat -> nat -> R) (l : vec) (V : nat -> nat -> R) : Prop :=
  length l = n /\ forall j, (j < n)%nat -> (exists i, (i < n)%nat /\ V i j <> 0) /\ forall i, (i < n)%nat -> bsum n (fun k => A i k * V k j) = nth j l 0 * V i j.
Definition inverse_of (n : nat) (A B : nat -> nat -> R) : Prop :=
  forall i j, (i < n)%nat -> (j < n)%nat -> bsum n (fun k => A i k * B k j) = (if Nat.eqb i j then 1 else 0) /\ bsum n (fun k => B i k * A k j) = (if Nat.eqb i j then 1 else 0).
Definition regular (n : nat) (A : nat -> nat -> R) : Prop := exists B, inverse_of n A B.
Definition inverts (n : nat) (pinv : (nat -> nat -> R) -> nat -> nat -> R) : Prop := forall A, regular n A -> inverse_of n A (pinv A).

(** Average of the products over the last [L] blocks, as if each had [h / skip] frames. *)
Definition signal_cov (h skip L : nat) (x : vec) (t p q : nat) : R :=
  bsum L (fun l => if (l <=? t)%nat then products (block_frames h skip x (t - l)) p q else 0) / INR (L * (h / skip)).
(** A filter whose transpose multiplies each eigenvector of [A] by its gain. *)
Definition filters (n : nat) (mu : R) (A H : nat -> nat -> R) : Prop :=
  exists l V, eigenpairs n A l V /\
    (regular n V -> forall j k, (j < n)%nat -> (k < n)%nat -> bsum n (fun i => H i k * V i j) = subspace_gain mu (nth j l 0) * V k j).
(** The symmetric Hann window, a matrix applied to a frame, and frame [t] of a signal: [2 h] samples
    from [h] samples before block [t]. *)
Definition sym_hann (M i : nat) : R := / 2 - / 2 * cos (2 * PI * INR i / (INR M - 1)).
Definition applied (n : nat) (H : nat -> nat -> R) (f : nat -> R) (i : nat) : R := bsum n (fun j => H i j * f j).
Definition frame_at (h : nat) (x : vec) (t j : nat) : R := nth (t * h + j) (delayed h x) 0.
