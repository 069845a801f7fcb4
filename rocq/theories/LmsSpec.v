(** What the LMS filters should compute, from the stream of samples (input, reference). *)
From Coq Require Import List ZArith Lia Reals.
From Verif Require Import Base Vec.
Import ListNotations.
Local Open Scope R_scope.

(** The last [len] inputs, newest first, zeros before the beginning.  [h] is the history,
    newest first. *)
Definition window (len : nat) (h : list R) : vec := map (fun i => nth i h 0) (seq 0 len).
Definition newest_first (ss : list (R * R)) : list R := rev (map fst ss).
Definition newest_refs (ss : list (R * R)) : list R := rev (map snd ss).

(** One block: the corrections of the [L] windows of the block are computed with the weights
    [w] before the block and added up.  [ss] is the stream up to the end of the block. *)
Definition correction (len : nat) (normalize : bool) (w : vec) (ss : list (R * R)) (i : nat) : vec :=
  let win := window len (skipn i (newest_first ss)) in
  let e := nth i (newest_refs ss) 0 - dot win w in
  vscal (if normalize then e / vsq win else e) win.
Definition block_step (mu : R) (L len : nat) (normalize : bool) (w : vec) (ss : list (R * R)) : vec :=
  map (fun j => nth j w 0 + mu * Rsum (map (fun i => nth j (correction len normalize w ss i) 0) (seq 0 L))) (seq 0 len).
(** The weights after a stream: one step per complete block. *)
Definition block_weights (mu : R) (L len : nat) (normalize : bool) (ss : list (R * R)) : vec :=
  fold_left (fun w b => block_step mu L len normalize w (firstn (b * L) ss)) (seq 1 (length ss / L)) (repeat 0 len).
