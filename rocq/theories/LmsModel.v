(** /repo/pyroomacoustics/adaptive/adaptive_filter.py (10-55) and lms.py (15-121).

    Samples and weights are real numbers.  A division by zero makes the weights NaN for ever
    after (numpy does not raise): here [None]. *)
From Coq Require Import List ZArith Lia Reals Bool.
From Verif Require Import Base Vec BufferModel.
Import ListNotations.
Local Open Scope R_scope.

Notation sample := (R * R)%type (only parsing).

(** adaptive_filter.py:18-42, 44-55 *)
Record nlms := { n_n : nat; n_w : vec; n_x : vec }.
Definition nlms_reset (length : nat) : nlms := {| n_n := 0; n_w := repeat 0 length; n_x := repeat 0 length |}.
(** lms.py:33-49; [None] for a filter of length 0 (IndexError) or a division by zero *)
Definition nlms_update (mu : R) (st : nlms) (s : sample) : option nlms :=
  match n_x st with
  | [] => None
  | _ :: _ =>
      let x := fst s :: removelast (n_x st) in
      let e := snd s - dot x (n_w st) in
      let energy := dot x x in
      if Req_EM_T energy 0 then None else
      Some {| n_n := S (n_n st); n_w := vadd (n_w st) (map (fun xi => mu * e * xi / energy) x); n_x := x |}
  end.
Definition nlms_run (mu : R) (length : nat) (ss : list sample) : option nlms := foldM (nlms_update mu) ss (nlms_reset length).

(** lms.py:65-83 *)
Record block_lms := { k_n : nat; k_w : vec; k_x : vec; k_d : vec }.
Definition block_reset (L len : nat) : block_lms :=
  {| k_n := 0; k_w := repeat 0 len; k_d := repeat 0 L; k_x := repeat 0 (L + len - 1) |}.
(** scipy.linalg.hankel(c, r): entry (i, j) is element i + j of c followed by r without its
    first element. *)
Definition hankel (c r : vec) : list vec :=
  let vals := c ++ tl r in
  map (fun i => map (fun j => nth (i + j) vals 0) (seq 0 (length r))) (seq 0 (length c)).
Definition matvec (X : list vec) (v : vec) : vec := map (fun row => dot row v) X.
(** np.dot(X.T, e) for a matrix with [cols] columns *)
Definition tmatvec (cols : nat) (X : list vec) (e : vec) : vec :=
  map (fun j => Rsum (map (fun re => nth j (fst re) 0 * snd re) (combine X e))) (seq 0 cols).
(** lms.py:85-121 *)
Definition block_update (mu : R) (L len : nat) (normalize : bool) (st : block_lms) (s : sample) : option block_lms :=
  let n := S (k_n st) in
  if Nat.eqb L 0 then None else
  let slot := (L - ((n - 1) mod L) - 1)%nat in
  let* x := store (k_x st) slot (fst s) in
  let* d := store (k_d st) slot (snd s) in
  if negb (Nat.eqb (n mod L) 0) then Some {| k_n := n; k_w := k_w st; k_x := x; k_d := d |} else
  let X := hankel (slice 0 L x) (skipn (L - 1) x) in
  let e := vminus d (matvec X (k_w st)) in
  let norm := map (fun row => vnorm row * vnorm row) X in
  if normalize && existsb (fun q => if Req_EM_T q 0 then true else false) norm then None else
  let X' := if normalize then map (fun rq => map (fun xi => xi / snd rq) (fst rq)) (combine X norm) else X in
  let w := vadd (k_w st) (vscal mu (tmatvec len X' e)) in
  if Nat.eqb len 1 then None (* x[0:] = x[0:0] *) else
  Some {| k_n := n; k_w := w; k_d := d;
          k_x := firstn (length x - (len - 1)) x ++ slice 0 (len - 1) x |}.
Definition block_run (mu : R) (L len : nat) (normalize : bool) (ss : list sample) : option block_lms :=
  foldM (block_update mu L len normalize) ss (block_reset L len).
