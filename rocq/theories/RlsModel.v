(** /repo/pyroomacoustics/adaptive/rls.py (19-212) and the strided Hankel matrix of util.py
    (144-163). Real numbers instead of float32/float64. *)
From Coq Require Import List ZArith Lia Reals Bool.
From Verif Require Import Base Vec BufferModel.
Import ListNotations.
Local Open Scope R_scope.

(** Matrices are lists of rows, built and read entry by entry; the numpy operations below get
    the shapes as arguments. *)
Definition mk (rows cols : nat) (f : nat -> nat -> R) : list vec := map (fun i => map (f i) (seq 0 cols)) (seq 0 rows).
Definition entry (M : list vec) (i j : nat) : R := nth j (nth i M []) 0.
Definition eye (n : nat) (d : R) : list vec := mk n n (fun i j => if Nat.eqb i j then d else 0).
(** np.dot of a (rows, cols) matrix and a vector *)
Definition mat_vec (rows cols : nat) (M : list vec) (v : vec) : vec :=
  map (fun i => Rsum (map (fun j => entry M i j * nth j v 0) (seq 0 cols))) (seq 0 rows).
Fixpoint push_zeros (k : nat) (b : buffer R) : option (buffer R) :=
  match k with O => Some b | S k => let* b := push 0 0 b in push_zeros k b end.

(** rls.py:37-70.  [None]: 1/lmbd with lmbd = 0, or delta <= 0. *)
Record rls := { r_n : nat; r_w : vec; r_P : list vec; r_x : buffer R }.
Definition rls_init (len : nat) (lmbd delta : R) : option rls :=
  if Req_EM_T lmbd 0 then None else if Rle_dec delta 0 then None else
  let* x := push_zeros (len - 1) (new_buffer 0 (10 * len)) in
  Some {| r_n := 0; r_w := repeat 0 len; r_P := eye len (1 / delta); r_x := x |}.

(** rls.py:72-117; [None]: division by zero or IndexError *)
Definition rls_update (len : nat) (lmbd : R) (st : rls) (s : R * R) : option rls :=
  let lmbd_inv := 1 / lmbd in
  let n := S (r_n st) in
  let* x := push 0 (fst s) (r_x st) in
  let x_vec := top len x in
  let alpha := snd s - dot x_vec (r_w st) in
  let g := mat_vec len len (r_P st) (vscal lmbd_inv x_vec) in
  let denom := 1 + dot x_vec g in
  if Req_EM_T denom 0 then None else
  let g := map (fun q => q / denom) g in
  let w := vadd (r_w st) (vscal alpha g) in
  let xP := mat_vec len len (r_P st) x_vec in  (* np.inner(x_vec, P): last axis of both *)
  let outer_buf := mk len len (fun i j => nth i g 0 * nth j xP 0) in
  let P := mk len len (fun i j => (entry (r_P st) i j - entry outer_buf i j) * lmbd_inv) in
  let* x := if Nat.eqb (n mod (10 * len)) 0 then flush (size x - len + 1) x else Some x in
  Some {| r_n := n; r_w := w; r_P := P; r_x := x |}.
Definition rls_run (len : nat) (lmbd delta : R) (ss : list (R * R)) : option rls :=
  let* st := rls_init len lmbd delta in foldM (rls_update len lmbd) ss st.

(** util.py:144-163: a (rows, cols) Hankel matrix from a vector; ValueError when the sizes do
    not fit *)
Definition hankel_strides (x : vec) (rows cols : nat) : option (list vec) :=
  if Nat.eqb (length x) (rows + cols - 1) then Some (mk rows cols (fun i j => nth (i + j) x 0)) else None.

Definition mat_T (rows cols : nat) (M : list vec) : list vec := mk cols rows (fun i j => entry M j i).
(** np.dot of shapes (rows, inner) and (inner, cols) *)
Definition mat_mul (rows inner cols : nat) (A B : list vec) : list vec :=
  mk rows cols (fun i j => Rsum (map (fun k => entry A i k * entry B k j) (seq 0 inner))).
Definition mat_add (rows cols : nat) (A B : list vec) : list vec := mk rows cols (fun i j => entry A i j + entry B i j).
Definition mat_sub (rows cols : nat) (A B : list vec) : list vec := mk rows cols (fun i j => entry A i j - entry B i j).
Definition mat_scal (rows cols : nat) (k : R) (A : list vec) : list vec := mk rows cols (fun i j => entry A i j * k).
Definition diag (v : vec) : list vec := mk (length v) (length v) (fun i j => if Nat.eqb i j then nth i v 0 else 0).

(** rls.py:120-163 *)
Record block_rls := { q_n : nat; q_w : vec; q_P : list vec; q_x : buffer R; q_d : buffer R }.
Definition block_rls_init (len block : nat) (lmbd delta : R) : option block_rls :=
  if Req_EM_T lmbd 0 then None else if Rle_dec delta 0 then None else
  let* x := push_zeros (len - 1) (new_buffer 0 (len + block - 1)) in
  Some {| q_n := 0; q_w := repeat 0 len; q_P := eye len (1 / delta); q_x := x; q_d := new_buffer 0 block |}.

Section Block.
(** numpy.linalg.solve(A, B), [None] for LinAlgError *)
Variable solve : list vec -> list vec -> option (list vec).
(** rls.py:165-212.  The tables of powers have length 2 * block and are not extended. *)
Definition block_rls_update (len block : nat) (lmbd : R) (st : block_rls) (s : R * R) : option block_rls :=
  let n := S (q_n st) in
  let* x := push 0 (fst s) (q_x st) in
  let* d := push 0 (snd s) (q_d st) in
  if Nat.eqb block 0 then None else
  if negb (Nat.eqb (n mod block) 0) then Some {| q_n := n; q_w := q_w st; q_P := q_P st; q_x := x; q_d := d |} else
  let x_vec := top (block + len - 1) x in
  let d_vec := top block d in
  let* X := hankel_strides x_vec block len in
  let alpha := vminus d_vec (mat_vec block len X (q_w st)) in
  let pi := mat_mul len len block (q_P st) (mat_T block len X) in
  let* pw := powers_get lmbd (PSliceBack block 0) (new_powers lmbd (2 * block)) in
  let* gT := solve (mat_T block block (mat_add block block (diag (snd pw)) (mat_mul block len block X pi))) (mat_T len block pi) in
  let g := mat_T block len gT in
  let w := vadd (q_w st) (mat_vec len block g alpha) in
  let* inv := powers_get (1 / lmbd) (PInt block) (new_powers (1 / lmbd) (2 * block)) in
  let P := mat_scal len len (nth 0 (snd inv) 0) (mat_sub len len (q_P st) (mat_mul len block len g (mat_T len block pi))) in
  let* x := flush block x in
  Some {| q_n := n; q_w := w; q_P := P; q_x := x; q_d := d |}.
Definition block_rls_run (len block : nat) (lmbd delta : R) (ss : list (R * R)) : option block_rls :=
  let* st := block_rls_init len block lmbd delta in foldM (block_rls_update len block lmbd) ss st.
End Block.
