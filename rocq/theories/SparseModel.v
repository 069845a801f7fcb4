(** /repo/pyroomacoustics/bss/common.py: sparir 87-212, and /repo/pyroomacoustics/bss/sparseauxiva.py: sparseauxiva 32-189.

    Exact arithmetic; arrays are functions of their indices.  [None] is an exception, or infinities and NaN from a division by
    zero.  The callback is taken to have no effect.  Only the default initialisation of sparir is modelled, and the default
    weights or a single one: an array [gini] and weights of several values make it raise. *)
From Coq Require Import List ZArith Lia Reals Lra Bool.
From Verif Require Import Base Vec Sum Cpx DftModel BackModel AuxivaModel.
Import ListNotations.
Local Open Scope R_scope.

Definition inside (f : nat) (Sel : list nat) : bool := existsb (Nat.eqb f) Sel.
(** the largest of f 0 .. f (n - 1) *)
Definition max_of (n : nat) (f : nat -> R) : R := fold_left Rmax (map f (seq 1 (n - 1))) (f 0%nat).

Section sparir.
(** frequencies, active frequencies, the incomplete transfer function, weights *)
Variables (n : nat) (Sel : list nat) (G : nat -> C) (weights : option R).
Variables (tol alphamax alphamin : R).
(** common.py:148, 157-164: y'y and the thresholds *)
Definition yy : R := Rsum (map (fun f => Cabs2 (G f)) Sel).
Definition tau (i : nat) : R := match weights with None => sqrt (INR n) / yy * exp (11 / 100 * Rpower (INR (i + 1)) (3 / 10)) | Some w => w end.
(** 166-172: np.max(a, 0) is the largest value of the array *)
Definition soft (x T : nat -> R) : option (nat -> R) :=
  if Req_EM_T (bsum n (fun i => Rabs (T i))) 0 then Some x
  else let u := max_of n (fun i => Rabs (x i) - T i) in
       if existsb (fun i => if Req_EM_T (u + T i) 0 then true else false) (seq 0 n) then None
       else Some (fun i => u / (u + T i) * x i).
(** 174-180, 203-205: [r f] is the residual at the frequency f of Sel *)
Definition aux (r : nat -> C) (f : nat) : C := if inside f Sel then r f else C0.
Definition gradq (r : nat -> C) (k : nat) : R := INR n * nth k (irfft n (map (aux r) (seq 0 n))) 0.
(** 181-187, 202-210 *)
Definition sign (x : R) : R := if Rlt_dec 0 x then 1 else if Rlt_dec x 0 then -1 else 0.
Definition crit (first : bool) (g gq : nat -> R) : R :=
  bsum n (fun i => if Req_EM_T (g i) 0 then 0 else (- tau i * sign (g i) - gq i) ^ 2) +
  (if first then 0 else bsum n (fun i => if Req_EM_T (g i) 0 then (if Rlt_dec tol (Rabs (gq i) - tau i) then 1 else 0) else 0)).
(** 200: np.finfo(np.float32).eps *)
Definition eps32 : R := / 8388608.
Definition spectrum (g : nat -> R) (f : nat) : C := dft n (fun j => RtoC (g j)) f.
(** 198-200 *)
Definition next_alpha (dg : nat -> R) : R :=
  let dd := bsum n (fun i => dg i * dg i) in
  let dGd := Rsum (map (fun f => Cabs2 (spectrum dg f)) Sel) in
  Rmin alphamax (Rmax alphamin (dGd / (eps32 + dd))).
(** 189-212, with [left] iterations left *)
Fixpoint loop (left : nat) (first : bool) (g : nat -> R) (r : nat -> C) (alpha : R) : option (nat -> R) :=
  if Rlt_dec tol (crit first g (gradq r)) then
    match left with
    | O => Some g
    | S left' =>
      let* g' := soft (fun i => g i - gradq r i * (1 / alpha)) (fun i => tau i / alpha) in
      let dg := fun i => g' i - g i in
      loop left' false g' (fun f => (r f + spectrum dg f)%C) (next_alpha dg)
    end
  else Some g.
(** 87-212 *)
Definition delta0 (i : nat) : R := if Nat.eqb i 0 then 1 else 0.
Definition sparir (maxiter : nat) (alpha : R) : option (nat -> R) :=
  if Nat.eqb n 0 || negb (forallb (fun f => (f <? n)%nat) Sel) then None else
  if match weights with None => if Req_EM_T yy 0 then true else false | Some _ => false end then None else
  if Nat.eqb maxiter 0 then None else
  loop (maxiter - 1) true delta0 (fun f => (spectrum delta0 f - G f)%C) alpha.
End sparir.

Section sparseauxiva.
(** [solve n A b]: numpy.linalg.solve, see AuxivaModel *)
Variable solve : nat -> mat -> (nat -> C) -> option (nat -> C).
(** frequencies, frames; [X f c t] is X[t, f, c] of the code; two channels *)
Variables (F T : nat) (model : source_model) (eps : R).
Variable X : nat -> nat -> nat -> C.
(** sparseauxiva.py:113-115: the outputs are replaced at the first [k] of the frequencies [Sel]; [W f s c] is the conjugate of
    W[f, c, s] of the code, and [Y f s t] is Y[t, f, s] *)
Definition demixsparse (k : nat) (Sel : list nat) (Y : nat -> nat -> nat -> C) (W : nat -> mat) : nat -> nat -> nat -> C :=
  fun f s t => if inside f (firstn k Sel) then csum 2 (fun c => (X f c t * W f s c)%C) else Y f s t.
(** 147-156, one frequency *)
Definition new_filter (W V : mat) (s : nat) : option (nat -> C) :=
  let WV : mat := fun i d => csum 2 (fun c => (W i c * V c d)%C) in
  let* x := solve 2 WV (unit_vec s) in
  let denom := csum 2 (fun c => (Conj (x c) * csum 2 (fun d => V c d * x d))%C) in
  Some (fun d => Conj (Cdiv (x d) (csqrt denom))).
Definition sparse_source (Y : nat -> nat -> nat -> C) (W : nat -> mat) (s : nat) : option (nat -> mat) :=
  for_all_f F (fun f => let* row := new_filter (W f) (weighted T X (weight F model eps Y s) f) s in Some (set_row (W f) s row)).
(** 118-156 *)
Fixpoint sparse_epochs (n_iter : nat) (k : nat) (Sel : list nat) (Y : nat -> nat -> nat -> C) (W : nat -> mat) : option ((nat -> nat -> nat -> C) * (nat -> mat)) :=
  match n_iter with
  | O => Some (Y, W)
  | S n => let Y' := demixsparse k Sel Y W in let* W' := foldM (sparse_source Y') (seq 0 2) W in sparse_epochs n k Sel Y' W'
  end.
(** 159-168, source [i]: the relative transfer function, zero outside of [Sel] *)
Definition relative (Sel : list nat) (W : nat -> mat) (i : nat) : option (nat -> C) :=
  if existsb (fun f => if C_eq_dec (W f i 1%nat) C0 then true else false) Sel then None
  else Some (fun f => if inside f Sel then Copp (Cdiv (W f i 0%nat) (W f i 1%nat)) else C0).
(** 170-176: [np.fft.fft] of the real response of sparir with its default parameters *)
Definition complete (Sel : list nat) (W : nat -> mat) (i : nat) : option (nat -> C) :=
  let* G := relative Sel W i in
  let* g := sparir F Sel G None 10 100000 (/ 10000000) 50 10 in
  Some (spectrum F g).
(** 32-189: the separated signals [t f s] and the filters, in the layout [f s c] conjugated as above, as is [W0] *)
Definition sparseauxiva (Sel : option (list nat)) (n_iter : nat) (W0 : option (nat -> mat)) (proj_back : bool) : option ((nat -> nat -> nat -> C) * (nat -> mat)) :=
  let Sl := match Sel with None => seq 0 F | Some l => l end in
  let k := length Sl in
  if negb (forallb (fun f => (f <? F)%nat) Sl) then None else
  let W : nat -> mat := fun f s c => if (s <? 2)%nat then match W0 with Some w => w f s c | None => if Nat.eqb s c then C1 else C0 end else C0 in
  let* YW := sparse_epochs n_iter k Sl (fun _ _ _ => C0) W in
  let Y := fst YW in let W := snd YW in
  let* h0 := complete Sl W 0 in
  let* h1 := complete Sl W 1 in
  let W : nat -> mat := fun f s c => if Nat.eqb c 0 then (if Nat.eqb s 0 then h0 f else h1 f) else Copp C1 in
  (* 179: the first [k] frequencies only *)
  let Y := demixsparse k (seq 0 F) Y W in
  let Y : nat -> nat -> nat -> C := fun t f s => Y f s t in
  let Y : nat -> nat -> nat -> C := if proj_back
    then fun t f s => (Y t f s * Conj (projection_back T Y (fun t f => X f 0%nat t) None None f s))%C
    else Y in
  Some (Y, W).
End sparseauxiva.
