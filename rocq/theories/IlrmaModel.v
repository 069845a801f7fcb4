(** /repo/pyroomacoustics/bss/ilrma.py: ilrma 32-191.  Exact real and complex arithmetic;
    arrays are functions of their indices.  The callback (122-128) is taken to have no effect;
    [None] is an exception or a division by zero (numpy would continue with infinities).
    [solve n A b] stands for numpy.linalg.solve, see AuxivaModel. *)
From Coq Require Import List ZArith Lia Reals Lra Bool.
From Verif Require Import Base Vec Sum Cpx BackModel AuxivaModel.
Import ListNotations.
Local Open Scope R_scope.

Section Ilrma.
Variable solve : nat -> mat -> (nat -> C) -> option (nat -> C).
(** numbers of frequencies, channels, sources, frames and components *)
Variables (F M S N K : nat) (eps : R).
(** [X f c t]: the input after ilrma.py:107 *)
Variable X : nat -> nat -> nat -> C.

(** the arrays: demixing matrices [f s c], bases [s f k], activations [s t k], model spectra
    and their inverses [s f t], powers [s f t] *)
Record state := { sW : nat -> mat; sT : nat -> nat -> nat -> R; sV : nat -> nat -> nat -> R; sR : nat -> nat -> nat -> R; siR : nat -> nat -> nat -> R; sP : nat -> nat -> nat -> R }.

(** T[T < eps] = eps *)
Definition floor_eps (a : R) : R := if Rlt_dec a eps then eps else a.
(** ilrma.py:141-143 and 151-153 *)
Definition update_R (s : nat) (st : state) : state :=
  let R' := fun s' f t => floor_eps (if Nat.eqb s' s then bsum K (fun k => sT st s f k * sV st s t k) else sR st s' f t) in
  {| sW := sW st; sT := sT st; sV := sV st; sR := R'; siR := fun s' f t => if Nat.eqb s' s then 1 / R' s f t else siR st s' f t; sP := sP st |}.
(** ilrma.py:135-139 *)
Definition update_T (s : nat) (st : state) : state :=
  let T' := fun s' f k => floor_eps (if Nat.eqb s' s
    then sT st s f k * sqrt (bsum N (fun t => sP st s f t * siR st s f t ^ 2 * sV st s t k) / bsum N (fun t => siR st s f t * sV st s t k))
    else sT st s' f k) in
  {| sW := sW st; sT := T'; sV := sV st; sR := sR st; siR := siR st; sP := sP st |}.
(** ilrma.py:145-149 *)
Definition update_V (s : nat) (st : state) : state :=
  let V' := fun s' t k => floor_eps (if Nat.eqb s' s
    then sV st s t k * sqrt (bsum F (fun f => sP st s f t * siR st s f t ^ 2 * sT st s f k) / bsum F (fun f => siR st s f t * sT st s f k))
    else sV st s' t k) in
  {| sW := sW st; sT := sT st; sV := V'; sR := sR st; siR := siR st; sP := sP st |}.
(** ilrma.py:158-169: the same row update as auxiva, with weights per frequency *)
Definition update_W (s : nat) (st : state) : option state :=
  let* W' := for_all_f F (fun f => let* row := new_row solve M (sW st f) (weighted N X (siR st s f) f) s in Some (set_row (sW st f) s row)) in
  Some {| sW := W'; sT := sT st; sV := sV st; sR := sR st; siR := siR st; sP := sP st |}.
(** ilrma.py:131-169 *)
Definition update_one (st : state) (s : nat) : option state :=
  update_W s (update_R s (update_V s (update_R s (update_T s st)))).
(** ilrma.py:112-113 *)
Definition demixed (W : nat -> mat) (f s t : nat) : C := csum M (fun c => (W f s c * X f c t)%C).
(** ilrma.py:171-172 *)
Definition powers (st : state) : state :=
  {| sW := sW st; sT := sT st; sV := sV st; sR := sR st; siR := siR st; sP := fun s f t => Cabs (demixed (sW st) f s t) ^ 2 |}.
(** ilrma.py:174-180, one source; the mean is over all frequencies and frames *)
Definition rescale (st : state) (s : nat) : option state :=
  let mean := bsum F (fun f => bsum N (fun t => sP st s f t)) / (INR F * INR N) in
  if Rlt_dec 0 mean then
    let l := 1 / sqrt mean in
    Some {| sW := fun f i c => if Nat.eqb c s then Cscal l (sW st f i c) else sW st f i c;
            sT := fun s' f k => if Nat.eqb s' s then l ^ 2 * sT st s' f k else sT st s' f k;
            sV := sV st;
            sR := fun s' f t => if Nat.eqb s' s then l ^ 2 * sR st s' f t else sR st s' f t;
            siR := siR st;
            sP := fun s' f t => if Nat.eqb s' s then l ^ 2 * sP st s' f t else sP st s' f t |}
  else None.
(** ilrma.py:121-180, one iteration; with the demixed signals of line 171 *)
Definition iteration (st : state) : option ((nat -> nat -> nat -> C) * state) :=
  let* st1 := foldM update_one (seq 0 S) st in
  let* st2 := foldM rescale (seq 0 S) (powers st1) in
  Some (demixed (sW st1), st2).
Fixpoint iterations (n : nat) (Y : nat -> nat -> nat -> C) (st : state) : option ((nat -> nat -> nat -> C) * state) :=
  match n with
  | O => Some (Y, st)
  | Datatypes.S m => let* r := iteration st in iterations m (fst r) (snd r)
  end.
(** ilrma.py:86-119; [T0], [V0]: the random values *)
Definition start (W0 : option (nat -> mat)) (T0 V0 : nat -> nat -> nat -> R) : state :=
  let W := match W0 with Some w => w | None => fun _ s c => if Nat.eqb s c then C1 else C0 end in
  let R0 := fun s f t => bsum K (fun k => T0 s f k * V0 s t k) in
  powers {| sW := W; sT := T0; sV := V0; sR := R0; siR := fun s f t => 1 / R0 s f t; sP := fun _ _ _ => 0 |}.
(** ilrma.py:32-191: separated signals [t f s] and filters *)
Definition ilrma (n_iter : nat) (W0 : option (nat -> mat)) (T0 V0 : nat -> nat -> nat -> R) (proj_back : bool) : option ((nat -> nat -> nat -> C) * (nat -> mat)) :=
  if Nat.eqb M S then
    let st := start W0 T0 V0 in
    let* r := iterations n_iter (demixed (sW st)) st in
    let Y : nat -> nat -> nat -> C := fun t f s => fst r f s t in
    let Y : nat -> nat -> nat -> C := if proj_back
      then fun t f s => (Y t f s * Conj (projection_back N Y (fun t f => X f 0%nat t) None None f s))%C
      else Y in
    Some (Y, sW (snd r))
  else None.
End Ilrma.
