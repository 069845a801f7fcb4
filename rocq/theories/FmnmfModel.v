(** /repo/pyroomacoustics/bss/fastmnmf.py: fastmnmf 30-225 and
    /repo/pyroomacoustics/bss/fastmnmf2.py: fastmnmf2 27-197.  Exact arithmetic; arrays are
    functions of their indices.  [None] is an exception or a division by zero (whose NaN or
    inf spreads to the result).  The callback is taken to have no effect.  [solve], [inv] and
    [pinv] stand for numpy.linalg.solve, inv and pinv; the first two raise ([None]) for
    singular matrices.  The draws of numpy.random.rand are the arguments [W0], [H0]. *)
From Coq Require Import List ZArith Lia Reals Lra Bool.
From Verif Require Import Base Vec Sum Cpx BackModel AuxivaModel.
Import ListNotations.
Local Open Scope R_scope.

Inductive mic := All | Mic (i : Z) | OtherMic.
(** fastmnmf.py:124-136: indices in the order of the returned arrays *)
Inductive images := ImagesAll (y : nat -> nat -> nat -> nat -> C) (** mic, frame, frequency, source *)
                  | ImagesOne (y : nat -> nat -> nat -> C). (** frame, frequency, source *)

(** Q_FMM, G_NFM, W_NFK, H_NKT, lambda_NFT, Y_FTM; fastmnmf2 has the same G for all
    frequencies.  Qx_power_FTM is recomputed whenever Q changes and is a function of it. *)
Record state := { sQ : nat -> mat; sG : nat -> nat -> nat -> R; sW : nat -> nat -> nat -> R; sH : nat -> nat -> nat -> R;
                  sL : nat -> nat -> nat -> R; sY : nat -> nat -> nat -> R }.

(** No divisor is zero. *)
Definition nzb (r : R) : bool := if Req_EM_T r 0 then false else true.
Definition all_nz (n : nat) (a : nat -> R) : bool := forallb (fun i => nzb (a i)) (seq 0 n).
Definition all_nz2 (n m : nat) (a : nat -> nat -> R) : bool := forallb (fun i => all_nz m (a i)) (seq 0 n).
Definition all_nz3 (n m l : nat) (a : nat -> nat -> nat -> R) : bool := forallb (fun i => all_nz2 m l (a i)) (seq 0 n).
Definition guard {A} (b : bool) (a : option A) : option A := if b then a else None.

Section Fmnmf.
Variable solve : nat -> mat -> (nat -> C) -> option (nat -> C).
Variable inv : nat -> mat -> option mat.
Variable pinv : nat -> mat -> mat.
(** numbers of frequencies, channels, sources, components and frames *)
Variables (F M N K T : nat) (eps g_eps : R).
(** [X f t m]: X_FTM *)
Variable X : nat -> nat -> nat -> C.

(** fastmnmf.py:106, 110 *)
Definition proj (Q : nat -> mat) (f t i : nat) : C := csum M (fun j => (Q f i j * X f t j)%C).
Definition power (Q : nat -> mat) (f t i : nat) : R := Cabs2 (proj Q f t i).
(** fastmnmf.py:105 and fastmnmf2.py:107, [e] is what is added *)
Definition lambda (e : R) (W H : nat -> nat -> nat -> R) (n f t : nat) : R := bsum K (fun k => W n f k * H n k t) + e.
(** fastmnmf.py:107 and fastmnmf2.py:109, 154 *)
Definition model (e : R) (L G : nat -> nat -> nat -> R) (f t m : nat) : R := bsum N (fun n => L n f t * G n f m) + e.

(** fastmnmf.py:95-97 *)
Definition G_init (n f m : nat) : R := if Nat.eqb n (m mod N) then 1 else g_eps.
(** fastmnmf.py:90-93, 99-101: every row divided by its norm *)
Definition Q_init (Q : option (nat -> mat)) : option (nat -> mat) :=
  let Q := match Q with Some q => q | None => fun _ => unit_vec end in
  let mu f m := bsum M (fun j => fst (Q f m j * Conj (Q f m j))%C) in
  guard (all_nz2 F M mu) (Some (fun f m j => Cscal (/ sqrt (mu f m)) (Q f m j))).

(** fastmnmf.py:122-136 and fastmnmf2.py:114-128 *)
Definition images_of (st : state) (Qi : nat -> mat) (mi : mic) : option images :=
  let Y n f t j := sL st n f t * sG st n f j in
  let tot f t j := bsum N (fun n => Y n f t j) in
  let img f i t n := csum M (fun j => (Qi f i j * Cscal (/ tot f t j) (proj (sQ st) f t j) * RtoC (Y n f t j))%C) in
  guard (all_nz3 F T M tot)
  match mi with
  | All => Some (ImagesAll (fun i t f n => img f i t n))
  | Mic z => let i := if (z <? 0)%Z then (z + Z.of_nat M)%Z else z in
      if ((0 <=? i) && (i <? Z.of_nat M))%Z then Some (ImagesOne (fun t f n => img f (Z.to_nat i) t n)) else None
  | OtherMic => None
  end.
(** one matrix per frequency; raises if one of the calls does *)
Definition invs (Q : nat -> mat) : option (nat -> mat) := for_all_f F (fun f => inv M (Q f)).

(** fastmnmf.py:173-175: mean over frames of x x^H / Y_m *)
Definition cov (Y : nat -> nat -> nat -> R) (m f : nat) : mat :=
  fun i j => Cscal (/ INR T) (csum T (fun t => Cscal (1 / Y f t m) (X f t i * Conj (X f t j))%C)).
Definition QV (Q V : mat) : mat := fun i j => csum M (fun k => (Q i k * V k j)%C).
(** fastmnmf.py:196-204: the new row from the solution [x]; [e] is added to the divisor *)
Definition Q_row (e : R) (V : mat) (x : nat -> C) : option (nat -> C) :=
  let d := (csqrt (csum M (fun i => csum M (fun j => (Conj (x i) * V i j * x j)%C))) + RtoC e)%C in
  guard (nzb (Cabs2 d)) (Some (fun j => Conj (Cdiv (x j) d))).

(** * fastmnmf *)
(** fastmnmf.py:109-136; also tells if the warning was raised *)
Definition separate1 (st : state) (mi : mic) : option (images * bool) :=
  match invs (sQ st) with
  | Some Qi => let* y := images_of st Qi mi in Some (y, false)
  | None => let* y := images_of st (fun f => pinv M (sQ st f)) mi in Some (y, true)
  end.

(** fastmnmf.py:152-153, 161-162, 221-223 *)
Definition refresh1 (st : state) : state :=
  let L := lambda eps (sW st) (sH st) in
  {| sQ := sQ st; sG := sG st; sW := sW st; sH := sH st; sL := L; sY := model 0 L (sG st) |}.
(** fastmnmf.py:144-145, 154-155: tmp1_NFT and tmp2_NFT, from the state [st] *)
Definition tmp1 (st : state) (n f t : nat) : R := bsum M (fun m => sG st n f m * (power (sQ st) f t m / sY st f t m ^ 2)).
Definition tmp2 (st : state) (n f t : nat) : R := bsum M (fun m => sG st n f m * (1 / sY st f t m)).
(** fastmnmf.py:147-149; [t1], [t2]: the arrays above *)
Definition step_W (e : R) (t1 t2 : nat -> nat -> nat -> R) (st : state) : option state :=
  let num n f k := bsum T (fun t => sH st n k t * t1 n f t) in
  let den n f k := bsum T (fun t => sH st n k t * t2 n f t) + e in
  guard (all_nz3 N F K den)
  (Some {| sQ := sQ st; sG := sG st; sW := fun n f k => sW st n f k * sqrt (num n f k / den n f k); sH := sH st; sL := sL st; sY := sY st |}).
(** fastmnmf.py:157-159 *)
Definition step_H (e : R) (t1 t2 : nat -> nat -> nat -> R) (st : state) : option state :=
  let num n k t := bsum F (fun f => sW st n f k * t1 n f t) in
  let den n k t := bsum F (fun f => sW st n f k * t2 n f t) + e in
  guard (all_nz3 N K T den)
  (Some {| sQ := sQ st; sG := sG st; sW := sW st; sH := fun n k t => sH st n k t * sqrt (num n k t / den n k t); sL := sL st; sY := sY st |}).
(** fastmnmf.py:144-162.  [accelerate]: both updates use the same arrays *)
Definition update_WH1 (accelerate : bool) (st : state) : option state :=
  guard (all_nz3 F T M (sY st)) (
  let* st1 := step_W eps (tmp1 st) (tmp2 st) st in
  let st2 := if accelerate then st1 else refresh1 st1 in
  guard (all_nz3 F T M (sY st2)) (
  let src := if accelerate then st else st2 in
  let* st3 := step_H eps (tmp1 src) (tmp2 src) st2 in
  Some (refresh1 st3))).
(** fastmnmf.py:165-168 *)
Definition update_G1 (st : state) : option state :=
  guard (all_nz3 F T M (sY st)) (
  let num n f m := bsum T (fun t => sL st n f t * (power (sQ st) f t m / sY st f t m ^ 2)) in
  let den n f m := bsum T (fun t => sL st n f t * (1 / sY st f t m)) + eps in
  guard (all_nz3 N F M den) (
  let G n f m := sG st n f m * sqrt (num n f m / den n f m) in
  Some {| sQ := sQ st; sG := G; sW := sW st; sH := sH st; sL := sL st; sY := model 0 (sL st) G |})).
(** fastmnmf.py:172-205, one [m]; also tells if the warning was raised *)
Definition update_Q1 (st : state * bool) (m : nat) : option (state * bool) :=
  let (st, warned) := st in
  guard (all_nz2 F T (fun f t => sY st f t m)) (
  let sol := for_all_f F (fun f => let* x := solve M (QV (sQ st f) (cov (sY st) m f)) (unit_vec m) in Some (fun (_ i : nat) => x i)) in
  let x := match sol with
           | Some x => fun f => x f 0%nat
           | None => fun f i => csum M (fun k => (pinv M (QV (sQ st f) (cov (sY st) m f)) i k * unit_vec m k)%C)
           end in
  let* Q := for_all_f F (fun f => let* row := Q_row eps (cov (sY st) m f) (x f) in Some (set_row (sQ st f) m row)) in
  Some ({| sQ := Q; sG := sG st; sW := sW st; sH := sH st; sL := sL st; sY := sY st |},
        match sol with Some _ => warned | None => true end)).
(** fastmnmf.py:209-223 *)
Definition phi (Q : nat -> mat) (f : nat) : R := bsum M (fun i => bsum M (fun j => fst (Q f i j * Conj (Q f i j))%C)) / INR M.
Definition normalise1 (st : state) : option state :=
  let ph := phi (sQ st) in
  guard (all_nz F ph) (
  let Q f i j := Cscal (/ sqrt (ph f)) (sQ st f i j) in
  let G n f m := sG st n f m / ph f in
  let mu n f := bsum M (fun m => G n f m) in
  guard (all_nz2 N F mu) (
  let G' n f m := G n f m / mu n f in
  let W n f k := sW st n f k * mu n f in
  let nu n k := bsum F (fun f => W n f k) in
  guard (all_nz2 N K nu) (
  Some (refresh1 {| sQ := Q; sG := G'; sW := fun n f k => W n f k / nu n k; sH := fun n k t => sH st n k t * nu n k; sL := sL st; sY := sY st |})))).
(** fastmnmf.py:139-223: one iteration; interval_update_Q is 1, interval_normalize is 10 *)
Definition epoch1 (accelerate : bool) (st : state * bool) (n : nat) : option (state * bool) :=
  let* st1 := update_WH1 accelerate (fst st) in
  let* st2 := update_G1 st1 in
  let* st3 := foldM update_Q1 (seq 0 M) (st2, snd st) in
  if Nat.eqb (n mod 10) 0 then let* st4 := normalise1 (fst st3) in Some (st4, snd st3) else Some st3.
(** fastmnmf.py:84-107 *)
Definition init1 (Q0 : option (nat -> mat)) (W0 H0 : nat -> nat -> nat -> R) : option state :=
  let* Q := Q_init Q0 in
  Some (refresh1 {| sQ := Q; sG := G_init; sW := W0; sH := H0; sL := fun _ _ _ => 0; sY := fun _ _ _ => 0 |}).
Definition epochs1 (accelerate : bool) (n_iter : nat) (st : state) : option (state * bool) := foldM (epoch1 accelerate) (seq 0 n_iter) (st, false).
(** The whole call: the images, whether a warning was raised, and the contents of the
    caller's array [W0] afterwards: Q is that array (fastmnmf.py:91), every update is in place. *)
Definition fastmnmf (accelerate : bool) (n_iter : nat) (Q0 : option (nat -> mat)) (W0 H0 : nat -> nat -> nat -> R) (mi : mic) :
  option (images * bool * option (nat -> mat)) :=
  let* st0 := init1 Q0 W0 H0 in
  let* st := epochs1 accelerate n_iter st0 in
  let* y := separate1 (fst st) mi in
  Some (fst y, snd st || snd y, match Q0 with Some _ => Some (sQ (fst st)) | None => None end).

(** * fastmnmf2 *)
(** fastmnmf2.py:111-128 *)
Definition separate2 (st : state) (mi : mic) : option images := let* Qi := invs (sQ st) in images_of st Qi mi.
(** fastmnmf2.py:153-154, 193-195 *)
Definition refresh2 (st : state) : state :=
  let L := lambda eps (sW st) (sH st) in
  {| sQ := sQ st; sG := sG st; sW := sW st; sH := sH st; sL := L; sY := model eps L (sG st) |}.
(** fastmnmf2.py:136-154.  Without [accelerate] the arrays are computed again, before lambda
    and Y *)
Definition update_WH2 (accelerate : bool) (st : state) : option state :=
  guard (all_nz3 F T M (sY st)) (
  let* st1 := step_W 0 (tmp1 st) (tmp2 st) st in
  let t1 := if accelerate then tmp1 st else tmp1 st1 in
  let t2 := if accelerate then tmp2 st else tmp2 st1 in
  let st2 := if accelerate then st1 else refresh2 st1 in
  let* st3 := step_H 0 t1 t2 st2 in
  Some (refresh2 st3)).
(** fastmnmf2.py:157-160 *)
Definition update_G2 (st : state) : option state :=
  guard (all_nz3 F T M (sY st)) (
  let num n m := bsum F (fun f => bsum T (fun t => sL st n f t * (power (sQ st) f t m / sY st f t m ^ 2))) in
  let den n m := bsum F (fun f => bsum T (fun t => sL st n f t * (1 / sY st f t m))) in
  guard (all_nz2 N M den) (
  let G n f m := sG st n f m * sqrt (num n m / den n m) in
  Some {| sQ := sQ st; sG := G; sW := sW st; sH := sH st; sL := sL st; sY := model eps (sL st) G |})).
(** fastmnmf2.py:164-177 *)
Definition update_Q2 (st : state) (m : nat) : option state :=
  guard (all_nz2 F T (fun f t => sY st f t m)) (
  let* Q := for_all_f F (fun f =>
    let V := cov (sY st) m f in
    let* x := solve M (QV (sQ st f) V) (unit_vec m) in
    let* row := Q_row 0 V x in
    Some (set_row (sQ st f) m row)) in
  Some {| sQ := Q; sG := sG st; sW := sW st; sH := sH st; sL := sL st; sY := sY st |}).
(** fastmnmf2.py:180-195; g_NM is row 0 of [sG] *)
Definition normalise2 (st : state) : option state :=
  let ph := phi (sQ st) in
  guard (all_nz F ph) (
  let Q f i j := Cscal (/ sqrt (ph f)) (sQ st f i j) in
  let mu n := bsum M (fun m => sG st n 0%nat m) in
  guard (all_nz N mu) (
  let G n f m := sG st n f m / mu n in
  let W n f k := sW st n f k / ph f * mu n in
  let nu n k := bsum F (fun f => W n f k) in
  guard (all_nz2 N K nu) (
  Some (refresh2 {| sQ := Q; sG := G; sW := fun n f k => W n f k / nu n k; sH := fun n k t => sH st n k t * nu n k; sL := sL st; sY := sY st |})))).
(** fastmnmf2.py:131-195 *)
Definition epoch2 (accelerate : bool) (st : state) (n : nat) : option state :=
  let* st1 := update_WH2 accelerate st in
  let* st2 := update_G2 st1 in
  let* st3 := foldM update_Q2 (seq 0 M) st2 in
  if Nat.eqb (n mod 10) 0 then normalise2 st3 else Some st3.
(** fastmnmf2.py:86-109 *)
Definition init2 (Q0 : option (nat -> mat)) (W0 H0 : nat -> nat -> nat -> R) : option state :=
  let* Q := Q_init Q0 in
  let L := lambda 0 W0 H0 in
  Some {| sQ := Q; sG := G_init; sW := W0; sH := H0; sL := L; sY := model 0 L G_init |}.
Definition epochs2 (accelerate : bool) (n_iter : nat) (st : state) : option state := foldM (epoch2 accelerate) (seq 0 n_iter) st.
Definition fastmnmf2 (accelerate : bool) (n_iter : nat) (Q0 : option (nat -> mat)) (W0 H0 : nat -> nat -> nat -> R) (mi : mic) :
  option (images * option (nat -> mat)) :=
  let* st0 := init2 Q0 W0 H0 in
  let* st := epochs2 accelerate n_iter st0 in
  let* y := separate2 st mi in
  Some (y, match Q0 with Some _ => Some (sQ st) | None => None end).
End Fmnmf.
