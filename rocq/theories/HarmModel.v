(** /repo/pyroomacoustics/directivities/harmonics.py: get_mn_in_acn_order 57-76, real_sph_harm 79-127,
    RealSphericalHarmonicsDirectivity 130-180; directivities/interp.py: cal_sph_basis 36-76 (the list of orders).

    Exact arithmetic.  scipy.special.sph_harm_y is modelled by its closed form (associated Legendre functions with
    the Condon-Shortley phase, by the formula of Rodrigues).  [None] is an exception. *)
From Coq Require Import Reals List ZArith Lia Lra Bool Factorial.
From Verif Require Import Base Vec Sum Cpx SphereModel.
Import ListNotations.
Local Open Scope R_scope.

(** Polynomials by their coefficients, lowest first *)
Definition peval (p : list R) (x : R) : R := fold_right (fun a s => a + x * s) 0 p.
Fixpoint padd (p q : list R) : list R := match p, q with [], _ => q | _, [] => p | a :: p', b :: q' => (a + b) :: padd p' q' end.
Fixpoint pmul (p q : list R) : list R := match p with [] => [] | a :: p' => padd (map (Rmult a) q) (0 :: pmul p' q) end.
Fixpoint ppow (p : list R) (n : nat) : list R := match n with O => [1] | S m => pmul p (ppow p m) end.
Fixpoint pder (k : nat) (p : list R) : list R := match p with [] => [] | a :: p' => INR k * a :: pder (S k) p' end.
Definition pderiv (p : list R) : list R := pder 1 (tl p).
(** the [k]-th derivative of the Legendre polynomial of degree [n]: d^(n+k)/dx^(n+k) (x^2 - 1)^n / (2^n n!) *)
Definition legendre (n k : nat) (x : R) : R := peval (Nat.iter (n + k) pderiv (ppow [-1; 0; 1] n)) x / (2 ^ n * INR (fact n)).
(** sqrt((2 n + 1) / (4 pi) (n - k)! / (n + k)!) *)
Definition normaliser (n k : nat) : R := sqrt ((2 * INR n + 1) / (4 * PI) * (INR (fact (n - k)) / INR (fact (n + k)))).
(** scipy.special.sph_harm_y(n, m, theta, phi) for |m| <= n *)
Definition sph_harm_y (n : nat) (m : Z) (theta phi : R) : C :=
  let k := Z.abs_nat m in
  let y := Cscal ((-1) ^ k * normaliser n k * (sin theta ^ k * legendre n k (cos theta))) (cis (INR k * phi)) in
  if Z.ltb m 0 then Cscal ((-1) ^ k) (Conj y) else y.

(** 73-76 *)
Definition acn_m (degree : nat) : list Z := flat_map (fun i => map (fun j => (Z.of_nat j - Z.of_nat i)%Z) (seq 0 (2 * i + 1))) (seq 0 (degree + 1)).
Definition acn_n (degree : nat) : list nat := flat_map (fun i => map (fun _ => i) (seq 0 (2 * i + 1))) (seq 0 (degree + 1)).
Definition acn (degree : nat) : list (Z * nat) := combine (acn_m degree) (acn_n degree).
(** interp.py 60-66: the loops over [range(degree + 1)] and [range(-i, i + 1)] *)
Definition basis_orders (degree : nat) : list (Z * nat) :=
  fold_left (fun acc i => fold_left (fun acc order => acc ++ [(order, i)]) (map (fun j => (- Z.of_nat i + Z.of_nat j)%Z) (seq 0 (2 * i + 1))) acc) (seq 0 (degree + 1)) [].
(** 79-127, for one direction *)
Definition real_sph_harm (n m : Z) (theta phi : R) (condon_shortley_phase : bool) : option R :=
  if Z.ltb n 0 then None else if Z.ltb n (Z.abs m) then None else
  let y := sph_harm_y (Z.to_nat n) m theta phi in
  let r := if Z.leb 0 m then fst y else snd y in
  if condon_shortley_phase then Some r else
  let r := if Z.eqb m 0 then r else r * (sqrt 2 * powerRZ (-1) m) in
  Some (if Z.ltb m 0 && Z.eqb (m mod 2) 0 then - r else r).
(** 161-177: [magnitude] and [frequency] are not used *)
Definition harm_response (n m : Z) (cs : bool) (azimuth : list R) (colatitude : option (list R)) (magnitude degrees : bool) : option (list (list R)) :=
  let* col := colatitude in
  if negb (Nat.eqb (length azimuth) (length col)) then None else
  mapM (fun ac => let '(az, co) := ac in
          let '(az, co) := if degrees then (radians az, radians co) else (az, co) in
          let* v := real_sph_harm n m co az cs in Some [v]) (combine azimuth col).
(** 155-159 *)
Definition harm_response_cartesian (n m : Z) (cs : bool) (directions : list vec) (magnitude : bool) : option (list (list R)) :=
  let s := map cart2spher directions in
  harm_response n m cs (map (fun t => fst (fst t)) s) (Some (map (fun t => snd (fst t)) s)) magnitude false.
