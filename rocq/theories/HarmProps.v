(** C134: real spherical harmonics. *)
From Coq Require Import Reals List ZArith Lia Lra Bool Factorial.
From Verif Require Import Base BaseProofs Vec Sum Cpx SphereModel SphereProps HarmModel.
Import ListNotations.
Local Open Scope R_scope.

(** ** The order of the channels *)
Definition level (i : nat) : list (Z * nat) := map (fun j => ((Z.of_nat j - Z.of_nat i)%Z, i)) (seq 0 (2 * i + 1)).
Lemma combine_flat {A B} (f : nat -> list A) (g : nat -> list B) l : (forall i, length (f i) = length (g i)) -> combine (flat_map f l) (flat_map g l) = flat_map (fun i => combine (f i) (g i)) l.
Proof.
  intros H. induction l as [|i l IH]; [reflexivity|]. cbn [flat_map]. rewrite <- IH. clear IH. specialize (H i). revert H. generalize (f i) (g i). intros u. induction u as [|a u IHu]; intros [|b v]; cbn; try discriminate; auto. intros H. f_equal. apply IHu. lia.
Qed.
Lemma acn_levels d : acn d = flat_map level (seq 0 (d + 1)).
Proof.
  unfold acn, acn_m, acn_n. rewrite combine_flat by (intros; now rewrite !map_length). apply flat_map_ext. intros i. unfold level. generalize (seq 0 (2 * i + 1)). intros l. induction l as [|j l IH]; [reflexivity|]. cbn. now rewrite IH.
Qed.
Lemma fold_app {A B} (f : A -> B) l acc : fold_left (fun a o => a ++ [f o]) l acc = acc ++ map f l.
Proof. revert acc. induction l as [|x l IH]; intros acc; cbn; [now rewrite app_nil_r|]. rewrite IH, <- app_assoc. reflexivity. Qed.
Lemma basis_levels d : basis_orders d = flat_map level (seq 0 (d + 1)).
Proof.
  unfold basis_orders. assert (G : forall l acc, fold_left (fun acc i => fold_left (fun acc order => acc ++ [(order, i)]) (map (fun j => (- Z.of_nat i + Z.of_nat j)%Z) (seq 0 (2 * i + 1))) acc) l acc = acc ++ flat_map level l).
  { induction l as [|i l IH]; intros acc; cbn [fold_left flat_map]; [now rewrite app_nil_r|]. rewrite IH, (fold_app (fun o => (o, i))), <- app_assoc. do 2 f_equal. rewrite map_map. unfold level. apply map_ext. intros j. f_equal. lia. }
  rewrite G. reflexivity.
Qed.
Lemma levels_length d : length (flat_map level (seq 0 d)) = (d * d)%nat.
Proof. induction d as [|d IH]; [reflexivity|]. rewrite seq_S, flat_map_app, app_length, IH. cbn [flat_map]. rewrite app_nil_r. unfold level. rewrite map_length, seq_length. cbn [plus]. lia. Qed.
Lemma levels_nth d n (m : Z) : (n < d)%nat -> (Z.abs m <= Z.of_nat n)%Z -> nth_error (flat_map level (seq 0 d)) (Z.to_nat (Z.of_nat (n * n + n) + m)) = Some (m, n).
Proof.
  intros Hn Hm. induction d as [|d IH]; [lia|]. rewrite seq_S, flat_map_app. cbn [flat_map plus]. rewrite app_nil_r. destruct (Nat.eq_dec n d) as [->|].
  - rewrite nth_error_app2 by (rewrite levels_length; lia). rewrite levels_length. unfold level. set (j := (Z.to_nat (Z.of_nat (d * d + d) + m) - d * d)%nat). assert (Hj : (j < 2 * d + 1)%nat) by (unfold j; lia).
    rewrite (map_nth_error _ j (seq 0 (2 * d + 1)) (d := j)); [do 2 f_equal; unfold j; lia|]. rewrite (nth_error_nth' _ 0%nat) by (now rewrite seq_length). now rewrite seq_nth.
  - rewrite nth_error_app1; [apply IH; lia|]. rewrite levels_length. nia.
Qed.
(** Order [m] of degree [n] is channel n^2 + n + m, and there are no other channels; the basis of the interpolation uses
    the same order. *)
Theorem C134_order : forall degree, basis_orders degree = acn degree /\ length (acn degree) = ((degree + 1) * (degree + 1))%nat /\
  (forall n m, (n <= degree)%nat -> (Z.abs m <= Z.of_nat n)%Z -> nth_error (acn degree) (Z.to_nat (Z.of_nat (n * n + n) + m)) = Some (m, n)) /\
  (forall c, (c < length (acn degree))%nat -> exists n m, (n <= degree)%nat /\ (Z.abs m <= Z.of_nat n)%Z /\ Z.of_nat c = (Z.of_nat (n * n + n) + m)%Z /\ nth_error (acn degree) c = Some (m, n)).
Proof.
  intros d. rewrite basis_levels, acn_levels. split; [reflexivity|]. split; [apply levels_length|]. assert (N : forall n m, (n <= d)%nat -> (Z.abs m <= Z.of_nat n)%Z -> nth_error (flat_map level (seq 0 (d + 1))) (Z.to_nat (Z.of_nat (n * n + n) + m)) = Some (m, n)) by (intros n m H1 H2; apply levels_nth; [lia|exact H2]).
  split; [exact N|]. intros c Hc. rewrite levels_length in Hc. pose proof (Nat.sqrt_spec c (Nat.le_0_l c)) as [S1 S2]. set (n := Nat.sqrt c) in *.
  assert (Hn : (n <= d)%nat) by nia. exists n, (Z.of_nat c - Z.of_nat (n * n + n))%Z. assert (Hm : (Z.abs (Z.of_nat c - Z.of_nat (n * n + n)) <= Z.of_nat n)%Z) by nia. split; [exact Hn|]. split; [exact Hm|]. split; [lia|].
  rewrite <- (N n _ Hn Hm). f_equal. lia.
Qed.
Print Assumptions C134_order.

(** ** Values *)
(** The real harmonic of degree [n] and order [m] as tabulated: the normalised Legendre function, without the phase, times
    1, sqrt 2 cos(m phi) or sqrt 2 sin(|m| phi) *)
Definition spec_harmonic (n : nat) (m : Z) (theta phi : R) : R :=
  let k := Z.abs_nat m in
  normaliser n k * (sin theta ^ k * legendre n k (cos theta)) *
  (if Z.eqb m 0 then 1 else if Z.ltb 0 m then sqrt 2 * cos (INR k * phi) else sqrt 2 * sin (INR k * phi)).
Lemma m1_sq k : (-1) ^ k * (-1) ^ k = 1.
Proof. rewrite <- pow_add. replace (k + k)%nat with (2 * k)%nat by lia. rewrite pow_mult. replace ((-1) ^ 2) with 1 by ring. apply pow1. Qed.
Lemma powerRZ_m1 m : powerRZ (-1) m = (-1) ^ (Z.abs_nat m).
Proof.
  destruct m as [|p|p]; [reflexivity|reflexivity|]. cbn [powerRZ Z.abs_nat]. pose proof (m1_sq (Pos.to_nat p)) as E. assert ((-1) ^ Pos.to_nat p <> 0) by (intros Z0; rewrite Z0 in E; lra). apply (Rmult_eq_reg_r ((-1) ^ Pos.to_nat p)); [|auto]. rewrite E. now apply Rinv_l.
Qed.
Lemma m1_parity k : (-1) ^ k = if Nat.even k then 1 else -1.
Proof. induction k as [|k IH]; [reflexivity|]. cbn [pow]. rewrite IH, Nat.even_succ, <- Nat.negb_even. destruct (Nat.even k); cbn [negb]; ring. Qed.
Lemma mod2_even m : (m mod 2 =? 0)%Z = Nat.even (Z.abs_nat m).
Proof.
  rewrite Zmod_even. assert (E : Z.even m = Nat.even (Z.abs_nat m)). { destruct m as [|p|p]; [reflexivity| |]; cbn [Z.abs_nat]; destruct p; cbn [Z.even]; rewrite ?Pos2Nat.inj_xI, ?Pos2Nat.inj_xO; rewrite ?Nat.even_succ; try (rewrite Nat.odd_mul; reflexivity); try (rewrite Nat.even_mul; reflexivity); reflexivity. }
  rewrite E. destruct (Nat.even _); reflexivity.
Qed.
(** Without the phase the harmonics are the tabulated ones; orders beyond the degree are refused. *)
Theorem C134_value : forall n m theta phi, real_sph_harm n m theta phi false = if ((0 <=? n) && (Z.abs m <=? n))%Z%bool then Some (spec_harmonic (Z.to_nat n) m theta phi) else None.
Proof.
  intros n m theta phi. unfold real_sph_harm. destruct (Z.ltb_spec n 0), (Z.leb_spec 0 n); try lia; [reflexivity|]. destruct (Z.ltb_spec n (Z.abs m)), (Z.leb_spec (Z.abs m) n); try lia; [reflexivity|]. cbn [andb].
  f_equal. unfold sph_harm_y, spec_harmonic. cbv zeta. rewrite powerRZ_m1, mod2_even. set (k := Z.abs_nat m). set (N := normaliser _ k * _). set (E := INR k * phi).
  destruct (Z.leb_spec 0 m), (Z.ltb_spec m 0); try lia.
  - destruct (Z.eqb_spec m 0) as [Z0|Z0].
    + unfold E, N, k. rewrite Z0. cbn [andb Z.abs_nat pow INR Z.ltb Z.compare]. unfold Cscal, cis. cbn [fst]. rewrite Rmult_0_l, cos_0. ring.
    + destruct (Z.ltb_spec 0 m); [|lia]. cbn [andb]. unfold Cscal, cis. cbn [fst]. transitivity (((-1) ^ k * (-1) ^ k) * (N * (sqrt 2 * cos E))); [unfold N; ring|]. rewrite m1_sq. ring.
  - destruct (Z.eqb_spec m 0); [lia|]. destruct (Z.ltb_spec 0 m); [lia|]. unfold Cscal, cis, Conj. cbn [fst snd andb]. rewrite m1_parity. unfold N. destruct (Nat.even k); ring.
Qed.
Print Assumptions C134_value.

(** ** Sums over the orders of a degree *)
Lemma pair_sum n (f : Z -> C) : csum (2 * n + 1) (fun j => f (Z.of_nat j - Z.of_nat n)%Z) = Cadd (f 0%Z) (csum n (fun k => Cadd (f (Z.of_nat (S k))) (f (- Z.of_nat (S k))%Z))).
Proof.
  revert f. induction n as [|n IH]; intros f; [cbn [Nat.mul plus]; rewrite csum_S, !csum_0; cbn; cring|].
  replace (2 * S n + 1)%nat with (S (S (2 * n + 1))) by lia. rewrite csum_S, csum_shift. rewrite (csum_ext _ _ (fun j => f (Z.of_nat j - Z.of_nat n)%Z)) by (intros; f_equal; lia). rewrite IH, csum_S. replace (Z.of_nat 0 - Z.of_nat (S n))%Z with (- Z.of_nat (S n))%Z by lia. replace (Z.of_nat (S (2 * n + 1)) - Z.of_nat (S n))%Z with (Z.of_nat (S n)) by lia. cring.
Qed.
Lemma sqrt2_sq : sqrt 2 * sqrt 2 = 2.
Proof. apply sqrt_sqrt. lra. Qed.
Lemma pair_kernel n k t p t' p' : (0 < k)%nat ->
  Cadd (Cmul (sph_harm_y n (Z.of_nat k) t p) (Conj (sph_harm_y n (Z.of_nat k) t' p'))) (Cmul (sph_harm_y n (- Z.of_nat k) t p) (Conj (sph_harm_y n (- Z.of_nat k) t' p'))) =
  RtoC (spec_harmonic n (Z.of_nat k) t p * spec_harmonic n (Z.of_nat k) t' p' + spec_harmonic n (- Z.of_nat k) t p * spec_harmonic n (- Z.of_nat k) t' p').
Proof.
  intros Hk. unfold sph_harm_y, spec_harmonic. cbv zeta. replace (Z.abs_nat (- Z.of_nat k)) with k by lia. replace (Z.abs_nat (Z.of_nat k)) with k by lia. destruct (Z.ltb_spec (Z.of_nat k) 0); [lia|]. destruct (Z.ltb_spec (- Z.of_nat k) 0); [|lia]. destruct (Z.eqb_spec (Z.of_nat k) 0); [lia|]. destruct (Z.eqb_spec (- Z.of_nat k) 0); [lia|]. destruct (Z.ltb_spec 0 (Z.of_nat k)); [|lia]. destruct (Z.ltb_spec 0 (- Z.of_nat k)); [lia|].
  set (A := sin t ^ k * legendre n k (cos t)). set (B := sin t' ^ k * legendre n k (cos t')). set (N := normaliser n k). pose proof (m1_sq k) as E. set (s := (-1) ^ k) in *. set (a := INR k * p). set (b := INR k * p').
  unfold Cadd, Cmul, Conj, Cscal, cis, RtoC. apply C_eq; cbn [fst snd].
  - transitivity (2 * (s * s * (N * A * N * B * (cos a * cos b + sin a * sin b)))).
    + transitivity ((s * s) * (N * A * N * B * (cos a * cos b + sin a * sin b)) * (1 + s * s)); [ring|]. rewrite E. ring.
    + rewrite E. transitivity ((sqrt 2 * sqrt 2) * (N * A * N * B * (cos a * cos b + sin a * sin b))); [rewrite sqrt2_sq; ring|ring].
  - transitivity ((s * s) * (N * A * N * B * (sin a * cos b - cos a * sin b)) * (1 - s * s)); [ring|]. rewrite E. ring.
Qed.
(** For every degree the real harmonics have the same sums of products over the orders as the complex ones, for any two
    directions: they are the complex ones mixed by a unitary matrix. *)
Theorem C134_kernel : forall n t p t' p', exists y y', (forall j, (j < 2 * n + 1)%nat -> real_sph_harm (Z.of_nat n) (Z.of_nat j - Z.of_nat n) t p false = Some (y j) /\ real_sph_harm (Z.of_nat n) (Z.of_nat j - Z.of_nat n) t' p' false = Some (y' j)) /\
  csum (2 * n + 1) (fun j => Cmul (sph_harm_y n (Z.of_nat j - Z.of_nat n) t p) (Conj (sph_harm_y n (Z.of_nat j - Z.of_nat n) t' p'))) = RtoC (bsum (2 * n + 1) (fun j => y j * y' j)).
Proof.
  intros n t p t' p'. exists (fun j => spec_harmonic n (Z.of_nat j - Z.of_nat n) t p), (fun j => spec_harmonic n (Z.of_nat j - Z.of_nat n) t' p'). split.
  - intros j Hj. rewrite !C134_value, Nat2Z.id. destruct (Z.leb_spec 0 (Z.of_nat n)); [|lia]. destruct (Z.leb_spec (Z.abs (Z.of_nat j - Z.of_nat n)) (Z.of_nat n)); [|lia]. split; reflexivity.
  - rewrite <- csum_RtoC. rewrite (pair_sum n (fun m => Cmul (sph_harm_y n m t p) (Conj (sph_harm_y n m t' p')))). rewrite (pair_sum n (fun m => RtoC (spec_harmonic n m t p * spec_harmonic n m t' p'))). f_equal.
    + unfold sph_harm_y, spec_harmonic. cbn [Z.abs_nat Z.ltb Z.eqb Z.compare pow INR]. unfold Cmul, Conj, Cscal, cis, RtoC. rewrite !Rmult_0_l, cos_0, sin_0. apply C_eq; cbn [fst snd]; ring.
    + apply csum_ext. intros k Hk. rewrite pair_kernel by lia. now rewrite <- RtoC_add.
Qed.
Print Assumptions C134_kernel.

(** ** The first channels *)
Lemma legendre_00 x : legendre 0 0 x = 1.
Proof. unfold legendre, peval. cbn [Nat.iter nat_rect plus ppow fold_right pow fact INR]. field. Qed.
Lemma legendre_10 x : legendre 1 0 x = x.
Proof. unfold legendre, peval. cbn. field. Qed.
Lemma legendre_11 x : legendre 1 1 x = 1.
Proof. unfold legendre, peval. cbn. field. Qed.
Lemma spec_00 t p : spec_harmonic 0 0 t p = sqrt (1 / (4 * PI)).
Proof. pose proof PI_RGT_0. unfold spec_harmonic. cbn [Z.abs_nat Z.eqb pow]. rewrite legendre_00. unfold normaliser. cbn [Nat.sub plus fact INR]. replace ((2 * 0 + 1) / (4 * PI) * (1 / 1)) with (1 / (4 * PI)) by (field; lra). ring. Qed.
Lemma spec_10 t p : spec_harmonic 1 0 t p = sqrt (3 / (4 * PI)) * cos t.
Proof. pose proof PI_RGT_0. unfold spec_harmonic. cbn [Z.abs_nat Z.eqb pow]. rewrite legendre_10. unfold normaliser. cbn [Nat.sub plus fact INR Nat.mul]. replace ((2 * 1 + 1) / (4 * PI) * (1 / 1)) with (3 / (4 * PI)) by (field; lra). ring. Qed.
Lemma norm_11 : normaliser 1 1 * sqrt 2 = sqrt (3 / (4 * PI)).
Proof. pose proof PI_RGT_0. unfold normaliser. cbn [Nat.sub plus fact INR Nat.mul]. rewrite <- sqrt_mult_alt; [f_equal; field; lra|]. apply Rlt_le. apply Rmult_lt_0_compat; [apply Rdiv_lt_0_compat; lra|apply Rdiv_lt_0_compat; lra]. Qed.
Lemma spec_11 t p : spec_harmonic 1 1 t p = sqrt (3 / (4 * PI)) * (cos p * sin t).
Proof. unfold spec_harmonic. cbn [Z.abs_nat Pos.to_nat Pos.iter_op Z.eqb pow Z.ltb Z.compare]. change (Pos.to_nat 1) with 1%nat. cbn [pow INR]. rewrite legendre_11, <- norm_11, Rmult_1_l. ring. Qed.
Lemma spec_1m1 t p : spec_harmonic 1 (-1) t p = sqrt (3 / (4 * PI)) * (sin p * sin t).
Proof. unfold spec_harmonic. cbn [Z.abs_nat Z.eqb Z.ltb Z.compare]. change (Pos.to_nat 1) with 1%nat. cbn [pow INR]. rewrite legendre_11, <- norm_11, Rmult_1_l. ring. Qed.
Lemma response_one n m cs x y z mag : harm_response_cartesian n m cs [[x; y; z]] mag = (let '(az, co, _) := cart2spher [x; y; z] in let* v := real_sph_harm n m co az cs in Some [[v]]).
Proof. unfold harm_response_cartesian, harm_response. cbn [map bind length Nat.eqb negb combine mapM]. destruct (cart2spher [x; y; z]) as [[az co] r]. cbn [fst snd]. destruct (real_sph_harm n m co az cs); reflexivity. Qed.
(** The response to a direction (x, y, z) of any length r > 0 of the first four channels: sqrt(1/4pi), and sqrt(3/4pi) times
    y/r, z/r and x/r *)
Theorem C134_first_order : forall x y z r mag, r = vnorm [x; y; z] -> 0 < r ->
  map (fun mn => harm_response_cartesian (Z.of_nat (snd mn)) (fst mn) false [[x; y; z]] mag) (acn 1) =
  map (fun v => Some [[v]]) [sqrt (1 / (4 * PI)); sqrt (3 / (4 * PI)) * (y / r); sqrt (3 / (4 * PI)) * (z / r); sqrt (3 / (4 * PI)) * (x / r)].
Proof.
  intros x y z r mag Er Hr. change (acn 1) with [(0%Z, 0%nat); ((-1)%Z, 1%nat); (0%Z, 1%nat); (1%Z, 1%nat)]. cbn [map fst snd Z.of_nat Pos.of_succ_nat]. rewrite !response_one.
  pose proof (C67_forth x y z) as F. destruct (cart2spher [x; y; z]) as [[az co] r0]. destruct F as (F & E0 & _). rewrite <- Er in E0. subst r0. unfold spher2cart in F. injection F as F1 F2 F3.
  rewrite !C134_value. cbn [Z.leb Z.compare Z.abs andb bind Pos.compare Pos.compare_cont Z.to_nat]. change (Pos.to_nat 1) with 1%nat. rewrite spec_00, spec_1m1, spec_10, spec_11.
  assert (G1 : cos az * sin co = x / r) by (rewrite <- F1; field; lra). assert (G2 : sin az * sin co = y / r) by (rewrite <- F2; field; lra). assert (G3 : cos co = z / r) by (rewrite <- F3; field; lra). rewrite G1, G2, G3. reflexivity.
Qed.
Print Assumptions C134_first_order.
(** [condon_shortley_phase] should only change signs, by (-1)^m.  It also takes away the factor sqrt 2. *)
Theorem C134_phase_refuted : exists n m t p a b, real_sph_harm n m t p true = Some a /\ real_sph_harm n m t p false = Some b /\ a <> (-1) ^ Z.abs_nat m * b /\ a * a < b * b.
Proof.
  exists 1%Z, 1%Z, (PI / 2), 0, (- normaliser 1 1), (normaliser 1 1 * sqrt 2).
  assert (N : 0 < normaliser 1 1). { pose proof PI_RGT_0. apply sqrt_lt_R0. cbn [Nat.sub plus fact INR Nat.mul]. apply Rmult_lt_0_compat; [apply Rdiv_lt_0_compat; lra|apply Rdiv_lt_0_compat; lra]. }
  assert (S2 : 1 < sqrt 2) by (rewrite <- sqrt_1; apply sqrt_lt_1; lra).
  split.
  - unfold real_sph_harm. cbn [Z.ltb Z.compare Z.abs Pos.compare Pos.compare_cont Z.leb Z.to_nat]. change (Pos.to_nat 1) with 1%nat. unfold sph_harm_y. cbn [Z.abs_nat Z.ltb Z.compare]. change (Pos.to_nat 1) with 1%nat. rewrite legendre_11. unfold Cscal, cis. cbn [fst pow INR]. rewrite Rmult_0_r, cos_0, sin_PI2. f_equal. ring.
  - split; [rewrite C134_value; cbn [Z.leb Z.compare Z.abs andb Pos.compare Pos.compare_cont Z.to_nat]; change (Pos.to_nat 1) with 1%nat; rewrite spec_11, norm_11, cos_0, sin_PI2; f_equal; ring|].
    cbn [Z.abs_nat]. change (Pos.to_nat 1) with 1%nat. split; [cbn [pow]; intros E; nra|]. replace (normaliser 1 1 * sqrt 2 * (normaliser 1 1 * sqrt 2)) with (normaliser 1 1 * normaliser 1 1 * (sqrt 2 * sqrt 2)) by ring. rewrite sqrt2_sq. nra.
Qed.
Print Assumptions C134_phase_refuted.
(** [magnitude=True] is ignored: the response has the sign of the harmonic. *)
Theorem C134_magnitude_refuted : exists n m az co v, harm_response n m false [az] (Some [co]) true false = Some [[v]] /\ v < 0.
Proof.
  exists 1%Z, 0%Z, 0, PI, (sqrt (3 / (4 * PI)) * -1). split.
  - unfold harm_response. cbn [bind length Nat.eqb negb combine mapM]. rewrite C134_value. cbn [Z.leb Z.compare Z.abs andb bind Z.to_nat]. change (Pos.to_nat 1) with 1%nat. now rewrite spec_10, cos_PI.
  - pose proof PI_RGT_0. assert (0 < sqrt (3 / (4 * PI))) by (apply sqrt_lt_R0, Rdiv_lt_0_compat; lra). lra.
Qed.
Print Assumptions C134_magnitude_refuted.
(** Channel 3 of order 1 is the front-back channel of Ambisonics. *)
Example front_back : nth_error (acn 1) 3 = Some (1%Z, 1%nat) /\ harm_response_cartesian 1 1 false [[2; 0; 0]] false = Some [[sqrt (3 / (4 * PI))]].
Proof.
  split; [reflexivity|]. assert (V : 2 = vnorm [2; 0; 0]). { unfold vnorm, vsq, dot, Rsum. cbn. replace (2 * 2 + (0 * 0 + (0 * 0 + 0))) with (2 * 2) by ring. symmetry. apply sqrt_square. lra. }
  pose proof (C134_first_order 2 0 0 2 false V ltac:(lra)) as H. change (acn 1) with [(0%Z, 0%nat); ((-1)%Z, 1%nat); (0%Z, 1%nat); (1%Z, 1%nat)] in H. cbn [map fst snd Z.of_nat Pos.of_succ_nat] in H.
  assert (E : forall (A : Type) (a b c d a' b' c' d' : A), [a; b; c; d] = [a'; b'; c'; d'] -> d = d') by (intros; congruence). apply E in H. rewrite H. do 3 f_equal. field.
Qed.
