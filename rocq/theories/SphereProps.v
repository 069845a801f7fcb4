(** C67 (spherical coordinates), C68 (Fibonacci sampling), C69 (circular distance), C88 (matching of directions). *)
From Coq Require Import List ZArith Lia Reals Lra Psatz Bool.
From Verif Require Import Base Vec GeometryModel GeometryProofs SphereModel BaseProofs UtilProps BandsProps.
Import ListNotations.
Local Open Scope R_scope.

Lemma sqrt_scale : forall a b, 0 <= a -> sqrt (a * a * b) = a * sqrt b.
Proof. intros a b H. rewrite sqrt_mult_alt by nra. now rewrite sqrt_square. Qed.
Lemma atan2_spec : forall y x, sqrt (x * x + y * y) * cos (atan2 y x) = x /\ sqrt (x * x + y * y) * sin (atan2 y x) = y.
Proof.
  intros y x. unfold atan2.
  assert (Base : forall x, x <> 0 -> Rabs x * (sqrt (1 + (y / x) ^ 2) * cos (atan (y / x))) = Rabs x /\ Rabs x * (sqrt (1 + (y / x) ^ 2) * sin (atan (y / x))) = Rabs x * (y / x) /\ sqrt (x * x + y * y) = Rabs x * sqrt (1 + (y / x) ^ 2)).
  { intros u Hu. assert (P : 0 < sqrt (1 + (y / u) ^ 2)) by (apply sqrt_lt_R0; pose proof (pow2_ge_0 (y / u)); lra). rewrite cos_atan, sin_atan. unfold Rsqr. replace (1 + y / u * (y / u)) with (1 + (y / u) ^ 2) by ring. repeat split.
    - field. lra.
    - field. split; lra.
    - rewrite <- sqrt_scale by apply Rabs_pos. f_equal. replace (Rabs u * Rabs u) with (u * u) by (rewrite <- Rabs_mult; rewrite Rabs_pos_eq; nra). field. auto. }
  destruct (Rlt_dec 0 x) as [H|H].
  - destruct (Base x) as (B1 & B2 & B3); [lra|]. rewrite Rabs_pos_eq in B1, B2, B3 by lra. rewrite B3. split; [lra|]. rewrite Rmult_assoc, B2. field. lra.
  - destruct (Rlt_dec x 0) as [H0|H0].
    + destruct (Base x) as (B1 & B2 & B3); [lra|]. rewrite Rabs_left in B1, B2, B3 by lra. assert (F : - x * (y / x) = - y) by (field; lra). destruct (Rle_dec 0 y).
      * rewrite neg_cos, neg_sin, B3. split; [lra|]. rewrite F in B2. lra.
      * rewrite cos_minus, sin_minus, cos_PI, sin_PI, B3. rewrite F in B2. split; lra.
    + assert (x = 0) as -> by lra. rewrite Rmult_0_l, Rplus_0_l. destruct (Rlt_dec 0 y); [|destruct (Rlt_dec y 0)].
      * rewrite cos_PI2, sin_PI2, sqrt_square by lra. split; lra.
      * rewrite cos_neg, sin_neg, cos_PI2, sin_PI2. replace (y * y) with (- y * - y) by ring. rewrite sqrt_square by lra. split; lra.
      * assert (y = 0) as -> by lra. rewrite Rmult_0_l, sqrt_0. split; lra.
Qed.
Lemma atan2_range : forall y x, - PI < atan2 y x <= PI.
Proof.
  intros y x. unfold atan2. pose proof PI_RGT_0. pose proof (atan_bound (y / x)). destruct (Rlt_dec 0 x); [lra|]. destruct (Rlt_dec x 0) as [H1|H1].
  - assert (S1 : forall t, t <= 0 -> atan t <= 0) by (intros t [Ht|Ht]; [left; rewrite <- atan_0; now apply atan_increasing|rewrite Ht, atan_0; lra]). assert (S2 : forall t, 0 < t -> 0 < atan t) by (intros t Ht; rewrite <- atan_0; now apply atan_increasing). assert (I : / x < 0) by now apply Rinv_lt_0_compat. destruct (Rle_dec 0 y).
    + assert (y / x <= 0) by (unfold Rdiv; nra). specialize (S1 _ H2). lra.
    + assert (0 < y / x) by (unfold Rdiv; nra). specialize (S2 _ H2). lra.
  - destruct (Rlt_dec 0 y); [lra|]. destruct (Rlt_dec y 0); lra.
Qed.
Lemma atan2_nonneg : forall y x, 0 <= y -> 0 <= atan2 y x.
Proof.
  intros y x Hy. unfold atan2. pose proof PI_RGT_0. pose proof (atan_bound (y / x)). destruct (Rlt_dec 0 x) as [H1|H1].
  - assert (0 <= y / x) by (apply Rmult_le_pos; [auto|apply Rlt_le, Rinv_0_lt_compat; auto]). destruct H2 as [H2|<-]; [|rewrite atan_0; lra]. left. rewrite <- atan_0. now apply atan_increasing.
  - destruct (Rlt_dec x 0); [destruct (Rle_dec 0 y); [lra|lra]|]. destruct (Rlt_dec 0 y); [lra|]. destruct (Rlt_dec y 0); lra.
Qed.
(** Angles with the same cosine and sine differ by full turns. *)
Lemma full_turn : forall a b, cos a = cos b -> sin a = sin b -> exists k : Z, a = b + 2 * IZR k * PI.
Proof.
  intros a b Hc Hs. assert (E : cos (a - b) = 1) by (rewrite cos_minus, Hc, Hs; pose proof (sin2_cos2 b) as T; unfold Rsqr in T; lra). assert (Z : sin ((a - b) / 2) = 0).
  { replace (a - b) with (2 * ((a - b) / 2)) in E by field. rewrite cos_2a_sin in E. assert (sin ((a - b) / 2) * sin ((a - b) / 2) = 0) by lra. nra. }
  apply sin_eq_0_0 in Z. destruct Z as (k & Hk). exists k. lra.
Qed.
Lemma no_turn : forall k : Z, Rabs (2 * IZR k * PI) < 2 * PI -> k = 0%Z.
Proof.
  intros k H. pose proof PI_RGT_0. apply Rabs_def2 in H. destruct H as [H1 H2]. assert (IZR k < 1) by nra. assert (-1 < IZR k) by nra. apply lt_IZR in H, H3. lia.
Qed.
Lemma angle_unique : forall a b, cos a = cos b -> sin a = sin b -> Rabs (a - b) < 2 * PI -> a = b.
Proof. intros a b Hc Hs H. destruct (full_turn a b Hc Hs) as (k & ->). replace (b + 2 * IZR k * PI - b) with (2 * IZR k * PI) in H by ring. apply no_turn in H. subst k. lra. Qed.
Lemma atan2_unique : forall r a, 0 < r -> - PI < a <= PI -> atan2 (r * sin a) (r * cos a) = a.
Proof.
  intros r a Hr Ha. destruct (atan2_spec (r * sin a) (r * cos a)) as [E1 E2]. assert (N : sqrt (r * cos a * (r * cos a) + r * sin a * (r * sin a)) = r).
  { replace (r * cos a * (r * cos a) + r * sin a * (r * sin a)) with (r * r * (sin a * sin a + cos a * cos a)) by ring. pose proof (sin2_cos2 a) as T. unfold Rsqr in T. rewrite T, Rmult_1_r. apply sqrt_square. lra. }
  rewrite N in E1, E2. apply Rmult_eq_reg_l in E1; [|lra]. apply Rmult_eq_reg_l in E2; [|lra]. apply angle_unique; auto. pose proof (atan2_range (r * sin a) (r * cos a)). apply Rabs_def1; lra.
Qed.
Lemma reduce_turn : forall a, exists k : Z, - PI < a + 2 * IZR k * PI <= PI.
Proof.
  intros a. pose proof PI_RGT_0 as P. set (t := (a + PI) / (2 * PI)). destruct (archimed t) as [A1 A2]. (* up t - 1 <= t < up t *)
  assert (T : t * (2 * PI) = a + PI) by (unfold t; field; lra). destruct (Req_dec (IZR (up t) - 1) t) as [E|E].
  - exists (2 - up t)%Z. rewrite minus_IZR. split; nra.
  - exists (1 - up t)%Z. rewrite minus_IZR. assert (IZR (up t) - 1 < t) by lra. split; nra.
Qed.

Lemma spher_eq : forall az co r, spher2cart az (Some co) r false = [r * cos az * sin co; r * sin az * sin co; r * cos co].
Proof. reflexivity. Qed.
Lemma vnorm3 : forall x y z, vnorm [x; y; z] = sqrt (x * x + y * y + z * z).
Proof. intros. unfold vnorm, vsq, dot. cbn. f_equal. ring. Qed.
(** The vector has the given radius. *)
Theorem C67_radius : forall az co r degrees, vnorm (spher2cart az co r degrees) = Rabs r.
Proof.
  intros az co r d. unfold spher2cart. set (a := if d then radians az else az). set (c := match (if d then option_map radians co else co) with Some c => c | None => PI / 2 end). rewrite vnorm3.
  replace (r * cos a * sin c * (r * cos a * sin c) + r * sin a * sin c * (r * sin a * sin c) + r * cos c * (r * cos c)) with (Rsqr r * ((sin a * sin a + cos a * cos a) * (sin c * sin c) + cos c * cos c)) by (unfold Rsqr; ring). pose proof (sin2_cos2 a) as T1. pose proof (sin2_cos2 c) as T2. unfold Rsqr in T1, T2. rewrite T1, Rmult_1_l, T2, Rmult_1_r. apply sqrt_Rsqr_abs.
Qed.
(** From spherical to Cartesian coordinates and back. *)
Theorem C67_back : forall az co r, 0 < r -> 0 <= co <= PI -> exists az', cart2spher (spher2cart az (Some co) r false) = (az', co, r) /\
  - PI < az' <= PI /\ (0 < co < PI -> exists k : Z, az' = az + 2 * IZR k * PI).
Proof.
  intros az co r Hr Hco. rewrite spher_eq. unfold cart2spher. cbn [nth]. eexists. split; [f_equal; [f_equal|]|split]; [| |apply atan2_range|].
  - assert (Sc : 0 <= sin co) by (apply sin_ge_0; lra). replace (r * cos az * sin co * (r * cos az * sin co) + r * sin az * sin co * (r * sin az * sin co)) with ((r * sin co) * (r * sin co) * (sin az * sin az + cos az * cos az)) by ring. pose proof (sin2_cos2 az) as T. unfold Rsqr in T. rewrite T, Rmult_1_r, sqrt_square by nra. pose proof PI_RGT_0. apply atan2_unique; lra.
  - pose proof (C67_radius az (Some co) r false) as N. rewrite spher_eq, vnorm3 in N. rewrite N. apply Rabs_pos_eq. lra.
  - intros Hc. assert (Sc : 0 < sin co) by (apply sin_gt_0; lra). destruct (reduce_turn az) as (k & Hk). exists k. rewrite <- (atan2_unique (r * sin co) (az + 2 * IZR k * PI)); [|nra|auto]. assert (Pr : forall z : Z, cos (az + 2 * IZR z * PI) = cos az /\ sin (az + 2 * IZR z * PI) = sin az).
    { intros [|p|p].
      - replace (az + 2 * 0 * PI) with az by ring. auto.
      - replace (IZR (Zpos p)) with (INR (Pos.to_nat p)) by (rewrite INR_IZR_INZ, positive_nat_Z; auto). now rewrite cos_period, sin_period.
      - replace (IZR (Zneg p)) with (- INR (Pos.to_nat p)) by (rewrite INR_IZR_INZ, positive_nat_Z; symmetry; apply (opp_IZR (Zpos p))). rewrite <- (cos_period _ (Pos.to_nat p)), <- (sin_period _ (Pos.to_nat p)). split; f_equal; ring. }
    destruct (Pr k) as [-> ->]. f_equal; ring.
Qed.
(** From Cartesian to spherical coordinates and back, for every vector. *)
Theorem C67_forth : forall x y z, let '(az, co, r) := cart2spher [x; y; z] in
  spher2cart az (Some co) r false = [x; y; z] /\ r = vnorm [x; y; z] /\ 0 <= co <= PI /\ - PI < az <= PI.
Proof.
  intros x y z. unfold cart2spher. cbn [nth]. rewrite spher_eq, vnorm3. set (h := sqrt (x * x + y * y)). assert (Hh : h * h = x * x + y * y) by (apply sqrt_sqrt; nra). assert (h0 : 0 <= h) by apply sqrt_pos. destruct (atan2_spec y x) as [A1 A2]. fold h in A1, A2. destruct (atan2_spec h z) as [B1 B2]. replace (z * z + h * h) with (x * x + y * y + z * z) in B1, B2 by lra. set (r := sqrt (x * x + y * y + z * z)) in *.
  split.
  - f_equal; [|f_equal; [|f_equal]].
    + transitivity (r * sin (atan2 h z) * cos (atan2 y x)); [ring|]. now rewrite B2.
    + transitivity (r * sin (atan2 h z) * sin (atan2 y x)); [ring|]. now rewrite B2.
    + exact B1.
  - split; auto. pose proof (atan2_range h z). pose proof (atan2_nonneg h z h0). pose proof (atan2_range y x). repeat split; lra.
Qed.
Example C67_case : cart2spher [0; 2; 0] = (PI / 2, PI / 2, 2).
Proof. destruct (C67_back (PI / 2) (PI / 2) 2) as (az & E & Ha & Hk); [lra|pose proof PI_RGT_0; lra|]. rewrite spher_eq in E. rewrite cos_PI2, sin_PI2 in E. replace [2 * 0 * 1; 2 * 1 * 1; 2 * 0] with [0; 2; 0] in E by (repeat f_equal; ring). rewrite E. repeat f_equal. destruct Hk as (k & Hk); [pose proof PI_RGT_0; lra|]. assert (k = 0)%Z as -> by (apply no_turn; rewrite <- (Rabs_Ropp (2 * _ * _)); apply Rabs_def1; pose proof PI_RGT_0; lra). lra. Qed.

(** The direction of a pair of angles. *)
Definition direction (az co : R) : list R := spher2cart az (Some co) 1 false.
Lemma direction_dot : forall az1 co1 az2 co2, dot (direction az1 co1) (direction az2 co2) = cos co1 * cos co2 + sin co1 * sin co2 * cos (az1 - az2).
Proof. intros. unfold direction. rewrite !spher_eq. unfold dot. cbn. rewrite cos_minus. ring. Qed.
Lemma cos_Rabs : forall x, cos (Rabs x) = cos x.
Proof. intros x. unfold Rabs. destruct (Rcase_abs x); auto. apply cos_neg. Qed.
Lemma gc_unit : forall c1 a1 c2 a2, great_circ_dist 1 c1 a1 c2 a2 = acos (dot (direction a1 c1) (direction a2 c2)) /\ 0 <= great_circ_dist 1 c1 a1 c2 a2 <= PI /\ cos (great_circ_dist 1 c1 a1 c2 a2) = dot (direction a1 c1) (direction a2 c2).
Proof.
  intros c1 a1 c2 a2. unfold great_circ_dist. rewrite Rmult_1_l, !cos_Rabs. set (d := a1 - a2). set (s2 := _ + _ ^ 2). rewrite direction_dot. fold d. set (c := cos c1 * cos c2 + sin c1 * sin c2 * cos d). assert (U : s2 + c * c = 1).
  { unfold s2, c. assert (Sd : sin (Rabs d) * sin (Rabs d) = 1 - cos d * cos d) by (pose proof (sin2_cos2 (Rabs d)) as T; unfold Rsqr in T; rewrite cos_Rabs in T; lra). pose proof (sin2_cos2 c1) as T1. pose proof (sin2_cos2 c2) as T2. unfold Rsqr in T1, T2.
    transitivity (sin c2 * sin c2 * (sin (Rabs d) * sin (Rabs d)) + (sin c1 * sin c1 + cos c1 * cos c1) * (cos c2 * cos c2) + (sin c1 * sin c1 + cos c1 * cos c1) * (sin c2 * sin c2) * (cos d * cos d)); [ring|]. rewrite Sd, T1. transitivity (sin c2 * sin c2 + cos c2 * cos c2); [ring|auto]. }
  assert (S0 : 0 <= s2) by (unfold s2; pose proof (pow2_ge_0 (sin c2 * sin (Rabs d))); pose proof (pow2_ge_0 (sin c1 * cos c2 - cos c1 * sin c2 * cos d)); lra).
  destruct (atan2_spec (sqrt s2) c) as [E1 _]. rewrite sqrt_sqrt in E1 by auto. replace (c * c + s2) with 1 in E1 by lra. rewrite sqrt_1, Rmult_1_l in E1. pose proof (atan2_nonneg (sqrt s2) c (sqrt_pos s2)). pose proof (atan2_range (sqrt s2) c). split; [|split; [lra|auto]]. rewrite <- E1 at 2. symmetry. apply acos_cos. lra.
Qed.
(** The great circle distance is the radius times the angle between the directions. *)
Theorem C67_great_circle : forall r c1 a1 c2 a2, let g := great_circ_dist r c1 a1 c2 a2 in let u := direction a1 c1 in let v := direction a2 c2 in
  g = r * acos (dot u v) /\ great_circ_dist r c2 a2 c1 a1 = g /\ (0 <= r -> 0 <= g <= r * PI) /\ (0 < r -> cos (g / r) = dot u v).
Proof.
  intros r c1 a1 c2 a2 g u v. assert (Sc : forall c1 a1 c2 a2, great_circ_dist r c1 a1 c2 a2 = r * great_circ_dist 1 c1 a1 c2 a2) by (intros; unfold great_circ_dist; ring). unfold g. rewrite !Sc. destruct (gc_unit c1 a1 c2 a2) as (E1 & E2 & E3). destruct (gc_unit c2 a2 c1 a1) as (F1 & _). fold u v in E1, E3, F1. rewrite dot_comm in F1. split; [now rewrite E1|]. split; [now rewrite F1, E1|]. split; [intros; nra|]. intros Hr. rewrite <- E3. f_equal. field. lra.
Qed.
Lemma angle_triangle : forall u v w, length u = length v -> length v = length w -> vsq u = 1 -> vsq v = 1 -> vsq w = 1 -> acos (dot u w) <= acos (dot u v) + acos (dot v w).
Proof.
  intros u v w L1 L2 Hu Hv Hw. assert (B : forall a b, length a = length b -> vsq a = 1 -> vsq b = 1 -> -1 <= dot a b <= 1) by (intros a b L Ha Hb; pose proof (cauchy_schwarz a b L); rewrite Ha, Hb in *; split; nra).
  pose proof (B u v L1 Hu Hv) as B1. pose proof (B v w L2 Hv Hw) as B2. pose proof (B u w ltac:(congruence) Hu Hw) as B3. pose proof (acos_bound (dot u v)) as A1. pose proof (acos_bound (dot v w)) as A2. pose proof (acos_bound (dot u w)) as A3. destruct (Rle_dec PI (acos (dot u v) + acos (dot v w))) as [H|H]; [lra|].
  apply cos_decr_0; try lra. rewrite cos_plus, !cos_acos by auto. set (p := dot u v) in *. set (q := dot v w) in *. set (s := dot u w) in *.
  (* Cauchy-Schwarz for the components orthogonal to v *)
  set (u' := vminus u (vscal p v)). set (w' := vminus w (vscal q v)). assert (Lv : forall k, length (vscal k v) = length v) by (intros; apply vscal_length). assert (Lu' : length u' = length v) by (unfold u'; rewrite vminus_length; rewrite ?Lv; congruence). assert (Lw' : length w' = length v) by (unfold w'; rewrite vminus_length; rewrite ?Lv; congruence).
  assert (D : dot u' w' = s - p * q /\ vsq u' = 1 - p * p /\ vsq w' = 1 - q * q).
  { unfold vsq in *. unfold u', w'. rewrite !dot_vminus_l, !dot_vminus_r, !dot_vscal_l, !dot_vscal_r by (rewrite ?Lv; congruence). rewrite (dot_comm v u), (dot_comm w v), Hu, Hv, Hw. fold p q s. repeat split; ring. }
  destruct D as (D1 & D2 & D3). pose proof (cauchy_schwarz u' w' ltac:(congruence)) as CS. rewrite D1, D2, D3 in CS. assert (Sp : sin (acos p) * sin (acos p) = 1 - p * p) by (pose proof (sin2_cos2 (acos p)) as T; unfold Rsqr in T; rewrite cos_acos in T by auto; lra). assert (Sq : sin (acos q) * sin (acos q) = 1 - q * q) by (pose proof (sin2_cos2 (acos q)) as T; unfold Rsqr in T; rewrite cos_acos in T by auto; lra).
  assert (P1 : 0 <= sin (acos p)) by (apply sin_ge_0; lra). assert (P2 : 0 <= sin (acos q)) by (apply sin_ge_0; lra). set (sp := sin (acos p)) in *. set (sq := sin (acos q)) in *. assert (Q : (s - p * q) * (s - p * q) <= (sp * sq) * (sp * sq)) by (replace (sp * sq * (sp * sq)) with ((sp * sp) * (sq * sq)) by ring; rewrite Sp, Sq; auto). assert (0 <= sp * sq) by (apply Rmult_le_pos; auto). nra.
Qed.
Lemma direction_unit : forall a c, vsq (direction a c) = 1.
Proof. intros. pose proof (vnorm_sq (direction a c)) as H. unfold direction in *. rewrite C67_radius in H. rewrite Rabs_R1 in H. lra. Qed.
Theorem C67_triangle : forall r c1 a1 c2 a2 c3 a3, 0 <= r -> great_circ_dist r c1 a1 c3 a3 <= great_circ_dist r c1 a1 c2 a2 + great_circ_dist r c2 a2 c3 a3.
Proof.
  intros r c1 a1 c2 a2 c3 a3 Hr. destruct (C67_great_circle r c1 a1 c3 a3) as (-> & _). destruct (C67_great_circle r c1 a1 c2 a2) as (-> & _). destruct (C67_great_circle r c2 a2 c3 a3) as (-> & _). pose proof (angle_triangle (direction a1 c1) (direction a2 c2) (direction a3 c3) eq_refl eq_refl (direction_unit _ _) (direction_unit _ _) (direction_unit _ _)). nra.
Qed.
Theorem C67_zero : forall r c1 a1 c2 a2, 0 < r -> great_circ_dist r c1 a1 c2 a2 = 0 <-> direction a1 c1 = direction a2 c2.
Proof.
  intros r c1 a1 c2 a2 Hr. destruct (C67_great_circle r c1 a1 c2 a2) as (-> & _ & _). set (u := direction a1 c1). set (v := direction a2 c2). assert (Hu : vsq u = 1) by apply direction_unit. assert (Hv : vsq v = 1) by apply direction_unit. split.
  - intros H. assert (A : acos (dot u v) = 0) by nra. pose proof (cauchy_schwarz u v eq_refl) as CS. rewrite Hu, Hv in CS. assert (D : dot u v = 1) by (rewrite <- (cos_acos (dot u v)) by (split; nra); rewrite A; apply cos_0).
    assert (Z : vsq (vminus u v) = 0) by (rewrite vsq_vminus by reflexivity; rewrite Hu, Hv, D; ring). apply vsq_zero in Z. apply vec_ext; [reflexivity|]. intros i. pose proof (nth_vminus u v i eq_refl) as N. destruct (Nat.lt_ge_cases i 3) as [Hi|Hi].
    + rewrite Forall_forall in Z. assert (nth i (vminus u v) 0 = 0) by (apply Z, nth_In; cbn; lia). lra.
    + rewrite !nth_overflow; auto.
  - intros ->. unfold vsq in Hv. rewrite Hv. rewrite acos_1. ring.
Qed.

(** ** C68 *)
Theorem C68_fibonacci : forall n, (1 <= n)%nat -> exists p, fibonacci_spherical_sampling n = Some p /\ length p = n /\
  (forall i, (i < n)%nat -> length (nth i p []) = 3%nat /\ vnorm (nth i p []) = 1 /\ nth 2 (nth i p []) 0 = (2 * INR i + 1) / INR n - 1) /\
  (forall i, (i < n)%nat -> nth 2 (nth i p []) 0 = - nth 2 (nth (n - 1 - i) p []) 0) /\ (forall i, (S i < n)%nat -> nth 2 (nth (S i) p []) 0 - nth 2 (nth i p []) 0 = 2 / INR n).
Proof.
  intros n Hn. unfold fibonacci_spherical_sampling. destruct (Nat.eqb_spec n 0); [lia|]. eexists. split; [reflexivity|]. set (p := map _ _). assert (P : 0 < INR n) by (apply lt_0_INR; lia).
  assert (Z : forall i, (i < n)%nat -> length (nth i p []) = 3%nat /\ vnorm (nth i p []) = 1 /\ nth 2 (nth i p []) 0 = (2 * INR i + 1) / INR n - 1).
  { intros i Hi. unfold p. rewrite nth_map_seq by auto. cbn zeta. set (z := INR i * (2 / INR n) - 1 + 2 / INR n / 2). assert (Ez : z = (2 * INR i + 1) / INR n - 1) by (unfold z; field; lra). split; [reflexivity|]. split; [|exact Ez]. rewrite vnorm3. assert (B : -1 <= z <= 1).
    { rewrite Ez. assert (I : 0 <= INR i) by apply pos_INR. assert (J : INR i + 1 <= INR n) by (rewrite <- S_INR; apply le_INR; lia). assert (0 < / INR n) by (now apply Rinv_0_lt_compat). unfold Rdiv. split; [nra|]. apply Rmult_le_reg_r with (INR n); auto. rewrite Rmult_minus_distr_r, Rmult_assoc, Rinv_l by lra. lra. }
    assert (R : sqrt (1 - z ^ 2) * sqrt (1 - z ^ 2) = 1 - z ^ 2) by (apply sqrt_sqrt; nra). set (phi := INR i * _). pose proof (sin2_cos2 phi) as T. unfold Rsqr in T.
    replace (cos phi * sqrt (1 - z ^ 2) * (cos phi * sqrt (1 - z ^ 2)) + sin phi * sqrt (1 - z ^ 2) * (sin phi * sqrt (1 - z ^ 2)) + z * z) with ((sin phi * sin phi + cos phi * cos phi) * (sqrt (1 - z ^ 2) * sqrt (1 - z ^ 2)) + z * z) by ring. rewrite T, R. replace (1 * (1 - z ^ 2) + z * z) with 1 by ring. apply sqrt_1. }
  split; [unfold p; now rewrite map_length, seq_length|]. split; [auto|]. split.
  - intros i Hi. destruct (Z i Hi) as (_ & _ & ->). destruct (Z (n - 1 - i)%nat ltac:(lia)) as (_ & _ & ->). rewrite !minus_INR by lia. cbn [INR]. field. lra.
  - intros i Hi. destruct (Z i ltac:(lia)) as (_ & _ & ->). destruct (Z (S i) Hi) as (_ & _ & ->). rewrite S_INR. field. lra.
Qed.
Example C68_case : exists p, fibonacci_spherical_sampling 2 = Some p /\ nth 2 (nth 0 p []) 0 = - / 2 /\ nth 2 (nth 1 p []) 0 = / 2.
Proof. destruct (C68_fibonacci 2 ltac:(lia)) as (p & E & L & Z & _). exists p. split; auto. destruct (Z 0%nat ltac:(lia)) as (_ & _ & ->). destruct (Z 1%nat ltac:(lia)) as (_ & _ & ->). cbn. split; lra. Qed.
(** Every grid point on the circle and every normalised point of a spherical grid is a unit vector whose angles are the
    stored ones. *)
Theorem C68_circle_grid : forall n i, (i < n)%nat -> let '(a, u) := nth i (grid_circle n) (0, []) in
  0 <= a < 2 * PI /\ u = direction a (PI / 2) /\ vnorm u = 1 /\ forall j b w, (i < j < n)%nat -> nth j (grid_circle n) (0, []) = (b, w) -> b = a + INR (j - i) * (2 * PI / INR n).
Proof.
  intros n i Hi. unfold grid_circle. rewrite nth_map_seq by auto. cbn zeta. pose proof PI_RGT_0. assert (P : 0 < INR n) by (apply lt_0_INR; lia). assert (I : 0 <= INR i) by apply pos_INR. assert (J : INR i < INR n) by (apply lt_INR; auto). split; [split|split; [|split]].
  - apply Rmult_le_pos; [lra|]. apply Rmult_le_pos; [lra|]. apply Rlt_le, Rinv_0_lt_compat. auto.
  - replace (2 * PI) with (INR n * (2 * PI / INR n)) at 2 by (field; lra). apply Rmult_lt_compat_r; auto. apply Rmult_lt_0_compat; [lra|]. now apply Rinv_0_lt_compat.
  - unfold direction. rewrite spher_eq, sin_PI2, cos_PI2. repeat f_equal; ring.
  - set (a := INR i * _). rewrite vnorm3. pose proof (sin2_cos2 a) as T. unfold Rsqr in T. replace (cos a * cos a + sin a * sin a + 0 * 0) with (sin a * sin a + cos a * cos a) by ring. rewrite T. apply sqrt_1.
  - intros j b w Hj E. rewrite nth_map_seq in E by lia. cbn zeta in E. injection E as <- _. rewrite minus_INR by lia. ring.
Qed.
Theorem C68_sphere_grid : forall x y z, vnorm [x; y; z] <> 0 -> exists u az co, grid_sphere_point [x; y; z] = Some (u, (az, co)) /\ vnorm u = 1 /\ u = direction az co /\ [x; y; z] = vscal (vnorm [x; y; z]) u.
Proof.
  intros x y z H. unfold grid_sphere_point. destruct (Req_EM_T (vnorm [x; y; z]) 0); [lra|]. set (N := vnorm [x; y; z]) in *. pose proof (C67_forth (x / N) (y / N) (z / N)) as F. cbn [map]. destruct (cart2spher [x / N; y / N; z / N]) as [[az co] r]. destruct F as (F1 & F2 & _). do 3 eexists. split; [reflexivity|]. assert (U : vnorm [x / N; y / N; z / N] = 1).
  { replace [x / N; y / N; z / N] with (vscal (/ N) [x; y; z]) by (cbn; f_equal; [|f_equal; [|f_equal]]; field; auto). rewrite vnorm_vscal. fold N. assert (0 < N) by (pose proof (vnorm_nonneg [x; y; z]); fold N in H0; lra). rewrite Rabs_pos_eq by (apply Rlt_le, Rinv_0_lt_compat; auto). field. lra. }
  split; [auto|]. split.
  - rewrite U in F2. subst r. symmetry. exact F1.
  - cbn. f_equal; [|f_equal; [|f_equal]]; field; auto.
Qed.
Example C68_sphere_grid_case : vnorm [3; 0; 4] <> 0.
Proof. rewrite vnorm3. replace (3 * 3 + 0 * 0 + 4 * 4) with (5 * 5) by ring. rewrite sqrt_square; lra. Qed.

(** ** C69 *)
Lemma acos_cos_abs : forall x, - PI <= x <= PI -> acos (cos x) = Rabs x.
Proof. intros x H. rewrite <- cos_Rabs. apply acos_cos. split; [apply Rabs_pos|]. apply Rabs_le. lra. Qed.
Lemma cos_turn : forall x (k : Z), cos (x + 2 * IZR k * PI) = cos x /\ sin (x + 2 * IZR k * PI) = sin x.
Proof.
  intros x [|p|p].
  - replace (x + 2 * 0 * PI) with x by ring. auto.
  - replace (IZR (Zpos p)) with (INR (Pos.to_nat p)) by (rewrite INR_IZR_INZ, positive_nat_Z; auto). now rewrite cos_period, sin_period.
  - replace (IZR (Zneg p)) with (- INR (Pos.to_nat p)) by (rewrite INR_IZR_INZ, positive_nat_Z; symmetry; apply (opp_IZR (Zpos p))). rewrite <- (cos_period _ (Pos.to_nat p)), <- (sin_period _ (Pos.to_nat p)). split; f_equal; ring.
Qed.
(** circ_dist is the shortest of the arcs between the two angles. *)
Theorem C69_shortest : forall a b r, (exists k : Z, circ_dist a b r = Rabs (a - b + 2 * IZR k * PI)) /\ forall k : Z, circ_dist a b r <= Rabs (a - b + 2 * IZR k * PI).
Proof.
  intros a b r. unfold circ_dist. split.
  - destruct (reduce_turn (a - b)) as (k & Hk). exists k. rewrite <- acos_cos_abs by lra. now rewrite (proj1 (cos_turn _ k)).
  - intros k. rewrite <- (proj1 (cos_turn (a - b) k)). set (x := a - b + 2 * IZR k * PI). destruct (Rle_dec (Rabs x) PI) as [H|H].
    + assert (- PI <= x <= PI) by (unfold Rabs in H; destruct (Rcase_abs x); lra). rewrite acos_cos_abs by lra. lra.
    + pose proof (acos_bound (cos x)). lra.
Qed.
Theorem C69_metric : forall a b c r, 0 <= circ_dist a b r <= PI /\ circ_dist a b r = circ_dist b a r /\ circ_dist a c r <= circ_dist a b r + circ_dist b c r /\
  (circ_dist a b r = 0 <-> exists k : Z, a = b + 2 * IZR k * PI) /\ forall k l : Z, circ_dist (a + 2 * IZR k * PI) (b + 2 * IZR l * PI) r = circ_dist a b r.
Proof.
  intros a b c r. split; [apply acos_bound|]. split; [unfold circ_dist; f_equal; rewrite <- cos_neg; f_equal; ring|]. split; [|split].
  - destruct (proj1 (C69_shortest a b r)) as (k & ->). destruct (proj1 (C69_shortest b c r)) as (l & ->). eapply Rle_trans; [apply (proj2 (C69_shortest a c r) (k + l)%Z)|]. eapply Rle_trans; [|apply Rabs_triang]. rewrite plus_IZR. right. f_equal. ring.
  - split.
    + intros H. destruct (proj1 (C69_shortest a b r)) as (k & E). rewrite H in E. symmetry in E. exists (- k)%Z. rewrite opp_IZR. destruct (Req_dec (a - b + 2 * IZR k * PI) 0) as [Z|Z]; [lra|]. apply Rabs_no_R0 in Z. lra.
    + intros (k & ->). unfold circ_dist. replace (b + 2 * IZR k * PI - b) with (0 + 2 * IZR k * PI) by ring. rewrite (proj1 (cos_turn 0 k)), cos_0. apply acos_1.
  - intros k l. unfold circ_dist. f_equal. replace (a + 2 * IZR k * PI - (b + 2 * IZR l * PI)) with (a - b + 2 * IZR (k - l) * PI) by (rewrite minus_IZR; ring). apply cos_turn.
Qed.
Example C69_case : circ_dist (PI / 4) (- PI / 4 + 2 * PI) 1 = PI / 2.
Proof. pose proof PI_RGT_0. destruct (C69_metric (PI / 4) (- PI / 4) 0 1) as (_ & _ & _ & _ & M). specialize (M 0%Z 1%Z). replace (PI / 4 + 2 * 0 * PI) with (PI / 4) in M by ring. replace (- PI / 4 + 2 * 1 * PI) with (- PI / 4 + 2 * PI) in M by ring. rewrite M. unfold circ_dist. replace (PI / 4 - - PI / 4) with (PI / 2) by field. apply acos_cos. lra. Qed.
(** The radius is ignored: on a circle of radius 2 the distance should be twice as large. *)
Theorem C69_radius_refuted : exists a b r, circ_dist a b r <> r * circ_dist a b 1.
Proof. exists PI, 0, 2. pose proof PI_RGT_0. unfold circ_dist. rewrite Rminus_0_r, acos_cos by lra. lra. Qed.

(** ** C88: matching of two sets of directions *)
Section Argmin.
Lemma argmin_spec : forall f n, (1 <= n)%nat -> (argmin f n < n)%nat /\ forall i, (i < n)%nat -> lt_inf (f i) (f (argmin f n)) = false.
Proof.
  intros f n Hn. unfold argmin. assert (G : forall k, (k <= n - 1)%nat -> let m := fold_left (fun best i => if lt_inf (f i) (f best) then i else best) (seq 1 k) 0%nat in (m <= k)%nat /\ forall i, (i <= k)%nat -> lt_inf (f i) (f m) = false).
  { assert (Irr : forall a, lt_inf a a = false) by (intros [x|]; cbn; auto; apply Rltb_false; lra). assert (Tr : forall a b c, lt_inf c b = false -> lt_inf b a = false -> lt_inf c a = false) by (intros [x|] [y|] [z|]; cbn; intros; try discriminate; auto; rewrite Rltb_false in *; lra). assert (As : forall a b, lt_inf a b = true -> lt_inf b a = false) by (intros [x|] [y|]; cbn; intros; try discriminate; auto; rewrite Rltb_true in *; rewrite Rltb_false; lra).
    induction k as [|k IH]; intros Hk.
    - cbn. split; [lia|]. intros i Hi. replace i with 0%nat by lia. apply Irr.
    - rewrite seq_S, fold_left_app. cbn [fold_left]. specialize (IH ltac:(lia)). cbv zeta in *. set (m := fold_left _ (seq 1 k) 0%nat) in *. destruct IH as [I1 I2]. destruct (lt_inf (f (1 + k)%nat) (f m)) eqn:E.
      + split; [lia|]. intros i Hi. destruct (Nat.eq_dec i (1 + k)) as [->|]; [apply Irr|]. apply Tr with (f m); [apply I2; lia|]. now apply As.
      + split; [lia|]. intros i Hi. destruct (Nat.eq_dec i (1 + k)) as [->|]; [auto|]. apply I2. lia. }
  destruct (G (n - 1)%nat (le_n _)) as [G1 G2]. split; [lia|]. intros i Hi. apply G2. lia.
Qed.
End Argmin.
(** The cell (row of x2, column of x1) is crossed out once its row or column has been used. *)
Definition crossed (M : nat -> nat -> option R) (used : list (nat * nat)) (i j : nat) : option R :=
  if existsb (fun p => (i =? snd p) || (j =? fst p))%nat used then None else M i j.
(** Pairs chosen greedily: each consists of unused indices and is closest among all pairs of unused indices. *)
Fixpoint greedy (N1 N2 : nat) (D : nat -> nat -> R) (used l : list (nat * nat)) : Prop :=
  match l with [] => True | p :: l' =>
    (fst p < N1)%nat /\ (snd p < N2)%nat /\ (forall q, In q used -> fst q <> fst p /\ snd q <> snd p) /\
    (forall i j, (j < N1)%nat -> (i < N2)%nat -> (forall q, In q used -> fst q <> j /\ snd q <> i) -> D (fst p) (snd p) <= D j i) /\
    greedy N1 N2 D (used ++ [p]) l' end.
Lemma unused_exists : forall N (used : list nat), (length used < N)%nat -> exists j, (j < N)%nat /\ ~ In j used.
Proof.
  intros N used H. destruct (Exists_dec (fun j => ~ In j used) (seq 0 N)) as [E|E].
  - intros j. destruct (in_dec Nat.eq_dec j used); [right|left]; tauto.
  - apply Exists_exists in E. destruct E as (j & Hj & Hn). apply in_seq in Hj. exists j. split; [lia|auto].
  - exfalso. assert (I : incl (seq 0 N) used) by (intros j Hj; destruct (in_dec Nat.eq_dec j used); auto; elim E; apply Exists_exists; eauto). apply NoDup_incl_length in I; [|apply seq_NoDup]. rewrite seq_length in I. lia.
Qed.
Lemma polar_loop_greedy : forall D k N1 N2 used M, (length used + k <= Nat.min N1 N2)%nat ->
  (forall i j, M i j = crossed (fun i j => Some (D j i)) used i j) -> greedy N1 N2 D used (polar_loop k N1 N2 M) /\ length (polar_loop k N1 N2 M) = k.
Proof.
  intros D. induction k as [|k IH]; intros N1 N2 used M Hk HM; [cbn; auto|]. cbn [polar_loop polar_step]. set (col := fun j => argmin (fun i => M i j) N2). set (j0 := argmin (fun j => M (col j) j) N1). set (i0 := col j0).
  destruct (argmin_spec (fun j => M (col j) j) N1 ltac:(lia)) as [J1 J2]. fold j0 in J1, J2. assert (C : forall j, (col j < N2)%nat /\ forall i, (i < N2)%nat -> lt_inf (M i j) (M (col j) j) = false) by (intros j; apply (argmin_spec (fun i => M i j) N2); lia). fold i0 in J2.
  assert (Best : forall i j, (j < N1)%nat -> (i < N2)%nat -> lt_inf (M i j) (M i0 j0) = false).
  { intros i j Hj Hi. destruct (C j) as [_ C2]. specialize (C2 i Hi). specialize (J2 j Hj). destruct (M i j) as [a|], (M (col j) j) as [b|], (M i0 j0) as [c|]; cbn in *; try discriminate; auto. rewrite Rltb_false in *. lra. }
  assert (Un : exists i j, (j < N1)%nat /\ (i < N2)%nat /\ forall q, In q used -> fst q <> j /\ snd q <> i).
  { destruct (unused_exists N1 (map fst used)) as (j & Hj & Nj); [rewrite map_length; lia|]. destruct (unused_exists N2 (map snd used)) as (i & Hi & Ni); [rewrite map_length; lia|]. exists i, j. repeat split; auto; intros E; [apply Nj; rewrite <- E|apply Ni; rewrite <- E]; now apply in_map. }
  assert (Cr : forall i j, (forall q, In q used -> fst q <> j /\ snd q <> i) <-> existsb (fun p => (i =? snd p) || (j =? fst p))%nat used = false).
  { intros i j. split.
    - intros H. destruct (existsb _ _) eqn:E; auto. apply existsb_exists in E. destruct E as (q & Hq & E). destruct (H q Hq). apply orb_true_iff in E. rewrite !Nat.eqb_eq in E. lia.
    - intros H q Hq. assert (E : ((i =? snd q) || (j =? fst q))%nat = false) by (destruct ((i =? snd q) || (j =? fst q))%nat eqn:E; auto; enough (existsb (fun p => (i =? snd p) || (j =? fst p))%nat used = true) by congruence; apply existsb_exists; eauto). apply orb_false_iff in E. rewrite !Nat.eqb_neq in E. lia. }
  assert (F : forall q, In q used -> fst q <> j0 /\ snd q <> i0).
  { apply Cr. destruct Un as (i & j & Hj & Hi & H). apply Cr in H. specialize (Best i j Hj Hi). rewrite !HM in Best. unfold crossed in Best. rewrite H in Best. destruct (existsb (fun p => (i0 =? snd p) || (j0 =? fst p))%nat used); [discriminate|auto]. }
  destruct (IH N1 N2 (used ++ [(j0, i0)]) (fun i j => if ((i =? i0) || (j =? j0))%nat then None else M i j)) as [IH1 IH2].
  - rewrite app_length. cbn. lia.
  - intros i j. rewrite HM. unfold crossed. rewrite existsb_app. cbn [existsb fst snd]. rewrite orb_false_r. destruct (existsb _ used), ((i =? i0) || (j =? j0))%nat; reflexivity.
  - split; [|cbn [length]; f_equal; exact IH2]. cbn [greedy fst snd]. split; [auto|]. split; [apply C|]. split; [auto|]. split; [|exact IH1]. intros i j Hj Hi H. specialize (Best i j Hj Hi). rewrite !HM in Best. unfold crossed in Best. apply Cr in H. apply Cr in F. rewrite H, F in Best. cbn in Best. now apply Rltb_false in Best.
Qed.
Lemma greedy_distinct : forall N1 N2 D l used, NoDup (map fst used) -> NoDup (map snd used) -> greedy N1 N2 D used l ->
  NoDup (map fst (used ++ l)) /\ NoDup (map snd (used ++ l)) /\ Forall (fun p => (fst p < N1)%nat /\ (snd p < N2)%nat) l.
Proof.
  intros N1 N2 D. induction l as [|p l IH]; intros used U1 U2 G; [rewrite app_nil_r; auto|]. destruct G as (G1 & G2 & G3 & _ & G5). assert (App : forall (f : nat * nat -> nat), NoDup (map f used) -> (forall q, In q used -> f q <> f p) -> NoDup (map f (used ++ [p]))).
  { intros f U H. rewrite map_app. cbn. rewrite <- rev_involutive. apply NoDup_rev. rewrite rev_app_distr. cbn. constructor; [|now apply NoDup_rev]. rewrite <- in_rev. intros Hin. apply in_map_iff in Hin. destruct Hin as (q & E & Hq). now elim (H q Hq). }
  destruct (IH (used ++ [p])) as (I1 & I2 & I3); [apply App; auto; intros q Hq; apply G3; auto|apply App; auto; intros q Hq; apply G3; auto|auto|]. rewrite <- app_assoc in I1, I2. split; [auto|]. split; [auto|]. constructor; auto.
Qed.
(** At least two directions each: min(N1, N2) pairs are returned, every pair closest among the directions not yet paired
    (so none is used twice), and the distance is the mean of the circular distances of the pairs. *)
Theorem C88_matching : forall x1 x2, (2 <= length x1)%nat -> (2 <= length x2)%nat -> exists d index, polar_distance x1 x2 = Some (d, index) /\
  length index = Nat.min (length x1) (length x2) /\ NoDup (map fst index) /\ NoDup (map snd index) /\ Forall (fun p => (fst p < length x1)%nat /\ (snd p < length x2)%nat) index /\
  greedy (length x1) (length x2) (fun j i => circ_dist (nth j x1 0) (nth i x2 0) 1) [] index /\ d = Rsum (map (fun p => circ_dist (nth (fst p) x1 0) (nth (snd p) x2 0) 1) index) / INR (length index).
Proof.
  intros x1 x2 H1 H2. unfold polar_distance. set (m := Nat.min _ _). destruct (Nat.eqb_spec m 0); [lia|]. destruct (Nat.ltb_spec 1 m); [|lia]. do 2 eexists. split; [reflexivity|]. set (D := fun j i => circ_dist (nth j x1 0) (nth i x2 0) 1).
  destruct (polar_loop_greedy D m (length x1) (length x2) [] (diffmat x1 x2)) as [G L]; [cbn; lia|reflexivity|]. destruct (greedy_distinct _ _ _ _ [] ltac:(constructor) ltac:(constructor) G) as (N1 & N2 & B). cbn [app] in N1, N2. split; [auto|]. split; [auto|]. split; [auto|]. split; [auto|]. split; [auto|]. now rewrite L.
Qed.
Example C88_case : exists d index, polar_distance [0; PI / 2] [PI / 2; 0; PI] = Some (d, index) /\ d = 0.
Proof.
  destruct (C88_matching [0; PI / 2] [PI / 2; 0; PI]) as (d & index & E & L & N1 & N2 & B & G & Hd); [cbn; lia|cbn; lia|]. exists d, index. split; [auto|]. cbn in L. destruct index as [|[j1 i1] [|[j2 i2] [|]]]; try (cbn in L; lia). pose proof PI_RGT_0 as P.
  assert (V : forall a b, - PI <= a - b <= PI -> circ_dist a b 1 = Rabs (a - b)) by (intros; unfold circ_dist; now apply acos_cos_abs).
  set (D := fun j i => circ_dist (nth j [0; PI / 2] 0) (nth i [PI / 2; 0; PI] 0) 1) in *. assert (D00 : D 0%nat 0%nat = PI / 2) by (unfold D; cbn; rewrite V by lra; rewrite Rabs_left; lra). assert (D01 : D 0%nat 1%nat = 0) by (unfold D; cbn; rewrite V by lra; rewrite Rminus_0_r; apply Rabs_R0). assert (D02 : D 0%nat 2%nat = PI) by (unfold D; cbn; rewrite V by lra; rewrite Rabs_left; lra). assert (D10 : D 1%nat 0%nat = 0) by (unfold D; cbn; rewrite V by lra; replace (PI / 2 - PI / 2) with 0 by ring; apply Rabs_R0). assert (D11 : D 1%nat 1%nat = PI / 2) by (unfold D; cbn; rewrite V by lra; rewrite Rabs_pos_eq; lra). assert (D12 : D 1%nat 2%nat = PI / 2) by (unfold D; cbn; rewrite V by lra; rewrite Rabs_left; lra).
  subst d. change (map _ _) with [D j1 i1; D j2 i2]. destruct G as (A1 & A2 & _ & A4 & B1 & B2 & B3 & B4 & _). cbn [fst snd length app] in *. assert (Q1 := A4 1%nat 0%nat ltac:(lia) ltac:(lia) ltac:(intros q [])). specialize (B3 (j1, i1) ltac:(left; auto)). cbn [fst snd] in B3.
  assert (Q2 : forall i j, (j < 2)%nat -> (i < 3)%nat -> j1 <> j -> i1 <> i -> D j2 i2 <= D j i) by (intros i j Hj Hi K1 K2; apply B4; auto; intros q [<-|[]]; auto). clear A4 B4 E N1 N2 B L. assert (Q3 := Q2 0%nat 1%nat). assert (Q4 := Q2 1%nat 0%nat).
  assert (Z1 : D j1 i1 = 0) by (destruct j1 as [|[|]]; [| |lia]; destruct i1 as [|[|[|]]]; try lia; lra). assert (Z2 : D j2 i2 = 0).
  { destruct j1 as [|[|]]; [| |lia]; destruct i1 as [|[|[|]]]; try lia; try lra; destruct j2 as [|[|]]; try lia; destruct i2 as [|[|[|]]]; try lia; try lra; specialize (Q3 ltac:(lia) ltac:(lia) ltac:(lia) ltac:(lia)) || specialize (Q4 ltac:(lia) ltac:(lia) ltac:(lia) ltac:(lia)); lra. }
  rewrite Z1, Z2. cbn. lra.
Qed.
(** With a single direction on one side the index of it is 1 instead of 0. *)
Theorem C88_single_refuted : exists x1 x2 d p, x1 <> [] /\ x2 <> [] /\ polar_distance x1 x2 = Some (d, [p]) /\ (length x1 <= fst p)%nat.
Proof. exists [0], [0]. do 2 eexists. split; [congruence|]. split; [congruence|]. split; [reflexivity|]. cbn. lia. Qed.
Print Assumptions C67_radius. Print Assumptions C67_back. Print Assumptions C67_forth. Print Assumptions C67_great_circle. Print Assumptions C67_triangle. Print Assumptions C67_zero. Print Assumptions C68_fibonacci. Print Assumptions C68_circle_grid. Print Assumptions C68_sphere_grid. Print Assumptions C69_shortest. Print Assumptions C69_metric. Print Assumptions C88_matching.
