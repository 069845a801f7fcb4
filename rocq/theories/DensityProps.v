(** C137: the densities of the random directions. *)
From Coq Require Import Reals List ZArith Lia Lra Bool.
From Coquelicot Require Import Coquelicot.
From Verif Require Import Base BaseProofs Vec DensityModel.
Import ListNotations.
Local Open Scope R_scope.

(** ** Specification *)
(** the gamma function as far as it is used *)
Definition gamma_ok (gamma : R -> R) : Prop :=
  (forall x, 0 < x -> 0 < gamma x) /\ (forall x, 0 < x -> gamma (x + 1) = x * gamma x) /\ gamma 1 = 1 /\ gamma (1 / 2) = sqrt PI.
(** the area of the unit sphere in [d] dimensions: two points, the circle, and the known recurrence *)
Fixpoint sphere_area (d : nat) : R := match d with 0%nat => 0 | 1%nat => 2 | 2%nat => 2 * PI | S (S d') => 2 * PI / INR d' * sphere_area d' end.
(** the density of the beta distribution *)
Definition beta_density (gamma : R -> R) (ab : R * R) (z : R) : R := gamma (fst ab + snd ab) / (gamma (fst ab) * gamma (snd ab)) * Rpower z (fst ab - 1) * Rpower (1 - z) (snd ab - 1).
(** points of the sphere by the angle to [c] and the angle around it *)
Definition around (c u v : vec) (theta phi : R) : vec := vadd (vscal (cos theta) c) (vscal (sin theta) (vadd (vscal (cos phi) u) (vscal (sin phi) v))).
Definition frame (c u v : vec) : Prop := length c = 3%nat /\ length u = 3%nat /\ length v = 3%nat /\ dot c c = 1 /\ dot u u = 1 /\ dot v v = 1 /\ dot c u = 0 /\ dot c v = 0 /\ dot u v = 0.

(** ** Uniform *)
Lemma gpos g x : gamma_ok g -> 0 < x -> 0 < g x.
Proof. intros (H & _). auto. Qed.
Lemma INR_half d : INR (S (S d)) / 2 = INR d / 2 + 1.
Proof. rewrite !S_INR. field. Qed.
Lemma uniform_closed g d : gamma_ok g -> (1 <= d)%nat -> uniform_area g d = 2 * Rpower PI (INR d / 2) / g (INR d / 2).
Proof.
  intros OK Hd. unfold uniform_area. assert (0 < INR d) by (apply lt_0_INR; lia). destruct OK as (P & F & _). rewrite (F (INR d / 2)) by lra. field. pose proof (P (INR d / 2)). split; [apply Rgt_not_eq, P; lra|lra].
Qed.
Lemma uniform_sphere g d : gamma_ok g -> uniform_area g (S d) = sphere_area (S d) /\ uniform_area g (S (S d)) = sphere_area (S (S d)).
Proof.
  intros OK. pose proof PI_RGT_0 as PP. induction d as [|d [I1 I2]].
  - rewrite !uniform_closed by (auto; lia). destruct OK as (P & F & G1 & G2). split.
    + replace (INR 1 / 2) with (1 / 2) by (cbn; lra). rewrite G2. replace (1 / 2) with (/ 2) by lra. rewrite Rpower_sqrt by auto. cbn. field. apply Rgt_not_eq, sqrt_lt_R0, PP.
    + replace (INR 2 / 2) with 1 by (cbn; lra). rewrite G1, Rpower_1 by auto. cbn. field.
  - split; [exact I2|]. transitivity (2 * PI / INR (S d) * uniform_area g (S d)); [|rewrite I1; reflexivity].
    rewrite !uniform_closed by (auto; lia). rewrite (INR_half (S d)). assert (0 < INR (S d)) by (apply lt_0_INR; lia). destruct OK as (P & F & _). rewrite F by lra. rewrite Rpower_plus, Rpower_1 by auto. field. split; [apply Rgt_not_eq, P; lra|lra].
Qed.
(** The uniform density is the reciprocal of the area of the sphere. *)
Theorem C137_uniform : forall gamma d x, gamma_ok gamma -> (1 <= d)%nat -> uniform_pdf gamma d x * sphere_area d = 1.
Proof.
  intros g [|d] x OK Hd; [lia|]. unfold uniform_pdf. destruct (uniform_sphere g d OK) as [E _]. rewrite <- E. field. rewrite uniform_closed by auto. pose proof PI_RGT_0. assert (0 < INR (S d)) by (apply lt_0_INR; lia). apply Rgt_not_eq. apply Rdiv_lt_0_compat; [|apply gpos; auto; lra]. unfold Rpower. pose proof (exp_pos (INR (S d) / 2 * ln PI)). lra.
Qed.
Print Assumptions C137_uniform.

(** ** Power spherical *)
Lemma made_scale g loc scale p : make_power g loc scale = Some p -> 0 < p_scale p /\ p_loc p = match loc with None => [1; 0; 0] | Some l => l end /\ p_scale p = match scale with None => 1 | Some s => s end /\
  p_zinv p = 1 / (Rpower 2 ((INR (length (p_loc p)) - 1) / 2 + p_scale p + (INR (length (p_loc p)) - 1) / 2) * Rpower PI ((INR (length (p_loc p)) - 1) / 2) * g ((INR (length (p_loc p)) - 1) / 2 + p_scale p) / g ((INR (length (p_loc p)) - 1) / 2 + p_scale p + (INR (length (p_loc p)) - 1) / 2)).
Proof.
  unfold make_power. intros H. set (l := match loc with None => _ | Some _ => _ end) in *. destruct scale as [s|].
  - destruct (Rlt_dec 0 s); [|discriminate]. cbn [bind] in H. destruct (Rlt_dec _ _); [discriminate|]. assert (E := f_equal (fun o => match o with Some q => q | None => p end) H). cbn in E. subst p. cbn [p_loc p_scale p_zinv]. auto.
  - cbn [bind] in H. destruct (Rlt_dec _ _); [discriminate|]. assert (E := f_equal (fun o => match o with Some q => q | None => p end) H). cbn in E. subst p. cbn [p_loc p_scale p_zinv]. repeat split; auto; lra.
Qed.
Lemma sphere_closed g d : gamma_ok g -> (1 <= d)%nat -> sphere_area d = 2 * Rpower PI (INR d / 2) / g (INR d / 2).
Proof. intros OK Hd. rewrite <- uniform_closed by auto. destruct d; [lia|]. symmetry. now apply uniform_sphere. Qed.
Lemma rp_mult x y s : 0 < x -> 0 < y -> Rpower (x * y) s = Rpower x s * Rpower y s.
Proof. intros Hx Hy. unfold Rpower. rewrite ln_mult, Rmult_plus_distr_l, exp_plus; auto. Qed.
Lemma rp_pos x s : 0 < Rpower x s.
Proof. apply exp_pos. Qed.
(** The density is that of the samples: the sum over the sphere of the directions at the same height over the location is the
    density of the heights drawn by the generator, twice a beta number minus one. *)
Theorem C137_samples : forall gamma loc scale p x, gamma_ok gamma -> make_power gamma loc scale = Some p -> (2 <= length (p_loc p))%nat -> length x = length (p_loc p) ->
  let d := length (p_loc p) in let t := dot x (p_loc p) in -1 < t < 1 ->
  exists v, power_pdf p x = Some v /\ v * (sphere_area (d - 1) * Rpower (1 - t * t) ((INR d - 3) / 2)) = beta_density gamma (beta_parameters d (p_scale p)) ((t + 1) / 2) / 2.
Proof.
  intros g loc scale p x OK HM Hd Hx d t Ht. destruct (made_scale g loc scale p HM) as (SP & _ & _ & EZ). fold d in EZ. unfold power_pdf. rewrite Hx, Nat.eqb_refl. fold t. unfold npow. destruct (Rlt_dec 0 (1 + t)) as [_|N]; [|lra]. cbn [bind]. eexists. split; [reflexivity|].
  set (k := p_scale p) in *. set (b := (INR d - 1) / 2) in *. assert (Hb : 0 < b) by (unfold b; assert (INR 2 <= INR d) by (apply le_INR; exact Hd); cbn in *; lra).
  rewrite (sphere_closed g (d - 1) OK) by lia. rewrite minus_INR by lia. change (INR 1) with 1. fold b. replace ((INR d - 3) / 2) with (b - 1) by (unfold b; lra). unfold beta_density, beta_parameters. fold b. cbn [fst snd].
  replace (1 - t * t) with ((1 + t) * (1 - t)) by ring. rewrite rp_mult by lra. replace (1 - (t + 1) / 2) with ((1 - t) * / 2) by lra. replace ((t + 1) / 2) with ((1 + t) * / 2) by lra. rewrite !rp_mult by lra. rewrite EZ.
  assert (P2 : forall s, Rpower (/ 2) s = / Rpower 2 s) by (intros s; unfold Rpower; rewrite ln_Rinv by lra; replace (s * - ln 2) with (- (s * ln 2)) by ring; apply exp_Ropp). rewrite !P2.
  replace (b + k + b) with ((b + k - 1) + ((b - 1) + 1 + 1)) by ring. rewrite !(Rpower_plus _ _ 2), Rpower_1 by lra. replace (b + k - 1) with (k + (b - 1)) by ring. rewrite (Rpower_plus k (b - 1) (1 + t)).
  replace (k + (b - 1) + (b - 1 + 1 + 1)) with (b + k + b) by ring.
  assert (0 < g (b + k)) by (apply gpos; auto; lra). assert (0 < g b) by (apply gpos; auto). assert (0 < g (b + k + b)) by (apply gpos; auto; lra). pose proof (rp_pos PI b). pose proof (rp_pos 2 (b - 1)). pose proof (rp_pos 2 (k + (b - 1))). rewrite (Rpower_plus k (b - 1) 2) in *.  pose proof (rp_pos 2 k). field. repeat split; lra.
Qed.
Print Assumptions C137_samples.
(** The density grows with the cosine of the angle to the location. *)
Theorem C137_mode : forall gamma loc scale p x y, gamma_ok gamma -> make_power gamma loc scale = Some p -> (2 <= length (p_loc p))%nat -> length x = length (p_loc p) -> length y = length (p_loc p) -> -1 <= dot x (p_loc p) < dot y (p_loc p) ->
  exists v w, power_pdf p x = Some v /\ power_pdf p y = Some w /\ 0 <= v < w.
Proof.
  intros g loc scale p x y OK HM Hd Hx Hy Hxy. destruct (made_scale g loc scale p HM) as (SP & _ & _ & EZ). set (b := (INR _ - 1) / 2) in *. set (k := p_scale p) in *. assert (Hb : 0 < b) by (unfold b; assert (INR 2 <= INR (length (p_loc p))) by (apply le_INR; exact Hd); cbn in *; lra).
  assert (PZ : 0 < p_zinv p). { rewrite EZ. apply Rdiv_lt_0_compat; [lra|]. apply Rdiv_lt_0_compat; [|apply gpos; auto; lra]. apply Rmult_lt_0_compat; [|apply gpos; auto; lra]. apply Rmult_lt_0_compat; apply rp_pos. }
  unfold power_pdf. rewrite Hx, Hy, Nat.eqb_refl. fold k. set (s := dot x _) in *. set (t := dot y _) in *.
  assert (Et : npow (1 + t) k = Some (Rpower (1 + t) k)) by (unfold npow; destruct (Rlt_dec 0 (1 + t)); [reflexivity|lra]). rewrite Et. cbn [bind]. destruct (Rle_lt_or_eq_dec (-1) s) as [L|E]; [lra| |].
  - unfold npow. destruct (Rlt_dec 0 (1 + s)); [|lra]. cbn [bind]. do 2 eexists. split; [reflexivity|]. split; [reflexivity|]. pose proof (rp_pos (1 + s) k). split; [apply Rmult_le_pos; lra|]. apply Rmult_lt_compat_l; auto. unfold Rpower. apply exp_increasing. apply Rmult_lt_compat_l; auto. apply ln_increasing; lra.
  - unfold npow. destruct (Rlt_dec 0 (1 + s)); [lra|]. destruct (Req_EM_T (1 + s) 0); [|lra]. destruct (Rlt_dec 0 k); [|contradiction]. cbn [bind]. do 2 eexists. split; [reflexivity|]. split; [reflexivity|]. pose proof (rp_pos (1 + t) k). rewrite Rmult_0_r. split; [lra|]. now apply Rmult_lt_0_compat.
Qed.
Print Assumptions C137_mode.

(** ** Total in three dimensions *)
Definition val (o : option R) : R := match o with Some v => v | None => 0 end.
Definition pw (y s : R) : R := if Rlt_dec 0 y then Rpower y s else 0.
Lemma abs_sin x : Rabs (sin x) <= Rabs x.
Proof.
  assert (H : forall y, 0 <= y -> Rabs (sin y) <= y).
  { intros y Hy. destruct (Rle_lt_or_eq_dec 0 y Hy) as [L|<-]; [|rewrite sin_0, Rabs_R0; lra]. pose proof (sin_lt_x y L). destruct (Rle_dec y PI) as [A|A]; [rewrite Rabs_pos_eq; [lra|apply sin_ge_0; lra]|]. pose proof (SIN_bound y). pose proof PI2_3_2. apply Rabs_le. lra. }
  destruct (Rle_dec 0 x) as [A|A]; [rewrite (Rabs_pos_eq x) by auto; auto|]. replace (Rabs (sin x)) with (Rabs (sin (- x))) by (rewrite sin_neg; apply Rabs_Ropp). rewrite (Rabs_left x) by lra. apply H. lra.
Qed.
Lemma one_cos h : 0 <= 1 - cos h <= h * h / 2.
Proof.
  replace h with (2 * (h / 2)) at 1 2 by lra. rewrite cos_2a_sin. pose proof (abs_sin (h / 2)) as A. pose proof (Rabs_pos (sin (h / 2))). assert (sin (h / 2) * sin (h / 2) = Rabs (sin (h / 2)) * Rabs (sin (h / 2))) by (rewrite <- Rabs_mult; symmetry; apply Rabs_pos_eq, Rle_0_sqr). assert (h / 2 * (h / 2) = Rabs (h / 2) * Rabs (h / 2)) by (rewrite <- Rabs_mult; symmetry; apply Rabs_pos_eq, Rle_0_sqr). nra.
Qed.
Lemma pw_bound y s : 0 <= y <= 1 -> 0 <= s -> 0 <= pw y s <= 1 /\ pw y (s + 1) <= y.
Proof.
  intros Hy Hs. unfold pw. destruct (Rlt_dec 0 y); [|split; lra]. pose proof (rp_pos y s). assert (Rpower y s <= 1). { unfold Rpower. rewrite <- exp_0. assert (L : ln y <= 0) by (rewrite <- ln_1; destruct (Rle_lt_or_eq_dec y 1) as [K| ->]; [lra| |lra]; left; apply ln_increasing; lra). destruct (Rle_lt_or_eq_dec (s * ln y) 0) as [K|K]; [nra|left; now apply exp_increasing|rewrite K; lra]. }
  split; [lra|]. rewrite Rpower_plus, Rpower_1 by auto. nra.
Qed.
Lemma cos_near h : cos (PI + h) = - cos h.
Proof. rewrite Rplus_comm. apply neg_cos. Qed.
Section total.
Variable k : R.
Hypothesis K : 0 < k.
Notation q := (fun x => pw (1 + cos x) (k + 1)).
Notation q' := (fun x => pw (1 + cos x) k * sin x).
Lemma pos_near x : 0 < 1 + cos x -> locally x (fun y => 0 < 1 + cos y).
Proof. intros H. assert (C0 : continuous (fun y => 1 + cos y) x) by (apply (ex_derive_continuous (fun y => 1 + cos y)); auto_derive; auto). exact (C0 (fun z => 0 < z) (open_gt 0 _ H)). Qed.
Lemma q_derive_in x : 0 < 1 + cos x -> is_derive q x (- (k + 1) * q' x).
Proof.
  intros H. apply (is_derive_ext_loc (fun y => exp ((k + 1) * ln (1 + cos y)))).
  - generalize (pos_near x H). apply filter_imp. intros y Hy. unfold pw. destruct (Rlt_dec 0 (1 + cos y)); [reflexivity|contradiction].
  - auto_derive; [lra|]. cbn beta. unfold pw. destruct (Rlt_dec 0 (1 + cos x)); [|contradiction]. unfold Rpower. replace ((k + 1) * ln (1 + cos x)) with (k * ln (1 + cos x) + ln (1 + cos x)) by ring. rewrite exp_plus, exp_ln by auto. field. lra.
Qed.
Lemma q_derive_end : is_derive q PI (- (k + 1) * q' PI).
Proof.
  cbn beta. rewrite sin_PI, !Rmult_0_r. apply is_derive_Reals. intros eps He. assert (D : 0 < Rmin 1 eps) by (apply Rmin_pos; lra). exists (mkposreal _ D). cbn. intros h Hh Hd. assert (H1 : Rabs h < 1) by (eapply Rlt_le_trans; [exact Hd|apply Rmin_l]). assert (H2 : Rabs h < eps) by (eapply Rlt_le_trans; [exact Hd|apply Rmin_r]).
  rewrite cos_near, cos_PI. unfold pw at 2. destruct (Rlt_dec 0 (1 + -1)); [lra|]. pose proof (one_cos h) as O. assert (HH : h * h = Rabs h * Rabs h) by (rewrite <- Rabs_mult; symmetry; apply Rabs_pos_eq, Rle_0_sqr). pose proof (Rabs_pos_lt h Hh) as HP.
  destruct (pw_bound (1 + - cos h) k) as [B1 B2]; [nra|lra|]. assert (B3 : 0 <= pw (1 + - cos h) (k + 1)) by (unfold pw; destruct (Rlt_dec _ _); [left; apply rp_pos|lra]).
  replace ((pw (1 + - cos h) (k + 1) - 0) / h - 0) with (pw (1 + - cos h) (k + 1) / h) by (field; auto). unfold Rdiv. rewrite Rabs_mult, Rabs_inv, (Rabs_pos_eq _ B3). apply Rle_lt_trans with (Rabs h); [|exact H2]. apply Rmult_le_reg_r with (Rabs h); auto. rewrite Rmult_assoc, Rinv_l by lra. nra.
Qed.
Lemma q'_cont_in x : 0 < 1 + cos x -> continuous q' x.
Proof.
  intros H. apply (continuous_ext_loc q' (fun y => exp (k * ln (1 + cos y)) * sin y)).
  - generalize (pos_near x H). apply filter_imp. intros y Hy. unfold pw. destruct (Rlt_dec 0 (1 + cos y)); [reflexivity|contradiction].
  - apply (ex_derive_continuous (fun y => exp (k * ln (1 + cos y)) * sin y)). auto_derive. lra.
Qed.
Lemma q'_cont_end : continuous q' PI.
Proof.
  apply continuity_pt_filterlim. intros eps He. assert (D : 0 < Rmin 1 eps) by (apply Rmin_pos; lra). exists (Rmin 1 eps). split; [exact D|]. intros x [_ Hx]. cbn in *. unfold R_dist in *. rewrite sin_PI, Rmult_0_r, Rminus_0_r. replace x with (PI + (x - PI)) by ring. set (h := x - PI) in *.
  assert (H1 : Rabs h < 1) by (eapply Rlt_le_trans; [exact Hx|apply Rmin_l]). assert (H2 : Rabs h < eps) by (eapply Rlt_le_trans; [exact Hx|apply Rmin_r]). rewrite cos_near. pose proof (one_cos h) as O. assert (HH : h * h = Rabs h * Rabs h) by (rewrite <- Rabs_mult; symmetry; apply Rabs_pos_eq, Rle_0_sqr). pose proof (Rabs_pos h).
  destruct (pw_bound (1 + - cos h) k) as [B1 _]; [nra|lra|]. rewrite Rabs_mult, (Rabs_pos_eq (pw _ _)) by lra. rewrite (Rplus_comm PI), neg_sin, Rabs_Ropp. pose proof (abs_sin h). pose proof (Rabs_pos (sin h)). nra.
Qed.
Lemma pos_before x : 0 <= x <= PI -> x <> PI -> 0 < 1 + cos x.
Proof. intros Hx N. assert (cos PI < cos x) by (apply cos_decreasing_1; lra). rewrite cos_PI in *. lra. Qed.
Lemma q_integral : is_RInt q' 0 PI (Rpower 2 (k + 1) / (k + 1)).
Proof.
  pose proof PI_RGT_0 as PP. replace (Rpower 2 (k + 1) / (k + 1)) with (minus (- / (k + 1) * q PI) (- / (k + 1) * q 0)).
  2:{ cbn beta. rewrite cos_PI, cos_0. unfold pw. destruct (Rlt_dec 0 (1 + -1)); [lra|]. destruct (Rlt_dec 0 (1 + 1)); [|lra]. replace (1 + 1) with 2 by lra. unfold minus, plus, opp. cbn. field. lra. }
  apply (is_RInt_derive (fun x => - / (k + 1) * q x)); intros x Hx; rewrite Rmin_left, Rmax_right in Hx by lra.
  - apply (is_derive_ext (fun x => scal (- / (k + 1)) (q x))); [reflexivity|]. replace (q' x) with (scal (- / (k + 1)) (- (k + 1) * q' x)) by (unfold scal; cbn; unfold mult; cbn; field; lra). apply (is_derive_scal q). destruct (Req_EM_T x PI) as [->|N]; [apply q_derive_end|apply q_derive_in, pos_before; auto].
  - destruct (Req_EM_T x PI) as [->|N]; [apply q'_cont_end|apply q'_cont_in, pos_before; auto].
Qed.
End total.
Lemma around_dot c u v theta phi : frame c u v -> dot (around c u v theta phi) c = cos theta /\ length (around c u v theta phi) = 3%nat.
Proof.
  intros (L1 & L2 & L3 & C1 & _ & _ & CU & CV & _). destruct c as [|x [|y [|z [|]]]]; try discriminate. destruct u as [|x' [|y' [|z' [|]]]]; try discriminate. destruct v as [|x'' [|y'' [|z'' [|]]]]; try discriminate. split; [|reflexivity]. unfold around, dot, vadd, vscal, Rsum, map2 in *. cbn in *.
  transitivity (cos theta * (x * x + (y * y + (z * z + 0))) + sin theta * (cos phi * (x * x' + (y * y' + (z * z' + 0))) + sin phi * (x * x'' + (y * y'' + (z * z'' + 0))))); [ring|]. rewrite C1, CU, CV. ring.
Qed.
(** In three dimensions the density integrates to one over the sphere. *)
Theorem C137_total : forall gamma c scale p u v, gamma_ok gamma -> make_power gamma (Some c) scale = Some p -> frame c u v ->
  (forall theta phi, power_pdf p (around c u v theta phi) <> None) /\
  is_RInt (fun theta => RInt (fun phi => val (power_pdf p (around c u v theta phi)) * sin theta) 0 (2 * PI)) 0 PI 1.
Proof.
  intros g c scale p u v OK HM HF. destruct (made_scale g (Some c) scale p HM) as (SP & EL & _ & EZ). rewrite EL in EZ. assert (L : length c = 3%nat) by apply HF. rewrite L in EZ. set (k := p_scale p) in *. pose proof PI_RGT_0 as PP.
  replace ((INR 3 - 1) / 2) with 1 in EZ by (cbn; lra). assert (G : g (1 + k + 1) = (1 + k) * g (1 + k)) by (apply OK; lra). rewrite G, Rpower_1 in EZ by auto. assert (GP : 0 < g (1 + k)) by (apply gpos; auto; lra).
  assert (PW : forall theta phi, power_pdf p (around c u v theta phi) = Some (p_zinv p * pw (1 + cos theta) k)).
  { intros theta phi. destruct (around_dot c u v theta phi HF) as [E1 E2]. unfold power_pdf. rewrite EL, E2, L, E1. cbn [Nat.eqb]. unfold npow, pw. fold k. destruct (Rlt_dec 0 (1 + cos theta)); [reflexivity|]. pose proof (COS_bound theta). destruct (Req_EM_T (1 + cos theta) 0); [|lra]. destruct (Rlt_dec 0 k); [reflexivity|contradiction]. }
  split; [intros theta phi; rewrite PW; discriminate|].
  apply (is_RInt_ext (fun theta => scal (2 * PI * p_zinv p) (pw (1 + cos theta) k * sin theta))).
  { intros theta _. rewrite (RInt_ext _ (fun _ => p_zinv p * pw (1 + cos theta) k * sin theta)) by (intros; now rewrite PW). rewrite RInt_const. unfold scal. cbn. unfold mult. cbn. ring. }
  assert (T : scal (2 * PI * p_zinv p) (Rpower 2 (k + 1) / (k + 1)) = 1).
  { unfold scal. cbn. unfold mult. cbn. rewrite EZ. replace (1 + k + 1) with ((k + 1) + 1) by ring. rewrite (Rpower_plus (k + 1) 1 2), (Rpower_1 2) by lra. pose proof (rp_pos 2 (k + 1)). field. repeat split; lra. }
  assert (I := is_RInt_scal (fun theta => pw (1 + cos theta) k * sin theta) 0 PI (2 * PI * p_zinv p) _ (q_integral k SP)). exact (eq_ind _ (fun r => is_RInt _ 0 PI r) I _ T).
Qed.
Print Assumptions C137_total.
(** a function that has the properties used of gamma *)
Definition gbase (f : R) : R := if Req_EM_T f (1 / 2) then sqrt PI else 1.
Fixpoint gprod (x : R) (n : nat) : R := match n with O => gbase x | S m => (x - 1) * gprod (x - 1) m end.
Definition gamma_ex (x : R) : R := gprod x (Z.to_nat (- up (- x))).
Lemma gamma_ex_ok : gamma_ok gamma_ex.
Proof.
  assert (GP : forall n x, INR n < x -> 0 < gprod x n).
  { induction n as [|n IH]; intros x Hx; cbn [gprod]. - unfold gbase. destruct (Req_EM_T _ _); [apply sqrt_lt_R0, PI_RGT_0|lra]. - rewrite S_INR in Hx. apply Rmult_lt_0_compat; [pose proof (pos_INR n); lra|]. apply IH. lra. }
  assert (U : forall x, 0 < x -> (0 <= - up (- x))%Z /\ IZR (up (- x)) > - x /\ IZR (up (- x)) <= - x + 1).
  { intros x Hx. destruct (archimed (- x)) as [A B]. split; [|lra]. assert (IZR (up (- x)) < 1) by lra. apply lt_IZR in H. lia. }
  split; [|split; [|split]].
  - intros x Hx. destruct (U x Hx) as (A & B & _). apply GP. rewrite INR_IZR_INZ, Z2Nat.id by exact A. rewrite opp_IZR. lra.
  - intros x Hx. destruct (U x Hx) as (A & B & D). unfold gamma_ex. assert (E : (up (- x) - 1)%Z = up (- (x + 1))) by (apply tech_up; rewrite minus_IZR; lra). rewrite <- E. replace (Z.to_nat (- (up (- x) - 1))) with (S (Z.to_nat (- up (- x)))) by lia. cbn [gprod]. now replace (x + 1 - 1) with x by ring.
  - unfold gamma_ex. replace (up (- (1))) with 0%Z by (apply tech_up; lra). cbn. unfold gbase. destruct (Req_EM_T 1 (1 / 2)); lra.
  - unfold gamma_ex. replace (up (- (1 / 2))) with 0%Z by (apply tech_up; lra). cbn. unfold gbase. destruct (Req_EM_T (1 / 2) (1 / 2)); lra.
Qed.
(** The location may differ from a unit vector by the tolerance; opposite to it the density is then negative. *)
Theorem C137_negative_refuted : exists gamma loc p x v, gamma_ok gamma /\ make_power gamma (Some loc) None = Some p /\ dot x x = 1 /\ power_pdf p x = Some v /\ v < 0.
Proof.
  set (l := 1 + 1 / 1000000). assert (N : vnorm [l; 0; 0] = l). { unfold vnorm, vsq, dot. cbn. replace (l * l + (0 * 0 + (0 * 0 + 0))) with (l * l) by ring. apply sqrt_square. unfold l. lra. }
  destruct (make_power gamma_ex (Some [l; 0; 0]) None) as [p|] eqn:E.
  2:{ exfalso. unfold make_power in E. cbn [bind] in E. rewrite N in E. destruct (Rlt_dec _ _) as [A|]; [|discriminate]. unfold l in A. rewrite Rabs_pos_eq in A; lra. }
  destruct (made_scale _ _ _ _ E) as (SP & EL & ES & EZ). exists gamma_ex, [l; 0; 0], p, [-1; 0; 0]. eexists. split; [apply gamma_ex_ok|]. split; [exact E|]. split; [unfold dot; cbn; ring|].
  unfold power_pdf. rewrite EL, ES. cbn [length Nat.eqb]. replace (dot [-1; 0; 0] [l; 0; 0]) with (- l) by (unfold dot; cbn; ring). unfold npow. destruct (Rlt_dec 0 (1 + - l)) as [A|_]; [unfold l in A; lra|]. destruct (Req_EM_T (1 + - l) 0) as [A|_]; [unfold l in A; lra|].
  assert (I1 : Int_part 1 = 1%Z) by (unfold Int_part; replace (up 1) with 2%Z by (apply tech_up; lra); reflexivity). rewrite I1. destruct (Req_EM_T 1 1); [|lra]. cbn [bind]. split; [reflexivity|].
  assert (PZ : 0 < p_zinv p). { rewrite EZ, EL, ES. cbn [length]. replace ((INR 3 - 1) / 2) with 1 by (cbn; lra). pose proof (gpos gamma_ex (1 + 1) gamma_ex_ok ltac:(lra)). pose proof (gpos gamma_ex (1 + 1 + 1) gamma_ex_ok ltac:(lra)). apply Rdiv_lt_0_compat; [lra|]. apply Rdiv_lt_0_compat; auto. apply Rmult_lt_0_compat; auto. apply Rmult_lt_0_compat; apply rp_pos. }
  cbn [powerRZ Pos.to_nat Pos.iter_op pow]. change (Pos.to_nat 1) with 1%nat. cbn [pow]. unfold l. nra.
Qed.
Print Assumptions C137_negative_refuted.

(** ** Cases *)
Example C137_uniform_case : uniform_pdf gamma_ex 3 [0; 0; 1] * (4 * PI) = 1.
Proof. pose proof (C137_uniform gamma_ex 3 [0; 0; 1] gamma_ex_ok ltac:(lia)) as H. cbn [sphere_area] in H. rewrite <- H. f_equal. cbn. field. Qed.
Lemma case_power : exists p, make_power gamma_ex (Some [0; 0; 1]) (Some (5 / 2)) = Some p /\ p_loc p = [0; 0; 1] /\ p_scale p = 5 / 2.
Proof.
  unfold make_power. destruct (Rlt_dec 0 (5 / 2)); [|lra]. cbn [bind]. assert (N : vnorm [0; 0; 1] = 1) by (unfold vnorm, vsq, dot; cbn; replace (0 * 0 + (0 * 0 + (1 * 1 + 0))) with 1 by ring; apply sqrt_1). rewrite N. replace (1 - 1) with 0 by ring. rewrite Rabs_R0. destruct (Rlt_dec _ _); [lra|]. eexists. split; [reflexivity|]. split; reflexivity.
Qed.
Example C137_case : exists p, make_power gamma_ex (Some [0; 0; 1]) (Some (5 / 2)) = Some p /\
  is_RInt (fun theta => RInt (fun phi => val (power_pdf p (around [0; 0; 1] [1; 0; 0] [0; 1; 0] theta phi)) * sin theta) 0 (2 * PI)) 0 PI 1 /\
  (exists v, power_pdf p [1; 0; 0] = Some v /\ v * (sphere_area 2 * Rpower (1 - 0 * 0) ((INR 3 - 3) / 2)) = beta_density gamma_ex (7 / 2, 1) (1 / 2) / 2) /\
  exists v w, power_pdf p [0; 0; -1] = Some v /\ power_pdf p [1; 0; 0] = Some w /\ 0 <= v < w.
Proof.
  destruct case_power as (p & E & EL & ES). exists p. split; [exact E|].
  assert (F : frame [0; 0; 1] [1; 0; 0] [0; 1; 0]) by (repeat split; unfold dot; cbn; ring). destruct (C137_total _ _ _ p _ _ gamma_ex_ok E F) as [_ T]. split; [exact T|]. split.
  - assert (D0 : dot [1; 0; 0] [0; 0; 1] = 0) by (unfold dot; cbn; ring). destruct (C137_samples gamma_ex _ _ p [1; 0; 0] gamma_ex_ok E) as (v & Ev & Hv); rewrite ?EL, ?D0; cbn [length]; try lia; try lra. exists v. split; [exact Ev|]. rewrite EL, ES, D0 in Hv. cbn [length Nat.sub] in Hv. rewrite Hv. unfold beta_parameters. replace ((0 + 1) / 2) with (1 / 2) by lra. replace ((INR 3 - 1) / 2 + 5 / 2) with (7 / 2) by (cbn; lra). now replace ((INR 3 - 1) / 2) with 1 by (cbn; lra).
  - apply (C137_mode gamma_ex _ _ p _ _ gamma_ex_ok E); rewrite EL; cbn [length]; try lia. unfold dot. cbn. lra.
Qed.
