(** Mel scale, Sabine and Eyring formulas (C49-C51). *)
From Coq Require Import List ZArith Lia Reals Lra R_Ifp.
From Verif Require Import Base BaseProofs Vec ReverbModel.
Import ListNotations.
Local Open Scope R_scope.

(** ** C49: mel scale *)
Theorem C49_mel_inverse : forall f b, - 700 < f -> invmelscale (melscale f) = f /\ melscale (invmelscale b) = b.
Proof.
  intros f b Hf. unfold invmelscale, melscale. split.
  - replace (1125 * ln (1 + f / 700) / 1125) with (ln (1 + f / 700)) by field. rewrite exp_ln by lra. field.
  - replace (1 + 700 * (exp (b / 1125) - 1) / 700) with (exp (b / 1125)) by field. rewrite ln_exp. field.
Qed.
Print Assumptions C49_mel_inverse.
Theorem C49_mel_increasing : forall f g, - 700 < f -> f < g -> melscale f < melscale g.
Proof. intros f g Hf H. unfold melscale. apply Rmult_lt_compat_l; [lra|]. apply ln_increasing; lra. Qed.
Print Assumptions C49_mel_increasing.
Theorem C49_invmel_increasing : forall a b, a < b -> invmelscale a < invmelscale b /\ - 700 < invmelscale a.
Proof.
  intros a b H. unfold invmelscale. assert (exp (a / 1125) < exp (b / 1125)) by (apply exp_increasing; lra). pose proof (exp_pos (a / 1125)). split; lra.
Qed.
Print Assumptions C49_invmel_increasing.
Example C49_case : melscale 0 = 0 /\ 0 < melscale 700.
Proof.
  split; [unfold melscale; replace (1 + 0 / 700) with 1 by field; rewrite ln_1; ring|].
  assert (E : melscale 0 = 0) by (unfold melscale; replace (1 + 0 / 700) with 1 by field; rewrite ln_1; ring). rewrite <- E. apply C49_mel_increasing; lra.
Qed.

(** ** C50: from a reverberation time to an absorption and back *)
Lemma ceil_spec : forall x, x <= IZR (ceil x) < x + 1.
Proof. intros x. unfold ceil. destruct (base_Int_part (- x)) as [H1 H2]. rewrite opp_IZR. lra. Qed.
Lemma ln10_pos : 0 < ln 10.
Proof. rewrite <- ln_1. apply ln_increasing; lra. Qed.
Definition volume (l1 l2 l3 : R) : R := l1 * l2 * l3.
Definition surface (l1 l2 l3 : R) : R := 2 * (l1 * l2 + l1 * l3 + l2 * l3).
Theorem C50_round_trip : forall rt60 l1 l2 l3 c a k, 0 < rt60 -> 0 < l1 -> 0 < l2 -> 0 < l3 -> 0 < c ->
  inverse_sabine rt60 [l1; l2; l3] c = Some (a, k) ->
  rt60_sabine (surface l1 l2 l3) (volume l1 l2 l3) a 0 c = rt60 /\ 0 < a <= 1.
Proof.
  intros rt60 l1 l2 l3 c a k Hr H1 H2 H3 Hc H. unfold inverse_sabine in H. cbn [length pairs map app bind fold_right Rsum Rprod] in H.
  destruct (Rlt_dec 1 _) as [|Hn]; [discriminate|]. injection H as Ha _.
  assert (P12 : 0 < l1 * l2) by now apply Rmult_lt_0_compat. assert (P13 : 0 < l1 * l3) by now apply Rmult_lt_0_compat. assert (P23 : 0 < l2 * l3) by now apply Rmult_lt_0_compat.
  assert (HS : 0 < surface l1 l2 l3) by (unfold surface; lra). assert (HV : 0 < volume l1 l2 l3) by (unfold volume; apply Rmult_lt_0_compat; auto).
  assert (Ea : a = 24 * ln 10 * volume l1 l2 l3 / (c * surface l1 l2 l3 * rt60)).
  { rewrite <- Ha. unfold volume, surface. cbn. f_equal; [ring|]. f_equal. ring. }
  assert (Hpos : 0 < a). { rewrite Ea. apply Rdiv_lt_0_compat; repeat apply Rmult_lt_0_compat; auto using ln10_pos; lra. }
  split; [|split; auto; rewrite <- Ha; cbn in *; lra].
  unfold rt60_sabine. rewrite Rmult_0_r, Rmult_0_l, Rplus_0_r. rewrite Ea. pose proof ln10_pos. field. repeat split; lra.
Qed.
Print Assumptions C50_round_trip.
(** A target is rejected exactly when the absorption would have to exceed one. *)
Theorem C50_rejects : forall rt60 l1 l2 l3 c, 0 < rt60 -> 0 < l1 -> 0 < l2 -> 0 < l3 -> 0 < c ->
  (inverse_sabine rt60 [l1; l2; l3] c = None <-> rt60 < rt60_sabine (surface l1 l2 l3) (volume l1 l2 l3) 1 0 c).
Proof.
  intros rt60 l1 l2 l3 c Hr H1 H2 H3 Hc.
  assert (P12 : 0 < l1 * l2) by now apply Rmult_lt_0_compat. assert (P13 : 0 < l1 * l3) by now apply Rmult_lt_0_compat. assert (P23 : 0 < l2 * l3) by now apply Rmult_lt_0_compat.
  assert (HS : 0 < surface l1 l2 l3) by (unfold surface; lra). assert (HV : 0 < volume l1 l2 l3) by (unfold volume; apply Rmult_lt_0_compat; auto).
  set (e := 24 * ln 10 * volume l1 l2 l3 / (c * surface l1 l2 l3 * rt60)).
  assert (Es : rt60_sabine (surface l1 l2 l3) (volume l1 l2 l3) 1 0 c = e * rt60).
  { unfold rt60_sabine, e. rewrite Rmult_0_r, Rmult_0_l, Rplus_0_r, Rmult_1_l. field. repeat split; lra. }
  unfold inverse_sabine. cbn [length pairs map app bind fold_right Rsum Rprod].
  assert (Ee : forall v s, v = volume l1 l2 l3 -> s = surface l1 l2 l3 -> 24 * ln 10 * v / (c * s * rt60) = e) by (intros; subst; reflexivity).
  match goal with |- context [Rlt_dec 1 ?t] => replace t with e end.
  2: { symmetry. apply Ee; unfold volume, surface; cbn; ring. }
  rewrite Es. destruct (Rlt_dec 1 e) as [H|H].
  - split; auto. intros _. rewrite <- (Rmult_1_l rt60) at 1. apply Rmult_lt_compat_r; auto.
  - split; [discriminate|]. intros G. exfalso. apply H. apply Rmult_lt_reg_r with rt60; auto. now rewrite Rmult_1_l.
Qed.
Print Assumptions C50_rejects.
(** Bounds on the constant of Sabine's formula. *)
Lemma exp_pow : forall n x, exp x ^ n = exp (INR n * x).
Proof. induction n; intros x; [cbn; now rewrite Rmult_0_l, exp_0|]. cbn [pow]. rewrite IHn, <- exp_plus, S_INR. f_equal. ring. Qed.
Lemma ln10_le : ln 10 <= 2.6.
Proof.
  assert (H : 10 < exp 2.6).
  { replace 2.6 with (INR 26 * 0.1) by (cbn; lra). rewrite <- exp_pow. apply Rlt_le_trans with (1.1 ^ 26); [lra|].
    apply pow_incr. pose proof (exp_ineq1 0.1 ltac:(lra)). lra. }
  rewrite <- (ln_exp 2.6). left. apply ln_increasing; lra.
Qed.
(** In a plane the absorption found does not give the target back, but twice the target. *)
Theorem C50_plane_refuted : exists rt60 l1 l2 c a k, inverse_sabine rt60 [l1; l2] c = Some (a, k) /\ 0 < rt60 /\ 0 < l1 /\ 0 < l2 /\ 0 < c /\
  rt60_sabine (2 * (l1 + l2)) (l1 * l2) a 0 c = 2 * rt60.
Proof.
  pose proof ln10_pos. exists (6 * ln 10), 1, 1, 1. unfold inverse_sabine. cbn [length pairs map app bind fold_right Rsum Rprod].
  match goal with |- context [Rlt_dec 1 ?t] => replace t with (/ 2) by (cbn; field; lra) end.
  destruct (Rlt_dec 1 (/ 2)); [lra|]. do 2 eexists. split; [reflexivity|]. repeat split; try lra. unfold rt60_sabine. cbn. field.
Qed.
Print Assumptions C50_plane_refuted.

(** In a plane, every image of the centre beyond the order returned is at least as far as sound
    travels in the target time: a room image [(n1, n2)] is displaced by [(n1 l1, n2 l2)] and has order
    [|n1| + |n2|]. *)
Theorem C50_order_plane : forall rt60 l1 l2 c a k n1 n2, 0 < rt60 -> 0 < l1 -> 0 < l2 -> 0 < c ->
  inverse_sabine rt60 [l1; l2] c = Some (a, k) -> (k < Z.abs n1 + Z.abs n2)%Z ->
  c * rt60 <= sqrt ((IZR n1 * l1)² + (IZR n2 * l2)²).
Proof.
  intros rt60 l1 l2 c a k n1 n2 Hr H1 H2 Hc H Hk. unfold inverse_sabine in H. cbn [length pairs map app bind fold_right Rsum Rprod] in H.
  destruct (Rlt_dec 1 _) as [|Hn]; [discriminate|]. injection H as _ Ek. cbn [Rmin_list fold_right] in Ek.
  set (D := sqrt (l1 * l1 + l2 * l2)) in *.
  assert (P12 : 0 < l1 * l2) by now apply Rmult_lt_0_compat. assert (HDD : D * D = l1 * l1 + l2 * l2) by (apply sqrt_sqrt; nra). assert (HD : 0 < D) by (apply sqrt_lt_R0; nra).
  pose proof (ceil_spec (c * rt60 / (l1 * l2 / D) - 1)) as [Hcl _]. rewrite Ek in Hcl.
  set (N := (Z.abs n1 + Z.abs n2)%Z) in *. assert (HN : IZR k + 1 <= IZR N) by (rewrite <- plus_IZR; apply IZR_le; lia).
  assert (Q : c * rt60 <= IZR N * (l1 * l2 / D)).
  { assert (Hq : 0 < l1 * l2 / D) by now apply Rdiv_lt_0_compat. set (q := l1 * l2 / D) in *. clearbody q.
    apply Rmult_le_reg_r with (/ q); [now apply Rinv_0_lt_compat|]. replace (IZR N * q * / q) with (IZR N) by (field; lra). unfold Rdiv in Hcl. lra. }
  apply Rle_trans with (1 := Q). apply Rsqr_incr_0_var; [|apply sqrt_pos]. rewrite Rsqr_sqrt by (apply Rplus_le_le_0_compat; apply Rle_0_sqr).
  unfold N. rewrite plus_IZR, !abs_IZR. set (u := Rabs (IZR n1)). set (v := Rabs (IZR n2)).
  assert (Eu : (IZR n1 * l1)² = (u * l1)²) by (unfold u; rewrite !Rsqr_mult; f_equal; now rewrite <- Rsqr_abs).
  assert (Ev : (IZR n2 * l2)² = (v * l2)²) by (unfold v; rewrite !Rsqr_mult; f_equal; now rewrite <- Rsqr_abs).
  rewrite Eu, Ev. clearbody u v. clear - HDD HD P12 H1 H2.
  replace (((u + v) * (l1 * l2 / D))²) with (((u + v) * (l1 * l2))² / (D * D)) by (unfold Rsqr; field; lra). rewrite HDD.
  apply Rmult_le_reg_r with (l1 * l1 + l2 * l2); [nra|]. unfold Rdiv. rewrite Rmult_assoc, Rinv_l, Rmult_1_r by nra. unfold Rsqr.
  pose proof (Rle_0_sqr (u * (l1 * l1) - v * (l2 * l2))) as Hs. unfold Rsqr in Hs. lra.
Qed.
Print Assumptions C50_order_plane.
(** In space it is not so: the diagonal images come sooner than the order allows for. *)
Theorem C50_order_space_refuted : exists rt60 l1 l2 l3 c a k n1 n2 n3, 0 < rt60 /\ 0 < l1 /\ 0 < l2 /\ 0 < l3 /\ 0 < c /\
  inverse_sabine rt60 [l1; l2; l3] c = Some (a, k) /\ (k < Z.abs n1 + Z.abs n2 + Z.abs n3)%Z /\
  sqrt ((IZR n1 * l1)² + (IZR n2 * l2)² + (IZR n3 * l3)²) < c * rt60.
Proof.
  exists 10.4, 1, 1, 1, 1. unfold inverse_sabine. cbn [length pairs map app bind fold_right Rsum Rprod].
  pose proof ln10_le. pose proof ln10_pos.
  match goal with |- context [Rlt_dec 1 ?t] => replace t with (ln 10 / 2.6) by lra end.
  destruct (Rlt_dec 1 (ln 10 / 2.6)) as [Hx|_]; [exfalso; assert (ln 10 / 2.6 <= 1) by (apply Rmult_le_reg_r with 2.6; [lra|]; unfold Rdiv; rewrite Rmult_assoc, Rinv_l; lra); lra|].
  do 2 eexists. exists 6%Z, 6%Z, 6%Z. repeat split; try lra; [|].
  - cbn [Rmin_list fold_right map]. replace (1 * 1 + 1 * 1) with 2 by ring. rewrite !Rmin_left by (try apply Rmin_glb; lra).
    assert (Hs : 1.4 < sqrt 2 < 1.42) by (split; [rewrite <- (sqrt_Rsqr 1.4) by lra|rewrite <- (sqrt_Rsqr 1.42) by lra]; apply sqrt_lt_1_alt; unfold Rsqr; lra).
    replace (1 * 10.4 / (1 * 1 / sqrt 2) - 1) with (10.4 * sqrt 2 - 1) by (field; lra).
    apply lt_IZR. pose proof (ceil_spec (10.4 * sqrt 2 - 1)). cbn. lra.
  - rewrite <- (sqrt_Rsqr (1 * 10.4)) by lra. apply sqrt_lt_1_alt. unfold Rsqr. cbn. lra.
Qed.
Print Assumptions C50_order_space_refuted.
Example C50_case : exists a k, inverse_sabine 12 [1; 1; 1] 1 = Some (a, k).
Proof.
  unfold inverse_sabine. cbn [length pairs map app bind fold_right Rsum Rprod]. pose proof ln10_le.
  match goal with |- context [Rlt_dec 1 ?t] => replace t with (ln 10 / 3) by (cbn; field) end.
  destruct (Rlt_dec 1 (ln 10 / 3)) as [Hx|_]; [lra|]. eauto.
Qed.

(** ** C51: the two reverberation time formulas *)
Lemma ln_1_minus : forall a, 0 < a < 1 -> ln (1 - a) < - a.
Proof. intros a Ha. rewrite <- (ln_exp (- a)). apply ln_increasing; [lra|]. pose proof (exp_ineq1 (- a) ltac:(lra)). lra. Qed.
Theorem C51_eyring_below_sabine : forall Sf V a c, 0 < Sf -> 0 < V -> 0 < c -> 0 < a < 1 ->
  0 < rt60_eyring Sf V a 0 c < rt60_sabine Sf V a 0 c.
Proof.
  intros Sf V a c Hs Hv Hc Ha. unfold rt60_eyring, rt60_sabine. rewrite Rmult_0_r, Rmult_0_l, !Rplus_0_r.
  pose proof (ln_1_minus a Ha) as Hl. set (L := ln (1 - a)) in *. clearbody L. pose proof ln10_pos as Ht. set (T := ln 10) in *. clearbody T.
  assert (HK : 0 < 24 * T / c * V) by (apply Rmult_lt_0_compat; [apply Rdiv_lt_0_compat|]; lra).
  replace (- (24 * T / c) * V / (Sf * L)) with (24 * T / c * V / (Sf * - L)) by (field; lra).
  assert (H1 : 0 < a * Sf) by (apply Rmult_lt_0_compat; lra). assert (H2 : 0 < Sf * - L) by (apply Rmult_lt_0_compat; lra).
  split; [apply Rdiv_lt_0_compat; auto|]. unfold Rdiv at 1 4. apply Rmult_lt_compat_l; auto. apply Rinv_lt_contravar; [now apply Rmult_lt_0_compat|]. nra.
Qed.
Print Assumptions C51_eyring_below_sabine.
(** More absorption, shorter reverberation. *)
Theorem C51_decreasing : forall Sf V a b m c, 0 < Sf -> 0 < V -> 0 < c -> 0 <= m -> 0 < a < b -> b < 1 ->
  rt60_sabine Sf V b m c < rt60_sabine Sf V a m c /\ rt60_eyring Sf V b 0 c < rt60_eyring Sf V a 0 c.
Proof.
  intros Sf V a b m c Hs Hv Hc Hm Hab Hb. unfold rt60_eyring, rt60_sabine. rewrite Rmult_0_r, Rmult_0_l, !Rplus_0_r.
  pose proof (ln_1_minus a ltac:(lra)) as Hla. assert (Hlb : ln (1 - b) < ln (1 - a)) by (apply ln_increasing; lra).
  set (La := ln (1 - a)) in *. set (Lb := ln (1 - b)) in *. clearbody La Lb. pose proof ln10_pos as Ht. set (T := ln 10) in *. clearbody T.
  assert (HK : 0 < 24 * T / c * V) by (apply Rmult_lt_0_compat; [apply Rdiv_lt_0_compat|]; lra).
  assert (HM : 0 <= 4 * m * V) by (repeat apply Rmult_le_pos; lra).
  assert (Ga : 0 < a * Sf) by (apply Rmult_lt_0_compat; lra). assert (Gab : a * Sf < b * Sf) by (apply Rmult_lt_compat_r; lra).
  split.
  - unfold Rdiv at 1 3. apply Rmult_lt_compat_l; auto. apply Rinv_lt_contravar; [apply Rmult_lt_0_compat|]; lra.
  - replace (- (24 * T / c) * V / (Sf * La)) with (24 * T / c * V / (Sf * - La)) by (field; lra).
    replace (- (24 * T / c) * V / (Sf * Lb)) with (24 * T / c * V / (Sf * - Lb)) by (field; lra).
    assert (H1 : 0 < Sf * - La) by (apply Rmult_lt_0_compat; lra). assert (H2 : Sf * - La < Sf * - Lb) by (apply Rmult_lt_compat_l; lra).
    unfold Rdiv at 1 3. apply Rmult_lt_compat_l; auto. apply Rinv_lt_contravar; [apply Rmult_lt_0_compat|]; lra.
Qed.
Print Assumptions C51_decreasing.
Lemma ln_half : - 1 < ln (1 - / 2).
Proof.
  assert (H : exp (- (1)) < 1 - / 2). { rewrite exp_Ropp. pose proof (exp_ineq1 1 ltac:(lra)). apply Rlt_le_trans with (/ 2); [|lra]. apply Rinv_lt_contravar; [|lra]. pose proof (exp_pos 1). lra. }
  apply ln_increasing in H; [|apply exp_pos]. rewrite ln_exp in H. lra.
Qed.
(** With air absorption the Eyring formula has the wrong sign: its result grows with the absorption of
    the air, may exceed the Sabine value, and may even be negative. *)
Theorem C51_air_refuted : exists Sf V a m c, 0 < Sf /\ 0 < V /\ 0 < c /\ 0 < m /\ 0 < a < 1 /\
  rt60_sabine Sf V a m c < rt60_eyring Sf V a m c /\ rt60_eyring Sf V a 0 c < rt60_eyring Sf V a m c.
Proof.
  exists 6, 1, (/ 2), (/ 2), 1. pose proof (ln_1_minus (/ 2) ltac:(lra)) as Hl. unfold rt60_eyring, rt60_sabine. pose proof ln10_pos as Ht. set (T := ln 10) in *.
  pose proof ln_half as Hu.
  set (L := ln (1 - / 2)) in *. clearbody L T. repeat split; try lra.
  - replace (- (24 * T / 1) * 1 / (6 * L + 4 * / 2 * 1)) with (24 * T / (- 6 * L - 2)) by (field; lra). replace (24 * T / 1 * 1 / (/ 2 * 6 + 4 * / 2 * 1)) with (24 * T / 5) by field.
    unfold Rdiv. apply Rmult_lt_compat_l; [lra|]. apply Rinv_lt_contravar; [|lra]. apply Rmult_lt_0_compat; lra.
  - replace (- (24 * T / 1) * 1 / (6 * L + 4 * / 2 * 1)) with (24 * T / (- 6 * L - 2)) by (field; lra). replace (- (24 * T / 1) * 1 / (6 * L + 4 * 0 * 1)) with (24 * T / (- 6 * L)) by (field; lra).
    unfold Rdiv. apply Rmult_lt_compat_l; [lra|]. apply Rinv_lt_contravar; [|lra]. apply Rmult_lt_0_compat; lra.
Qed.
Print Assumptions C51_air_refuted.
Theorem C51_air_negative_refuted : exists Sf V a m c, 0 < Sf /\ 0 < V /\ 0 < c /\ 0 < m /\ 0 < a < 1 /\ rt60_eyring Sf V a m c < 0.
Proof.
  exists 6, 1, (/ 2), 2, 1. unfold rt60_eyring. pose proof ln10_pos as Ht. set (T := ln 10) in *.
  pose proof ln_half as Hu.
  set (L := ln (1 - / 2)) in *. clearbody L T. repeat split; try lra.
  replace (- (24 * T / 1) * 1 / (6 * L + 4 * 2 * 1)) with (- (24 * T / (6 * L + 8))) by (field; lra).
  assert (0 < 24 * T / (6 * L + 8)) by (apply Rdiv_lt_0_compat; lra). lra.
Qed.
Print Assumptions C51_air_negative_refuted.
Example C51_case : 0 < rt60_eyring 94 60 0.2 0 343 < rt60_sabine 94 60 0.2 0 343.
Proof. apply C51_eyring_below_sabine; lra. Qed.
