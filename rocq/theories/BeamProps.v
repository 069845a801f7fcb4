(* C73: the beamformer designs meet their constraints. *)
From Coq Require Import Reals List ZArith Lia Lra.
From Verif Require Import Base BaseProofs Vec Sum Cpx ArrayModel BeamModel BeamMat.
Import ListNotations.
Local Open Scope R_scope.

(* ------------------------------------------------------------------ *)
(* minima, maxima, sums *)
Lemma fmin_spec : forall l m, fmin l = Some m -> In m l /\ forall x, In x l -> m <= x.
Proof.
  induction l as [|a l IH]; intros m H; [discriminate|]. cbn [fmin] in H.
  destruct (fmin l) as [y|] eqn:E; injection H as <-.
  - destruct (IH y eq_refl) as [H1 H2]. split.
    + unfold Rmin. destruct (Rle_dec a y); [now left|now right].
    + intros x [<-|Hx]; [apply Rmin_l|]. apply Rle_trans with y; [apply Rmin_r|now apply H2].
  - destruct l as [|b l]; [|cbn in E; destruct (fmin l); discriminate]. split; [now left|]. intros x [<-|[]]. lra.
Qed.
Lemma fmin_some : forall l, l <> [] -> exists m, fmin l = Some m.
Proof. intros [|a l] H; [congruence|]. cbn. eauto. Qed.
Lemma fmax_spec : forall l m, fmax l = Some m -> In m l /\ forall x, In x l -> x <= m.
Proof.
  intros l m H. unfold fmax in H. destruct (fmin (map Ropp l)) as [y|] eqn:E; [|discriminate]. injection H as <-.
  destruct (fmin_spec _ _ E) as [H1 H2]. split.
  - apply in_map_iff in H1 as [x [<- Hx]]. now rewrite Ropp_involutive.
  - intros x Hx. specialize (H2 (- x) (in_map _ _ _ Hx)). lra.
Qed.
Lemma fmax_some : forall l, l <> [] -> exists m, fmax l = Some m.
Proof. intros l H. unfold fmax. destruct (fmin_some (map Ropp l)) as [m Hm]; [destruct l; [congruence|discriminate]|]. rewrite Hm. cbn. eauto. Qed.
Lemma sum_sq : forall n x, bsum n x * bsum n x <= INR n * bsum n (fun i => x i * x i).
Proof.
  induction n as [|n IH]; intros x; [cbn; lra|]. cbn [bsum]. rewrite S_INR. specialize (IH x).
  set (s := bsum n x) in *. set (q := bsum n (fun i => x i * x i)) in *. set (y := x n) in *.
  assert (Hq : 0 <= q) by (apply bsum_nonneg; intros; nra). clearbody s q y.
  pose proof (pos_INR n) as Hn. destruct (Req_dec (INR n) 0) as [E|E].
  - rewrite E in *. nra.
  - assert (2 * s * y <= q + INR n * (y * y)); [|nra].
    assert (0 <= (s - INR n * y) * (s - INR n * y)) by apply Rle_0_sqr.
    apply (Rmult_le_reg_l (INR n)); [lra|]. lra.
Qed.
Lemma csum_bound : forall n f, Cabs2 (csum n f) <= INR n * bsum n (fun i => Cabs2 (f i)).
Proof.
  intros n f. unfold Cabs2, csum. cbn [fst snd]. rewrite bsum_plus, Rmult_plus_distr_l.
  apply Rplus_le_compat; apply sum_sq.
Qed.
Lemma Cabs2_conj : forall a, Cabs2 (Conj a) = Cabs2 a.
Proof. intros. unfold Cabs2, Conj. cbn. ring. Qed.
Lemma Cabs2_scal : forall k a, Cabs2 (Cscal k a) = k * k * Cabs2 a.
Proof. intros. unfold Cabs2, Cscal. cbn. ring. Qed.

(* ------------------------------------------------------------------ *)
(* What the array receives.  A plane wave of frequency f coming from the
   direction phi (far away) reaches microphone m earlier than the centre by
   u.(r_m - centre)/c; a wave leaving a point reaches it later by distance/c. *)
Definition plane_wave (c : R) (Rm : list (list R)) (ctr : list R) (phi f : R) (m : nat) : C :=
  cis (2 * PI * f * ((cos phi * (nth 0 (nth m Rm []) 0 - nth 0 ctr 0) + sin phi * (nth 1 (nth m Rm []) 0 - nth 1 ctr 0)) / c)).
Definition point_wave (c : R) (Rm : list (list R)) (f : R) (x : list R) (m : nat) : C :=
  cis (- (2 * PI * f * vdist (nth m Rm []) x / c)).
(* The output of the beamformer: the sum over the microphones of the
   conjugated weight times the received wave. *)
Definition output (M : nat) (w a : nat -> C) : C := csum M (fun m => Cmul (Conj (w m)) (a m)).

Definition planar (Rm : list (list R)) : Prop := forall p, In p Rm -> length p = 2%nat.

Lemma proj_eq : forall Rm ctr phi m, planar Rm -> length ctr = 2%nat -> (m < length Rm)%nat ->
  far_field_proj Rm ctr phi m = cos phi * (nth 0 (nth m Rm []) 0 - nth 0 ctr 0) + sin phi * (nth 1 (nth m Rm []) 0 - nth 1 ctr 0).
Proof.
  intros Rm ctr phi m HR Hc Hm. unfold far_field_proj, unit_vec2D.
  assert (Hp : length (nth m Rm []) = 2%nat) by (apply HR; now apply nth_In).
  destruct (nth m Rm []) as [|x [|y [|]]]; try discriminate. destruct ctr as [|a [|b [|]]]; try discriminate.
  cbn. ring.
Qed.

(* Far-field weights.  Every channel's filter (the conjugated weight) is a pure
   time shift, none positive and at least one zero; the waves arriving from the look direction are aligned, so that at
   every frequency the output has magnitude M, which no arrangement of unit
   waves exceeds. *)
Theorem C73_far_field : forall c Rm ctr phi, planar Rm -> length ctr = 2%nat -> Rm <> [] -> c <> 0 ->
  exists tau : nat -> R,
    (0 < c -> (forall m, (m < length Rm)%nat -> tau m <= 0)) /\ (exists m, (m < length Rm)%nat /\ tau m = 0) /\
    forall f, exists w, far_field_weights c Rm ctr phi f = Some w /\
      (forall m, (m < length Rm)%nat -> Conj (w m) = cis (- (2 * PI * f * tau m))) /\
      Cabs2 (output (length Rm) w (plane_wave c Rm ctr phi f)) = INR (length Rm) * INR (length Rm) /\
      (forall a, (forall m, (m < length Rm)%nat -> Cabs2 (a m) = 1) ->
         Cabs2 (output (length Rm) w a) <= INR (length Rm) * INR (length Rm)).
Proof.
  intros c Rm ctr phi HR Hc Hne Hc0. set (M := length Rm).
  assert (HM : (0 < M)%nat) by (subst M; destruct Rm; [congruence|cbn; lia]).
  assert (Hl : map (far_field_proj Rm ctr phi) (seq 0 M) <> []) by (destruct M; [lia|discriminate]).
  destruct (fmax_some _ Hl) as [mx Hmx]. destruct (fmax_spec _ _ Hmx) as [Hin Hmax].
  exists (fun m => (far_field_proj Rm ctr phi m - mx) / c). split; [|split].
  - intros Hcp m Hm. assert (far_field_proj Rm ctr phi m <= mx) by (apply Hmax, in_map, in_seq; lia).
    assert (0 < / c) by now apply Rinv_0_lt_compat. unfold Rdiv. nra.
  - apply in_map_iff in Hin as [m [<- Hm]]. apply in_seq in Hm. exists m. split; [lia|]. field. exact Hc0.
  - intros f. exists (fun m => cis (2 * PI * f * (far_field_proj Rm ctr phi m - mx) / c)). split.
    { unfold far_field_weights.
      assert (E : forallb (fun p : list R => Nat.eqb (length p) 2) Rm = true).
      { apply forallb_forall. intros p Hp. apply Nat.eqb_eq. now apply HR. }
      rewrite E. fold M. rewrite Hmx. reflexivity. }
    split; [|split].
    + intros m Hm. rewrite <- cis_opp. f_equal. field. exact Hc0.
    + assert (E : output M (fun m => cis (2 * PI * f * (far_field_proj Rm ctr phi m - mx) / c)) (plane_wave c Rm ctr phi f)
                  = Cmul (RtoC (INR M)) (cis (2 * PI * f * mx / c))).
      { unfold output. rewrite <- csum_const. apply csum_ext. intros m Hm.
        rewrite <- cis_opp. unfold plane_wave. rewrite <- cis_add. f_equal.
        rewrite <- (proj_eq Rm ctr phi m HR Hc Hm). field. exact Hc0. }
      rewrite E, Cabs2_mul, cis_abs2. unfold Cabs2, RtoC. cbn [fst snd]. ring.
    + intros a Ha. unfold output. eapply Rle_trans; [apply csum_bound|].
      apply Req_le. f_equal. transitivity (bsum M (fun _ => 1)); [|rewrite bsum_const; ring].
      apply bsum_ext. intros m Hm. rewrite Cabs2_mul, Cabs2_conj, cis_abs2, Ha by exact Hm. ring.
Qed.

(* They are meant to be causal (the comment in the code says so), but a
   microphone hit later than the first one needs an advance: there is an array
   for which the filters are not a set of non-negative delays. *)
Theorem C73_causal_refuted : exists c Rm ctr phi, 0 < c /\ planar Rm /\ length ctr = 2%nat /\ Rm <> [] /\
  ~ exists tau : nat -> R, (forall m, (m < length Rm)%nat -> 0 <= tau m) /\
      forall f w, far_field_weights c Rm ctr phi f = Some w ->
        forall m, (m < length Rm)%nat -> Conj (w m) = cis (- (2 * PI * f * tau m)).
Proof.
  assert (HR : planar [[1; 0]; [-1; 0]]) by (intros p [<-|[<-|[]]]; reflexivity).
  exists 343, [[1; 0]; [-1; 0]], [0; 0], 0. split; [lra|]. split; [exact HR|]. split; [reflexivity|]. split; [discriminate|].
  intros [tau [Hpos Ht]]. set (d := tau 1%nat + 2 / 343). assert (Hd : 0 < d) by (specialize (Hpos 1%nat ltac:(cbn; lia)); subst d; lra).
  set (f := / (2 * d)).
  assert (Hw : far_field_weights 343 [[1; 0]; [-1; 0]] [0; 0] 0 f =
               Some (fun m => cis (2 * PI * f * (far_field_proj [[1; 0]; [-1; 0]] [0; 0] 0 m - 1) / 343))).
  { unfold far_field_weights. cbn [forallb length Nat.eqb andb seq map].
    assert (E0 : far_field_proj [[1; 0]; [-1; 0]] [0; 0] 0 0 = 1) by (unfold far_field_proj, unit_vec2D; cbn; rewrite cos_0, sin_0; ring).
    assert (E1 : far_field_proj [[1; 0]; [-1; 0]] [0; 0] 0 1 = -1) by (unfold far_field_proj, unit_vec2D; cbn; rewrite cos_0, sin_0; ring).
    rewrite E0, E1. unfold fmax. cbn [map fmin option_map]. rewrite Rmin_left by lra. rewrite Ropp_involutive. reflexivity. }
  specialize (Ht f _ Hw 1%nat ltac:(cbn; lia)). cbv beta in Ht.
  assert (E1 : far_field_proj [[1; 0]; [-1; 0]] [0; 0] 0 1 = -1) by (unfold far_field_proj, unit_vec2D; cbn; rewrite cos_0, sin_0; ring).
  rewrite E1, <- cis_opp in Ht.
  assert (Hz : Cmul (cis (- (2 * PI * f * (-1 - 1) / 343))) (cis (2 * PI * f * tau 1%nat)) = C1).
  { rewrite Ht, <- cis_add. replace (- (2 * PI * f * tau 1%nat) + 2 * PI * f * tau 1%nat) with 0 by ring. apply cis_0. }
  rewrite <- cis_add in Hz.
  replace (- (2 * PI * f * (-1 - 1) / 343) + 2 * PI * f * tau 1%nat) with PI in Hz.
  - apply (f_equal fst) in Hz. unfold cis in Hz. cbn [fst C1] in Hz. rewrite cos_PI in Hz. lra.
  - transitivity (2 * PI * f * d); [subst f; field; lra|subst d; field].
Qed.

(* The gain towards the look direction is M, not 1. *)
Theorem C73_far_field_gain_refuted : exists c Rm ctr phi f w, 0 < c /\ planar Rm /\ length ctr = 2%nat /\
  far_field_weights c Rm ctr phi f = Some w /\ Cabs2 (output (length Rm) w (plane_wave c Rm ctr phi f)) <> 1.
Proof.
  assert (HR : planar [[1; 0]; [-1; 0]]) by (intros p [<-|[<-|[]]]; reflexivity).
  destruct (C73_far_field 343 [[1; 0]; [-1; 0]] [0; 0] 0 HR eq_refl ltac:(discriminate) ltac:(lra)) as [tau [_ [_ H]]].
  destruct (H 100) as [w [H1 [_ [H2 _]]]]. exists 343, [[1; 0]; [-1; 0]], [0; 0], 0, 100, w.
  split; [lra|]. split; [exact HR|]. split; [reflexivity|]. split; [exact H1|]. rewrite H2. cbn. lra.
Qed.

(* ------------------------------------------------------------------ *)
(* Delay and sum. *)
Lemma near_steering : forall c Rm ctr f X, steering c Rm ctr f X false false = Some (fun m k => phase c f (near_distance Rm X m k)).
Proof. reflexivity. Qed.
Lemma phase_point : forall c Rm f X m k, phase c f (near_distance Rm X m k) = point_wave c Rm f (nth k X []) m.
Proof. reflexivity. Qed.

(* Without attenuation: for a source without reflections the response is
   exactly one; with K images the response to the sum of all their waves is
   real and not negative - it is the mean over the microphones of the squared
   magnitude of the received wave, divided by K; and no unit waves are
   amplified. *)
Theorem C73_delay_and_sum : forall c Rm ctr f X, Rm <> [] -> X <> [] -> exists w,
  delay_and_sum_weights c Rm ctr f X false false = Some w /\
  (forall x, X = [x] -> output (length Rm) w (point_wave c Rm f x) = C1) /\
  (let received := fun m => csum (length X) (fun k => point_wave c Rm f (nth k X []) m) in
   output (length Rm) w received
   = RtoC (bsum (length Rm) (fun m => Cabs2 (received m)) / INR (length Rm) / INR (length X))) /\
  (forall a, (forall m, (m < length Rm)%nat -> Cabs2 (a m) = 1) -> Cabs2 (output (length Rm) w a) <= 1).
Proof.
  intros c Rm ctr f X HR HX. set (M := length Rm). set (K := length X).
  assert (HM : INR M <> 0) by (apply not_0_INR; subst M; destruct Rm; [congruence|cbn; lia]).
  assert (HK : INR K <> 0) by (apply not_0_INR; subst K; destruct X; [congruence|cbn; lia]).
  pose proof (pos_INR M) as HMp. pose proof (pos_INR K) as HKp.
  set (received := fun m => csum K (fun k => point_wave c Rm f (nth k X []) m)).
  exists (fun m => Cscal (1 / INR M / INR K) (received m)). split; [|split; [|split]].
  - unfold delay_and_sum_weights. rewrite near_steering. cbn [bind]. reflexivity.
  - intros x ->. unfold output.
    transitivity (csum M (fun _ => RtoC (/ INR M))).
    + apply csum_ext. intros m Hm. subst received K. cbn [length nth]. rewrite csum_S, csum_0. cbn [nth].
      replace (C0 + point_wave c Rm f x m)%C with (point_wave c Rm f x m) by ring.
      rewrite Cscal_RtoC, Conj_mul, Conj_RtoC.
      transitivity (RtoC (1 / INR M / INR 1) * (point_wave c Rm f x m * Conj (point_wave c Rm f x m)))%C; [ring|].
      rewrite Cmul_conj. unfold point_wave. rewrite cis_abs2, <- RtoC_mul. f_equal. cbn [INR]. field. exact HM.
    + rewrite csum_const, <- RtoC_mul. unfold C1, RtoC. f_equal. field. exact HM.
  - intros r. subst r. unfold output. 
    transitivity (csum M (fun m => RtoC (Cabs2 (received m) * (/ INR M * / INR K)))).
    + apply csum_ext. intros m Hm. rewrite Cscal_RtoC, Conj_mul, Conj_RtoC.
      change (csum K (fun k => point_wave c Rm f (nth k X []) m)) with (received m).
      transitivity (RtoC (1 / INR M / INR K) * (received m * Conj (received m)))%C; [ring|].
      rewrite Cmul_conj, <- RtoC_mul. f_equal. field. split; assumption.
    + rewrite csum_RtoC, bsum_scal_r. f_equal. unfold Rdiv. ring.
  - intros a Ha. unfold output. eapply Rle_trans; [apply csum_bound|].
    assert (Hb : forall m, (m < M)%nat -> Cabs2 (Conj (Cscal (1 / INR M / INR K) (received m)) * a m)%C <= / INR M * / INR M).
    { intros m Hm. rewrite Cabs2_mul, Cabs2_conj, Cabs2_scal, Ha, Rmult_1_r by exact Hm.
      assert (Hr : Cabs2 (received m) <= INR K * INR K).
      { subst received. cbv beta. eapply Rle_trans; [apply csum_bound|]. apply Req_le. f_equal.
        transitivity (bsum K (fun _ => 1)); [apply bsum_ext; intros; apply cis_abs2|rewrite bsum_const; ring]. }
      assert (Hp : 0 <= 1 / INR M / INR K * (1 / INR M / INR K)) by apply Rle_0_sqr.
      eapply Rle_trans; [apply Rmult_le_compat_l; [exact Hp|exact Hr]|]. apply Req_le. field. split; assumption. }
    eapply Rle_trans; [apply Rmult_le_compat_l; [exact HMp|apply bsum_le, Hb]|].
    rewrite bsum_const. apply Req_le. field. exact HM.
Qed.

(* With the attenuation (the default) the response to the very wave the array
   receives is not one. *)
Theorem C73_attenuation_refuted : exists c Rm ctr f X A w, 0 < c /\ Rm <> [] /\ length X = 1%nat /\
  steering c Rm ctr f X true false = Some A /\ delay_and_sum_weights c Rm ctr f X true false = Some w /\
  output (length Rm) w (sumcols (length X) A) <> C1.
Proof.
  assert (Hd : vdist [0] [1] = 1).
  { unfold vdist, vnorm, vsq, dot. cbn. replace ((0 - 1) * (0 - 1) + 0) with 1 by ring. apply sqrt_1. }
  assert (HA : steering 343 [[0]] [0] 0 [[1]] true false =
    Some (fun m k => Cscal (1 / (4 * PI) / near_distance [[0]] [[1]] m k) (phase 343 0 (near_distance [[0]] [[1]] m k)))).
  { unfold steering. cbn [entries length seq flat_map map app existsb near_distance nth].
    replace (near_distance [[0]] [[1]] 0 0) with 1 by (symmetry; exact Hd). destruct (Req_EM_T 1 0); [lra|]. reflexivity. }
  exists 343, [[0]], [0], 0, [[1]]. eexists. eexists. split; [lra|]. split; [discriminate|]. split; [reflexivity|].
  split; [exact HA|]. split; [unfold delay_and_sum_weights; rewrite HA; reflexivity|].
  unfold output, sumcols. cbn [length]. rewrite !csum_S, !csum_0.
  replace (near_distance [[0]] [[1]] 0 0) with 1 by (symmetry; exact Hd).
  unfold phase. replace (- (2 * PI * 0 * 1 / 343)) with 0 by field. rewrite cis_0. intros E. apply (f_equal fst) in E. cbn in E.
  pose proof PI_RGT_0. pose proof PI2_1.
  assert (Ha : 1 / (4 * PI) < 1).
  { apply (Rmult_lt_reg_r (4 * PI)); [lra|]. unfold Rdiv. rewrite Rmult_assoc, Rinv_l by lra. lra. }
  assert (Hb : 0 < 1 / (4 * PI)) by (apply Rmult_lt_0_compat; [lra|apply Rinv_0_lt_compat; lra]).
  assert (E2 : 1 / (4 * PI) * (1 / (4 * PI)) = 1); [|nra].
  etransitivity; [|exact E]. field. lra.
Qed.

(* In the far-field mode one distance is zero, so that with the attenuation
   (again the default) there are no finite weights at all. *)
Lemma in_entries : forall M K D m k, (m < M)%nat -> (k < K)%nat -> In (D m k) (entries M K D).
Proof. intros. unfold entries. apply in_flat_map. exists m. split; [apply in_seq; lia|]. apply in_map, in_seq. lia. Qed.
Lemma far_attenuation_none : forall c Rm ctr f X, steering c Rm ctr f X true true = None.
Proof.
  intros c Rm ctr f X. unfold steering. destruct (far_distance Rm ctr X) as [D|] eqn:E; [|reflexivity].
  unfold far_distance in E. destruct (Req_EM_T _ 0); [discriminate|].
  match type of E with context [fmin ?l] => destruct (fmin l) as [mn|] eqn:Em; [|discriminate] end.
  injection E as <-. destruct (fmin_spec _ _ Em) as [Hin _].
  unfold entries in Hin. apply in_flat_map in Hin as [m [Hm Hk]]. apply in_map_iff in Hk as [k [Hk Hk']].
  apply in_seq in Hm, Hk'.
  match goal with |- (if existsb ?p ?l then _ else _) = _ => assert (Ex : existsb p l = true) end; [|now rewrite Ex].
  apply existsb_exists. exists 0. split; [|destruct (Req_EM_T 0 0); congruence].
  match goal with |- In 0 (entries ?M ?K ?D) => refine (eq_ind (D m k) (fun z => In z (entries M K D)) (in_entries M K D m k _ _) 0 _); [lia|lia|cbv beta; lra] end.
Qed.
Theorem C73_far_attenuation_refuted : exists c Rm ctr f X, 0 < c /\ planar Rm /\ length X = 1%nat /\
  (exists w, delay_and_sum_weights c Rm ctr f X false true = Some w) /\
  delay_and_sum_weights c Rm ctr f X true true = None.
Proof.
  exists 343, [[1; 0]; [-1; 0]], [0; 0], 100, [[10; 0]]. split; [lra|]. split; [intros p [<-|[<-|[]]]; reflexivity|].
  split; [reflexivity|]. split; [|unfold delay_and_sum_weights; now rewrite far_attenuation_none].
  unfold delay_and_sum_weights, steering, far_distance.
  destruct (Req_EM_T _ 0) as [E|E].
  - exfalso. cbn in E. apply sqrt_eq_0 in E; lra.
  - cbn [length entries seq flat_map map app fmin bind]. eauto.
Qed.

(* Far-field distances for one image: the differences between microphones are
   those along the unit vector towards the image, and the smallest is zero. *)
Theorem C73_far_distance : forall Rm ctr x D, (forall p, In p Rm -> length p = length x) -> length ctr = length x ->
  far_distance Rm ctr [x] = Some D ->
  (exists u, length u = length x /\ vsq u = 1 /\ (exists r, 0 < r /\ vminus x ctr = vscal r u) /\
     forall m m', (m < length Rm)%nat -> (m' < length Rm)%nat ->
       D m 0%nat - D m' 0%nat = dot (vminus (nth m' Rm []) (nth m Rm [])) u) /\
  (forall m, (m < length Rm)%nat -> 0 <= D m 0%nat) /\ (exists m, (m < length Rm)%nat /\ D m 0%nat = 0).
Proof.
  intros Rm ctr x D HR Hc H. unfold far_distance in H. cbn [map Rsum fold_right length] in H. rewrite Rplus_0_r in H.
  set (p := vminus x ctr) in *. fold (vnorm p) in H. destruct (Req_EM_T (vnorm p) 0) as [E|E]; [discriminate|].
  match type of H with context [fmin ?l] => destruct (fmin l) as [mn|] eqn:Em; [|discriminate] end.
  apply (f_equal (fun o => match o with Some d => d | None => D end)) in H. cbv iota beta in H.
  destruct (fmin_spec _ _ Em) as [Hin Hmin]. cbn [nth] in *. set (u := vscal (/ vnorm p) p) in *.
  assert (Hp : length p = length x) by (subst p; apply vminus_length; now rewrite Hc).
  assert (Hpos : 0 < vnorm p) by (pose proof (vnorm_nonneg p); lra).
  subst D. split; [|split].
  - exists u. split; [subst u; now rewrite vscal_length|]. split.
    { subst u. rewrite vsq_vscal, <- vnorm_sq. field. exact E. }
    split.
    { exists (vnorm p). split; [exact Hpos|]. apply vec_ext; [now rewrite vscal_length; subst u; rewrite vscal_length|].
      intros i. rewrite nth_vscal. subst u. rewrite nth_vscal. field. exact E. }
    intros m m' Hm Hm'. cbn [nth]. subst u. rewrite dot_vminus_l; [ring|]. transitivity (length x); [|symmetry]; apply HR; now apply nth_In.
  - intros m Hm. match goal with |- 0 <= ?a - mn => assert (mn <= a); [|lra] end. apply Hmin.
    apply (in_entries (length Rm) 1 (fun m k => - dot (nth m Rm []) (vscal (/ vnorm p) (nth k [p] []))) m 0%nat Hm). lia.
  - unfold entries in Hin. apply in_flat_map in Hin as [m [Hm Hk]]. apply in_map_iff in Hk as [k [Hk Hk']].
    apply in_seq in Hm, Hk'. exists m. split; [lia|]. assert (k = 0)%nat by lia. subst k. cbn [nth] in Hk |- *. rewrite Hk. ring.
Qed.
(* With several images the directions are divided by the norm of all of them
   together: repeating the image shrinks every delay. *)
Theorem C73_far_images_refuted : exists Rm ctr x D1 D2, planar Rm /\
  far_distance Rm ctr [x] = Some D1 /\ far_distance Rm ctr [x; x] = Some D2 /\
  (0 < length Rm)%nat /\ D1 1%nat 0%nat - D1 0%nat 0%nat <> D2 1%nat 0%nat - D2 0%nat 0%nat.
Proof.
  exists [[1; 0]; [-1; 0]], [0; 0], [1; 0].
  assert (E1 : sqrt (Rsum (map vsq (map (fun x => vminus x [0; 0]) [[1; 0]]))) = 1).
  { replace (Rsum _) with 1 by (cbn; ring). apply sqrt_1. }
  assert (E2 : sqrt (Rsum (map vsq (map (fun x => vminus x [0; 0]) [[1; 0]; [1; 0]]))) = sqrt 2).
  { f_equal. cbn. ring. }
  assert (H2 : 0 < sqrt 2) by (apply sqrt_lt_R0; lra).
  eexists. eexists. split; [intros p [<-|[<-|[]]]; reflexivity|]. split; [|split; [|split; [cbn; lia|]]].
  - unfold far_distance. rewrite E1. destruct (Req_EM_T 1 0); [lra|]. reflexivity.
  - unfold far_distance. rewrite E2. destruct (Req_EM_T (sqrt 2) 0) as [e|]; [exfalso; clear - H2 e; lra|]. reflexivity.
  - cbn. intros H. assert (Hs : 2 = 2 / sqrt 2).
    { match type of H with ?a - ?b - (?c - ?b) = ?d - ?e - (?g - ?e) => assert (Ha : a - c = d - g) by lra end.
      rewrite Rinv_1 in Ha. unfold Rdiv. lra. }
    assert (sqrt 2 * sqrt 2 = 2) by (apply sqrt_sqrt; lra).
    assert (2 * sqrt 2 = 2) by (rewrite Hs at 1; field; lra). nra.
Qed.

(* ------------------------------------------------------------------ *)
(* Maximum SINR: the response towards the desired field - the sum of the waves
   of all images of the source - is one whenever the weights are finite,
   whatever the noise covariance, the regularisation and even the matrix
   returned as pseudo-inverse. *)
Lemma max_sinr_unit : forall Rm pinv a K w, max_sinr_core Rm pinv a K = Some w -> output (length Rm) w a = C1.
Proof.
  intros Rm pinv a K w H. unfold max_sinr_core in H. set (g := cdot (length Rm) a (cmv (length Rm) (pinv (length Rm) K) a)) in *.
  destruct (C_eq_dec g C0) as [E|E]; [discriminate|]. injection H as <-.
  set (u := cmv (length Rm) (pinv (length Rm) K) a) in *.
  transitivity (Cmul (Conj (Cinv g)) (cdot (length Rm) u a)).
  - unfold output, cdot. rewrite <- csum_scal. apply csum_ext. intros i _. rewrite Conj_mul. ring.
  - rewrite <- cdot_conj. fold g. rewrite <- Conj_mul, C_inv_l by exact E. unfold C1, Conj. cbn. f_equal. ring.
Qed.
Theorem C73_max_sinr_unit : forall c Rm ctr pinv f X Xq Rn rcond attn ff w A,
  max_sinr_weights c Rm ctr pinv f X Xq Rn rcond attn ff = Some w ->
  steering c Rm ctr f X attn ff = Some A ->
  output (length Rm) w (fun m => csum (length X) (fun k => A m k)) = C1.
Proof.
  intros c Rm ctr pinv f X Xq Rn rcond attn ff w A H HA. unfold max_sinr_weights in H. rewrite HA in H. cbn [bind] in H.
  destruct (bad_field c Rm ctr f Xq attn ff) as [b|]; [|discriminate]. cbn [bind] in H.
  apply max_sinr_unit in H. exact H.
Qed.

(* Noise and interference at the output of weights v: the squared magnitude of
   the response to the interferer's field plus v^H R_n v. *)
Definition disturbance (M : nat) (b : option (nat -> C)) (Rn : nat -> nat -> C) (v : nat -> C) : R :=
  match b with Some q => Cabs2 (output M v q) | None => 0 end + fst (csum M (fun i => csum M (fun j => Cmul (Cmul (Conj (v i)) (Rn i j)) (v j)))).

Lemma cdot_double : forall M K v, cdot M v (cmv M K v) = csum M (fun i => csum M (fun j => Cmul (Cmul (Conj (v i)) (K i j)) (v j))).
Proof. intros. unfold cdot, cmv. apply csum_ext. intros i _. rewrite <- csum_scal. apply csum_ext. intros. ring. Qed.
Lemma power_noise : forall M b Rn v, power M (noise_cov b Rn 0) v = disturbance M b Rn v.
Proof.
  intros M b Rn v. unfold power, disturbance. rewrite cdot_double. destruct b as [q|].
  - transitivity (fst (Cadd (Cmul (output M v q) (Conj (output M v q)))
        (csum M (fun i => csum M (fun j => Cmul (Cmul (Conj (v i)) (Rn i j)) (v j)))))); [|rewrite Cmul_conj; reflexivity].
    f_equal. unfold output at 2. rewrite csum_conj. unfold output. rewrite <- csum_scal_r, <- csum_add. apply csum_ext. intros i _.
    rewrite <- csum_scal, <- csum_add. apply csum_ext. intros j _. cbn [noise_cov]. rewrite Conj_mul, Conj_conj.
    replace (if Nat.eqb i j then RtoC 0 else C0) with C0 by (destruct (Nat.eqb i j); reflexivity). ring.
  - rewrite Rplus_0_l. f_equal. apply csum_ext. intros i _. apply csum_ext. intros j _. cbn [noise_cov].
    replace (C0 + Rn i j + RtoC 0)%C with (Rn i j) by (change (RtoC 0) with C0; ring). reflexivity.
Qed.
Lemma noise_hermitian : forall M b Rn, hermitian_mat M Rn -> hermitian_mat M (noise_cov b Rn 0).
Proof.
  intros M b Rn H i j Hi Hj. destruct b as [q|]; cbn [noise_cov].
  - rewrite !Conj_add, Conj_mul, Conj_conj, (H i j Hi Hj).
    replace (if Nat.eqb i j then RtoC 0 else C0) with C0 by (destruct (Nat.eqb i j); reflexivity).
    replace (if Nat.eqb j i then RtoC 0 else C0) with C0 by (destruct (Nat.eqb j i); reflexivity).
    replace (Conj C0) with C0 by (unfold Conj, C0; cbn; f_equal; ring). ring.
  - rewrite !Conj_add, Conj_RtoC, (H i j Hi Hj). replace (Conj C0) with C0 by (unfold Conj, C0; cbn; f_equal; ring). ring.
Qed.
Lemma noise_positive : forall M b Rn, positive M Rn -> positive M (noise_cov b Rn 0).
Proof.
  intros M b Rn H v Hv. rewrite power_noise. specialize (H v Hv). unfold power in H. rewrite cdot_double in H. unfold disturbance.
  destruct b as [q|]; [|lra]. pose proof (Cabs2_nonneg (output M v q)). lra.
Qed.
Lemma power_nonneg : forall n K v, positive n K -> 0 <= power n K v.
Proof.
  intros n K v H.
  assert (D : forall m, (forall j, (j < m)%nat -> v j = C0) \/ exists j, (j < m)%nat /\ v j <> C0).
  { induction m as [|m [IH|[j [Hj Hj']]]]; [left; intros; lia| |right; exists j; split; [lia|exact Hj']].
    destruct (C_eq_dec (v m) C0) as [E0|E0]; [left|right; exists m; split; [lia|exact E0]].
    intros j Hj. destruct (Nat.eq_dec j m) as [->|]; [exact E0|apply IH; lia]. }
  destruct (D n) as [H0|H0]; [|left; now apply H].
  right. unfold power. rewrite cdot_double. rewrite csum_zero_ext; [reflexivity|]. intros i Hi. apply csum_zero_ext. intros j Hj.
  rewrite (H0 j Hj). ring.
Qed.
Lemma max_sinr_optimal : forall Rm pinv a K, hermitian_mat (length Rm) K -> positive (length Rm) K ->
  penrose (length Rm) K (pinv (length Rm) K) -> nonzero (length Rm) a ->
  exists w, max_sinr_core Rm pinv a K = Some w /\
    forall v, output (length Rm) v a = C1 -> power (length Rm) K w <= power (length Rm) K v.
Proof.
  intros Rm pinv a K HK Hpos HP Ha. set (M := length Rm) in *. set (P := pinv M K) in *.
  pose proof (penrose_positive M K P HK Hpos HP a Ha) as Hg. unfold power in Hg.
  assert (Hne : cdot M a (cmv M P a) <> C0) by (intros E; rewrite E in Hg; cbn in Hg; lra).
  assert (Hex : exists w, max_sinr_core Rm pinv a K = Some w).
  { unfold max_sinr_core. fold M P. destruct (C_eq_dec _ C0); [congruence|]. eauto. }
  destruct Hex as [w Hw]. exists w. split; [exact Hw|]. intros v Hv.
  pose proof (max_sinr_unit _ _ _ _ _ Hw) as Hu. fold M in Hu.
  unfold max_sinr_core in Hw. fold M P in Hw. destruct (C_eq_dec _ C0) as [|_]; [congruence|]. injection Hw as <-.
  set (g := cdot M a (cmv M P a)) in *. set (w := fun i => Cmul (cmv M P a i) (Cinv g)) in *.
  assert (HKw : forall i, (i < M)%nat -> cmv M K w i = Cmul (a i) (Cinv g)).
  { intros i Hi. subst w. rewrite cmv_scal. rewrite penrose_inverse by assumption. reflexivity. }
  set (e := fun i => Csub (v i) (w i)).
  assert (Hev : forall i, v i = Cadd (w i) (e i)) by (intros i; subst e; cbv beta; ring).
  assert (He : cdot M e (cmv M K w) = C0).
  { transitivity (cdot M e (fun i => Cmul (a i) (Cinv g))); [apply cdot_ext; [reflexivity|exact HKw]|].
    rewrite cdot_scal_r.
    assert (E0 : cdot M e a = C0); [|rewrite E0; ring].
    unfold output in Hu, Hv. unfold cdot. transitivity (Csub (csum M (fun m => Cmul (Conj (v m)) (a m))) (csum M (fun m => Cmul (Conj (w m)) (a m)))); [|rewrite Hu, Hv; ring].
    rewrite <- csum_sub. apply csum_ext. intros i _. subst e. cbv beta. unfold Conj, Csub, Cmul. cbn. f_equal; ring. }
  assert (He2 : cdot M w (cmv M K e) = C0).
  { rewrite (herm_dot M K w e HK), <- cdot_conj, He. unfold Conj, C0. cbn. f_equal. ring. }
  assert (E : cdot M v (cmv M K v) = Cadd (cdot M w (cmv M K w)) (cdot M e (cmv M K e))).
  { transitivity (cdot M (fun i => Cadd (w i) (e i)) (fun i => Cadd (cmv M K w i) (cmv M K e i))).
    - apply cdot_ext; [intros; apply Hev|]. intros j Hj. rewrite <- cmv_add. apply cmv_ext. intros; apply Hev.
    - rewrite cdot_add_l, !cdot_add_r, He, He2. ring. }
  unfold power. fold w. rewrite E. cbn [fst Cadd]. pose proof (power_nonneg M K e Hpos) as Hp. unfold power in Hp. lra.
Qed.

(* With a positive definite noise covariance the weights exist and, among all
   weights with unit response to the desired field, let the least noise and
   interference through. *)
Theorem C73_max_sinr : forall c Rm ctr pinv f X Xq Rn attn ff A b,
  penrose (length Rm) (noise_cov b Rn 0) (pinv (length Rm) (noise_cov b Rn 0)) ->
  hermitian_mat (length Rm) Rn -> positive (length Rm) Rn ->
  steering c Rm ctr f X attn ff = Some A -> bad_field c Rm ctr f Xq attn ff = Some b ->
  let desired := fun m => csum (length X) (fun k => A m k) in
  nonzero (length Rm) desired ->
  exists w, max_sinr_weights c Rm ctr pinv f X Xq Rn 0 attn ff = Some w /\
    output (length Rm) w desired = C1 /\
    forall v, output (length Rm) v desired = C1 ->
      disturbance (length Rm) b Rn w <= disturbance (length Rm) b Rn v.
Proof.
  intros c Rm ctr pinv f X Xq Rn attn ff A b HP HRn Hpos HA Hb desired Hd.
  destruct (max_sinr_optimal Rm pinv desired (noise_cov b Rn 0) (noise_hermitian _ _ _ HRn) (noise_positive _ _ _ Hpos) HP Hd) as [w [Hw Hopt]].
  exists w. assert (Hw' : max_sinr_weights c Rm ctr pinv f X Xq Rn 0 attn ff = Some w).
  { unfold max_sinr_weights. rewrite HA. cbn [bind]. rewrite Hb. cbn [bind]. exact Hw. }
  split; [exact Hw'|]. split; [exact (max_sinr_unit _ _ _ _ _ Hw)|].
  intros v Hv. rewrite <- !power_noise. now apply Hopt.
Qed.

(* One forcing: with a positive definite noise covariance and linearly
   independent waves of the images, the response to every single image is one. *)
Definition independent (M K : nat) (A : nat -> nat -> C) : Prop :=
  forall x, nonzero K x -> nonzero M (fun m => csum K (fun k => Cmul (A m k) (x k))).
Theorem C73_one_forcing : forall c Rm ctr pinv f X Xq Rn attn ff A b,
  (let N := noise_cov b Rn 0 in let P := pinv (length Rm) N in let G := cmm (length Rm) (herm A) (cmm (length Rm) P A) in
   penrose (length Rm) N P /\ penrose (length X) G (pinv (length X) G)) ->
  hermitian_mat (length Rm) Rn -> positive (length Rm) Rn ->
  steering c Rm ctr f X attn ff = Some A -> bad_field c Rm ctr f Xq attn ff = Some b ->
  independent (length Rm) (length X) A ->
  exists w, one_forcing_weights c Rm ctr pinv f X Xq Rn attn ff = Some w /\
    forall k, (k < length X)%nat -> output (length Rm) w (fun m => A m k) = C1.
Proof.
  intros c Rm ctr pinv f X Xq Rn attn ff A b [HP HPG] HRn Hpos HA Hb Hind.
  exists (one_forcing_core Rm pinv (length X) A (noise_cov b Rn 0)). split.
  { unfold one_forcing_weights. rewrite Hb. cbn [bind]. rewrite HA. reflexivity. }
  set (M := length Rm) in *. set (K := length X) in *. intros k Hk. unfold one_forcing_core. fold M.
  set (N := noise_cov b Rn 0). set (P := pinv M N). set (G := cmm M (herm A) (cmm M P A)). set (D := pinv K G).
  assert (HN : hermitian_mat M N) by now apply noise_hermitian.
  assert (HNp : positive M N) by now apply noise_positive.
  assert (HPh : hermitian_mat M P) by (apply (penrose_hermitian M N); [exact HN|exact HP]).
  assert (HPp : positive M P) by (apply (penrose_positive M N); [exact HN|exact HNp|exact HP]).
  assert (HG : forall u v, cdot K u (cmv K G v) = cdot M (cmv K A u) (cmv M P (cmv K A v))).
  { intros u v. transitivity (cdot K u (cmv M (herm A) (cmv K (cmm M P A) v))).
    - apply cdot_ext; [reflexivity|]. intros j Hj. subst G. symmetry. apply cmv_cmv.
    - rewrite cdot_adj. apply cdot_ext; [intros; unfold cmv; apply csum_ext; intros; now rewrite herm_herm|].
      intros j Hj. symmetry. apply cmv_cmv. }
  assert (HGh : hermitian_mat K G).
  { intros i j Hi Hj. subst G. change (Conj (cmm M (herm A) (cmm M P A) j i)) with (herm (cmm M (herm A) (cmm M P A)) i j).
    rewrite herm_mm.
    transitivity (cmm M (cmm M (herm A) (herm P)) A i j).
    - rewrite cmm_assoc. unfold cmm at 1 3. apply csum_ext. intros l Hl. f_equal. unfold cmm. apply csum_ext. intros q Hq. unfold herm at 1. now rewrite <- (HPh l q Hl Hq).
    - unfold cmm at 1 3. apply csum_ext. intros l Hl. rewrite herm_mm, herm_herm. reflexivity. }
  assert (HGp : positive K G).
  { intros x Hx. unfold power. rewrite HG. apply HPp. apply Hind in Hx. exact Hx. }
  set (one := fun _ : nat => C1).
  assert (Hw : forall i, sumcols K (cmm K (cmm M P A) D) i = cmv M P (cmv K A (cmv K D one)) i).
  { intros i. rewrite cmv_cmv, cmv_cmv. unfold sumcols, cmv, one. apply csum_ext. intros. ring. }
  transitivity (cdot M (cmv M P (cmv K A (cmv K D one))) (fun m => A m k)).
  { unfold output, cdot. apply csum_ext. intros m _. now rewrite Hw. }
  rewrite <- cdot_conj.
  transitivity (Conj (cmv K G (cmv K D one) k)).
  - f_equal. subst G. rewrite <- cmv_cmv. unfold cdot. unfold cmv at 2. apply csum_ext. intros m _. unfold herm at 1. f_equal. apply cmv_cmv.
  - rewrite penrose_inverse by assumption. unfold one, Conj, C1. cbn. f_equal. ring.
Qed.

(* With the default arguments (no noise covariance) and no interferer the
   weights of the one-forcing beamformer vanish, and so does its response;
   those of the maximum-SINR beamformer are not finite. *)
Theorem C73_no_noise_refuted : exists c Rm ctr f X, 0 < c /\ X <> [] /\
  forall pinv, penrose (length Rm) (fun _ _ => C0) (pinv (length Rm) (noise_cov None (fun _ _ => C0) 0)) ->
    max_sinr_weights c Rm ctr pinv f X None (fun _ _ => C0) 0 false false = None /\
    exists w, one_forcing_weights c Rm ctr pinv f X None (fun _ _ => C0) false false = Some w /\
      output (length Rm) w (point_wave c Rm f (nth 0 X [])) = C0.
Proof.
  exists 343, [[1; 0]; [-1; 0]], [0; 0], 100, [[0; 5]]. split; [lra|]. split; [discriminate|]. intros pinv HP.
  set (Z := noise_cov None (fun _ _ => C0) 0).
  assert (H0 : forall i j, (i < 2)%nat -> (j < 2)%nat -> pinv 2%nat Z i j = C0).
  { intros i j Hi Hj. destruct HP as [_ [H2 _]]. fold Z in H2. change (length [[1; 0]; [-1; 0]]) with 2%nat in H2. rewrite <- (H2 i j Hi Hj). unfold cmm. apply csum_zero_ext. intros k Hk.
    rewrite csum_zero_ext; [ring|]. intros l Hl. ring. }
  split.
  - unfold max_sinr_weights. rewrite near_steering. cbn [bind bad_field]. unfold max_sinr_core.
    destruct (C_eq_dec _ C0) as [_|E]; [reflexivity|]. exfalso. apply E. unfold cdot, cmv. apply csum_zero_ext. intros i Hi.
    rewrite csum_zero_ext; [ring|]. intros j Hj. change (length [[1; 0]; [-1; 0]]) with 2%nat in *. fold Z. rewrite H0 by assumption. ring.
  - eexists. split; [unfold one_forcing_weights; rewrite near_steering; cbn [bind bad_field]; reflexivity|].
    unfold output. apply csum_zero_ext. intros m Hm. change (length [[1; 0]; [-1; 0]]) with 2%nat in *.
    match goal with |- Cmul (Conj ?w) _ = _ => assert (Ew : w = C0) end.
    { unfold one_forcing_core, sumcols, cmm. apply csum_zero_ext. intros k Hk. apply csum_zero_ext. intros l Hl.
      rewrite csum_zero_ext; [ring|]. intros j Hj. fold Z. change (length [[1; 0]; [-1; 0]]) with 2%nat in *. rewrite H0 by assumption. ring. }
    rewrite Ew. unfold Conj, C0, Cmul. cbn. f_equal; ring.
Qed.
(* Without an interferer the regularisation constant is added to every entry of
   the covariance matrix instead of to its diagonal. *)
Theorem C73_rcond_refuted : exists Rn rcond, rcond <> 0 /\
  (exists i j, i <> j /\ (i < 2)%nat /\ (j < 2)%nat /\ noise_cov None Rn rcond i j <> Rn i j) /\
  (forall q i j, i <> j -> q i = C0 -> noise_cov (Some q) Rn rcond i j = Rn i j).
Proof.
  exists (fun _ _ => C0), 1. split; [lra|]. split.
  - exists 0%nat, 1%nat. split; [lia|]. split; [lia|]. split; [lia|]. cbn [noise_cov]. intros E. apply (f_equal fst) in E. cbn in E. lra.
  - intros q i j Hij Hq. cbn [noise_cov]. rewrite Hq, (proj2 (Nat.eqb_neq _ _) Hij). ring.
Qed.

(* A concrete case: two microphones, one source off to the side, uncorrelated
   unit noise, no interferer. *)
Definition unit_mat (i j : nat) : C := if Nat.eqb i j then C1 else C0.
Example two_mic_case : exists w,
  max_sinr_weights 343 [[1; 0]; [-1; 0]] [0; 0] (fun _ _ => unit_mat) 100 [[3; 4]] None unit_mat 0 true false = Some w /\
  forall A, steering 343 [[1; 0]; [-1; 0]] [0; 0] 100 [[3; 4]] true false = Some A ->
    output 2 w (fun m => csum 1 (fun k => A m k)) = C1.
Proof.
  assert (Hd : forall m, (m < 2)%nat -> near_distance [[1; 0]; [-1; 0]] [[3; 4]] m 0 <> 0).
  { intros m Hm E. unfold near_distance, vdist, vnorm in E. apply sqrt_eq_0 in E; [|apply vsq_nonneg].
    destruct m as [|[|]]; [| |lia]; cbn in E; lra. }
  assert (HA : exists A, steering 343 [[1; 0]; [-1; 0]] [0; 0] 100 [[3; 4]] true false = Some A /\
     A = (fun m k => Cscal (1 / (4 * PI) / near_distance [[1; 0]; [-1; 0]] [[3; 4]] m k) (phase 343 100 (near_distance [[1; 0]; [-1; 0]] [[3; 4]] m k)))).
  { unfold steering. cbn [entries length seq flat_map map app existsb].
    destruct (Req_EM_T _ 0) as [E|_]; [exfalso; exact (Hd 0%nat ltac:(lia) E)|]. destruct (Req_EM_T _ 0) as [E|_]; [exfalso; exact (Hd 1%nat ltac:(lia) E)|].
    cbn [orb]. eauto. }
  destruct HA as [A [HA EA]].
  assert (Hc : csum 2 (fun i => csum 2 (fun j => unit_mat i j)) = RtoC 2).
  { unfold csum, unit_mat, RtoC. cbn. f_equal; ring. }
  destruct (C73_max_sinr 343 [[1; 0]; [-1; 0]] [0; 0] (fun _ _ => unit_mat) 100 [[3; 4]] None unit_mat true false A None) as [w [Hw [Hu _]]].
  - repeat split; intros i j Hi Hj; cbn [length] in *;
      (destruct i as [|[|]]; [| |lia]); (destruct j as [|[|]]; [| |lia]); unfold herm, cmm, csum, noise_cov, unit_mat, RtoC, Conj, C0, C1, Cmul, Cadd; cbn; f_equal; ring.
  - intros i j Hi Hj. unfold unit_mat. rewrite Nat.eqb_sym. destruct (Nat.eqb j i); unfold Conj, C1, C0; cbn; f_equal; ring.
  - intros v [i [Hi Hv]]. unfold power, cdot, cmv, csum, unit_mat. cbn [length bsum fst snd Nat.eqb] in *.
    cbn. destruct (v 0%nat) as [a b] eqn:E0, (v 1%nat) as [x y] eqn:E1. cbn.
    assert (0 < a * a + b * b + (x * x + y * y)); [|lra].
    destruct i as [|[|]]; [rewrite E0 in Hv|rewrite E1 in Hv|lia].
    + assert (a <> 0 \/ b <> 0) as [|] by (destruct (Req_dec a 0); [right|now left]; intros ->; subst; now apply Hv); nra.
    + assert (x <> 0 \/ y <> 0) as [|] by (destruct (Req_dec x 0); [right|now left]; intros ->; subst; now apply Hv); nra.
  - exact HA.
  - reflexivity.
  - exists 0%nat. split; [cbn; lia|]. cbn [length]. rewrite csum_S, csum_0, EA. intros E.
    apply (f_equal Cabs2) in E. replace (C0 + _)%C with (Cscal (1 / (4 * PI) / near_distance [[1; 0]; [-1; 0]] [[3; 4]] 0 0)
        (phase 343 100 (near_distance [[1; 0]; [-1; 0]] [[3; 4]] 0 0))) in E by ring.
    rewrite Cabs2_scal in E. unfold phase in E. rewrite cis_abs2, Rmult_1_r in E.
    replace (Cabs2 C0) with 0 in E by (unfold Cabs2, C0; cbn; ring).
    pose proof PI_RGT_0. assert (E' : 1 / (4 * PI) / near_distance [[1; 0]; [-1; 0]] [[3; 4]] 0 0 = 0) by nra.
    apply Rmult_integral in E' as [E'|E'].
    + apply Rmult_integral in E' as [E'|E']; [lra|]. apply (Rinv_neq_0_compat (4 * PI)) in E'; [exact E'|lra].
    + apply (Rinv_neq_0_compat _ (Hd 0%nat ltac:(lia))) in E'. exact E'.
  - exists w. split; [exact Hw|]. intros A' HA'. assert (A' = A) by congruence. subst A'. exact Hu.
Qed.

Print Assumptions C73_far_field.
Print Assumptions C73_causal_refuted.
Print Assumptions C73_far_field_gain_refuted.
Print Assumptions C73_delay_and_sum.
Print Assumptions C73_attenuation_refuted.
Print Assumptions C73_far_attenuation_refuted.
Print Assumptions C73_far_distance.
Print Assumptions C73_far_images_refuted.
Print Assumptions C73_max_sinr_unit.
Print Assumptions C73_max_sinr.
Print Assumptions C73_one_forcing.
Print Assumptions C73_no_noise_refuted.
Print Assumptions C73_rcond_refuted.
