(* C74: the cardioid family of directivities. *)
From Coq Require Import Reals List ZArith String Bool Lia Lra.
From Verif Require Import Base Vec GeometryModel SphereModel SphereProps ArrayModel DirectModel RotationProps Integral.
From Verif Require Import BaseProofs.
Import ListNotations.
Local Open Scope R_scope.

Lemma dot3 : forall u v, List.length u = 3%nat -> List.length v = 3%nat ->
  dot u v = nth 0 u 0 * nth 0 v 0 + nth 1 u 0 * nth 1 v 0 + nth 2 u 0 * nth 2 v 0.
Proof. intros u v Hu Hv. rewrite (three u Hu), (three v Hv). unfold dot, map2. cbn. ring. Qed.
Lemma vnorm_pos : forall v, vnorm v <> 0 -> 0 < vnorm v.
Proof. intros v H. pose proof (vnorm_nonneg v). lra. Qed.
Lemma unit_scaled : forall v, vnorm v <> 0 -> vnorm (vscal (/ vnorm v) v) = 1.
Proof. intros v H. rewrite vnorm_vscal. pose proof (vnorm_pos v H) as P. rewrite Rabs_right; [now apply Rinv_l|]. left. now apply Rinv_0_lt_compat. Qed.
Lemma vsq_unit : forall v, vnorm v = 1 -> vsq v = 1.
Proof. intros v H. rewrite <- vnorm_sq, H. ring. Qed.

(* ------------------------------------------------------------------ *)
(* Construction: an array of three numbers, not all zero, gives its direction;
   everything else is refused. *)
Theorem C74_make : forall v p gain,
  (List.length v = 3%nat -> vnorm v <> 0 -> 0 <= p <= 1 ->
   make_cardioid (Array v) p gain = Some {| c_dir := vscal (/ vnorm v) v; c_p := p; c_gain := gain; c_loc := vscal (/ vnorm v) v |}) /\
  (List.length v <> 3%nat \/ vnorm v = 0 \/ p < 0 \/ 1 < p -> make_cardioid (Array v) p gain = None).
Proof.
  intros v p gain. split.
  - intros Hl Hn Hp. unfold make_cardioid, orient. rewrite Hl, Nat.eqb_refl. destruct (Req_EM_T (vnorm v) 0) as [E|E]; [contradiction|].
    set (u := vscal (/ vnorm v) v). assert (Hu : List.length u = 3%nat) by (subst u; now rewrite vscal_length).
    assert (Nu : vnorm u = 1) by now apply unit_scaled.
    assert (Ed : (let '(az, co, _) := cart2spher u in direction_vector az (Some co) false) = Some u).
    { rewrite (three u Hu). pose proof (C67_forth (nth 0 u 0) (nth 1 u 0) (nth 2 u 0)) as F. destruct (cart2spher _) as [[az co] r].
      destruct F as [F1 [F2 [F3 _]]]. rewrite <- (three u Hu), Nu in F2. subst r. unfold direction_vector.
      destruct (Rle_dec co PI); [|lra]. destruct (Rle_dec 0 co); [|lra]. cbn [andb]. rewrite <- F1. unfold spher2cart. cbn [option_map].
      f_equal. f_equal; [ring|]. f_equal; [ring|]. f_equal. ring. }
    rewrite Ed. cbn [bind]. destruct (Rle_dec 0 p); [|lra]. destruct (Rle_dec p 1); [|lra].
    destruct (Rle_dec _ _) as [_|H]; [reflexivity|]. exfalso. apply H. rewrite Nu, Rminus_diag_eq, Rabs_R0 by reflexivity. lra.
  - intros H. unfold make_cardioid, orient. destruct (Nat.eqb_spec (List.length v) 3) as [Hl|]; [|reflexivity].
    destruct (Req_EM_T (vnorm v) 0) as [|Hn]; [reflexivity|]. destruct H as [H|[H|H]]; [contradiction|contradiction|].
    destruct (cart2spher _) as [[az co] r]. destruct (direction_vector az (Some co) false) as [d|]; [|reflexivity]. cbn [bind].
    destruct (Rle_dec 0 p); [|reflexivity]. destruct (Rle_dec p 1); [lra|reflexivity].
Qed.

(* ------------------------------------------------------------------ *)
(* The pattern: gain (p + (1 - p) cos), where cos is the cosine of the angle
   between the look direction and the direction asked for. *)
Definition cos_angle (d v : list R) : R := dot d v / (vnorm d * vnorm v).
Definition oriented (c : cardioid) : Prop := List.length (c_dir c) = 3%nat /\ vnorm (c_dir c) = 1 /\ 0 <= c_p c <= 1.
Theorem C74_pattern : forall c dirs magnitude, oriented c -> (forall v, In v dirs -> List.length v = 3%nat /\ vnorm v <> 0) ->
  get_response_cartesian c dirs magnitude = Some (map (fun v => c_gain c * (c_p c + (1 - c_p c) * cos_angle (c_dir c) v)) dirs).
Proof.
  intros c dirs magnitude [Hd [Nd Hp]] Hv. unfold get_response_cartesian. destruct (Req_EM_T (c_p c) 1) as [E|E].
  - f_equal. apply map_ext. intros v. rewrite E. ring.
  - assert (Em : mapM (fun v => if Req_EM_T (vnorm v) 0 then None else Some (vscal (/ vnorm v) v)) dirs = Some (map (fun v => vscal (/ vnorm v) v) dirs)).
    { clear - Hv. induction dirs as [|v dirs IH]; [reflexivity|]. cbn. destruct (Req_EM_T (vnorm v) 0) as [e|]; [exfalso; apply (proj2 (Hv v (or_introl eq_refl))); exact e|].
      cbn. rewrite IH; [reflexivity|]. intros; apply Hv; now right. }
    rewrite Em. cbn [bind]. rewrite map_map. f_equal. apply map_ext_in. intros v Hin. destruct (Hv v Hin) as [Lv Nv].
    unfold response_vector, cos_angle. rewrite dot_vscal_r, Nd. field. exact Nv.
Qed.
(* The same through angles: the response in the direction with that azimuth and
   colatitude. *)
Theorem C74_angles : forall c az co magnitude degrees, oriented c -> (forall l, co = Some l -> List.length l = List.length az) ->
  get_response c az co magnitude degrees
  = get_response_cartesian c (map (fun i => spher2cart (nth i az 0) (option_map (fun l => nth i l 0) co) 1 degrees) (seq 0 (List.length az))) magnitude.
Proof.
  intros c az co magnitude degrees Ho Hl. unfold get_response.
  assert (El : match co with Some co => Nat.eqb (List.length az) (List.length co) | None => true end = true).
  { destruct co as [l|]; [|reflexivity]. apply Nat.eqb_eq. symmetry. now apply Hl. }
  rewrite El. unfold get_response_cartesian. destruct (Req_EM_T (c_p c) 1) as [E|E].
  - f_equal. rewrite map_map. clear. rewrite <- (map_map (fun _ => tt) (fun _ => c_gain c) (seq 0 (List.length az))), <- (map_map (fun _ => tt) (fun _ => c_gain c) az). f_equal.
    induction az as [|a az IH] using rev_ind; [reflexivity|]. rewrite app_length, Nat.add_comm. cbn [List.length Nat.add]. rewrite seq_S, !map_app, IH. reflexivity.
  - set (pts := map (fun i => spher2cart _ _ 1 degrees) _).
    assert (Em : mapM (fun v => if Req_EM_T (vnorm v) 0 then None else Some (vscal (/ vnorm v) v)) pts = Some pts).
    { assert (Hu : forall v, In v pts -> vnorm v = 1).
      { intros v Hv. subst pts. apply in_map_iff in Hv as [i [<- _]]. rewrite C67_radius. apply Rabs_R1. }
      clearbody pts. induction pts as [|v pts IH]; [reflexivity|]. cbn [mapM]. rewrite (Hu v (or_introl eq_refl)).
      destruct (Req_EM_T 1 0); [lra|]. cbn [bind]. rewrite IH by (intros; apply Hu; now right). cbn [bind].
      replace (vscal (/ 1) v) with v; [reflexivity|]. rewrite Rinv_1. unfold vscal. rewrite <- (map_id v) at 1. apply map_ext. intros. ring. }
    rewrite Em. cbn [bind]. subst pts. rewrite map_map. reflexivity.
Qed.

(* ------------------------------------------------------------------ *)
(* Range and maximum. *)
Lemma cos_range : forall d v, List.length d = List.length v -> vnorm d <> 0 -> vnorm v <> 0 -> -1 <= cos_angle d v <= 1.
Proof.
  intros d v Hl Hd Hv. pose proof (vnorm_pos d Hd) as Pd. pose proof (vnorm_pos v Hv) as Pv.
  pose proof (dot_le_norms d v Hl) as H. assert (P : 0 < vnorm d * vnorm v) by now apply Rmult_lt_0_compat.
  unfold cos_angle. assert (Ha : - (vnorm d * vnorm v) <= dot d v <= vnorm d * vnorm v).
  { split; [pose proof (Rle_abs (- dot d v)) as Q; rewrite Rabs_Ropp in Q; lra|pose proof (Rle_abs (dot d v)); lra]. }
  split.
  - apply Rmult_le_reg_r with (vnorm d * vnorm v); [exact P|]. unfold Rdiv. rewrite Rmult_assoc, Rinv_l by lra. lra.
  - apply Rmult_le_reg_r with (vnorm d * vnorm v); [exact P|]. unfold Rdiv. rewrite Rmult_assoc, Rinv_l by lra. lra.
Qed.
Lemma cos_one : forall d v s, List.length d = List.length v -> vnorm d = 1 -> vnorm v <> 0 -> (s = 1 \/ s = -1) ->
  cos_angle d v = s <-> v = vscal (s * vnorm v) d.
Proof.
  intros d v s Hl Hd Hv Hs. assert (S2 : s * s = 1) by (destruct Hs; subst; ring).
  assert (Hdot : dot d d = 1) by (apply vsq_unit in Hd; exact Hd).
  split.
  - intros H. unfold cos_angle in H. rewrite Hd, Rmult_1_l in H. assert (E : dot d v = s * vnorm v) by (rewrite <- H; field; exact Hv).
    assert (Ls : List.length v = List.length (vscal (s * vnorm v) d)) by (rewrite vscal_length; congruence).
    assert (Z : vsq (vminus v (vscal (s * vnorm v) d)) = 0).
    { rewrite vsq_vminus by exact Ls. rewrite vsq_vscal, dot_vscal_r, (dot_comm v d), E, <- vnorm_sq. rewrite (vsq_unit d Hd).
      transitivity (vnorm v * vnorm v * (1 - s * s)); [ring|]. rewrite S2. ring. }
    apply vsq_zero in Z. apply vec_ext; [exact Ls|]. intros i.
    assert (Zi : nth i (vminus v (vscal (s * vnorm v) d)) 0 = 0).
    { destruct (Nat.lt_ge_cases i (List.length (vminus v (vscal (s * vnorm v) d)))) as [Hi|Hi]; [|now apply nth_overflow].
      rewrite Forall_forall in Z. apply Z. now apply nth_In. }
    rewrite nth_vminus in Zi by exact Ls. lra.
  - intros H. unfold cos_angle. rewrite Hd, Rmult_1_l. rewrite H at 1. rewrite dot_vscal_r, Hdot. field. exact Hv.
Qed.
Theorem C74_range : forall c v, oriented c -> 0 < c_gain c -> List.length v = 3%nat -> vnorm v <> 0 ->
  exists r, get_response_cartesian c [v] false = Some [r] /\ c_gain c * (2 * c_p c - 1) <= r <= c_gain c /\
  (c_p c < 1 -> (r = c_gain c <-> v = vscal (vnorm v) (c_dir c)) /\
                (r = c_gain c * (2 * c_p c - 1) <-> v = vscal (- vnorm v) (c_dir c))).
Proof.
  intros c v Ho Hg Lv Nv. pose proof Ho as [Ld [Nd Hp]].
  exists (c_gain c * (c_p c + (1 - c_p c) * cos_angle (c_dir c) v)).
  rewrite C74_pattern by (auto; intros w [<-|[]]; auto). split; [reflexivity|].
  assert (Hc : -1 <= cos_angle (c_dir c) v <= 1) by (apply cos_range; [congruence|lra|exact Nv]).
  set (k := cos_angle (c_dir c) v) in *. set (p := c_p c) in *. set (G := c_gain c) in *.
  split; [split|].
  - apply Rmult_le_compat_l; [lra|]. nra.
  - rewrite <- (Rmult_1_r G) at 2. apply Rmult_le_compat_l; [lra|]. nra.
  - intros Hp1. split.
    + rewrite <- (Rmult_1_l (vnorm v)) at 1. rewrite <- (cos_one (c_dir c) v 1) by (auto; congruence). fold k. split; intros E.
      * assert (p + (1 - p) * k = 1) by (apply (Rmult_eq_reg_l G); lra). apply (Rmult_eq_reg_l (1 - p)); lra.
      * rewrite E. ring.
    + replace (- vnorm v) with (-1 * vnorm v) by ring. rewrite <- (cos_one (c_dir c) v (-1)) by (auto; congruence). fold k. split; intros E.
      * assert (p + (1 - p) * k = 2 * p - 1) by (apply (Rmult_eq_reg_l G); lra). apply (Rmult_eq_reg_l (1 - p)); lra.
      * rewrite E. ring.
Qed.

(* Rotating pattern and direction together changes nothing; in particular the
   pattern is symmetric about its axis (rotations that leave c_dir alone). *)
Theorem C74_symmetric : forall c angles order degrees m v d' v' magnitude, oriented c ->
  List.length v = 3%nat -> vnorm v <> 0 -> rotation3d angles order degrees = Some m ->
  rotate m (c_dir c) = Some d' -> rotate m v = Some v' ->
  get_response_cartesian (set_orientation c d') [v'] magnitude = get_response_cartesian c [v] magnitude.
Proof.
  intros c angles order degrees m v d' v' magnitude Ho Lv Nv Hm Hd Hv. pose proof Ho as [Ld [Nd Hp]].
  destruct (C75_rotation _ _ _ _ Hm (c_dir c) v Ld Lv) as [p' [q' [E1 [E2 [Lp [E3 _]]]]]].
  destruct (C75_rotation _ _ _ _ Hm v v Lv Lv) as [r' [s' [F1 [F2 [Lr [F3 _]]]]]].
  destruct (C75_rotation _ _ _ _ Hm (c_dir c) (c_dir c) Ld Ld) as [t' [u' [G1 [G2 [_ [G3 _]]]]]].
  assert (p' = d') by congruence. assert (q' = v') by congruence. assert (r' = v') by congruence. assert (s' = v') by congruence.
  assert (t' = d') by congruence. assert (u' = d') by congruence. subst.
  assert (N1 : vnorm v' = vnorm v) by (unfold vnorm; f_equal; exact F3).
  assert (N2 : vnorm d' = 1) by (rewrite <- Nd; unfold vnorm; f_equal; exact G3).
  rewrite (C74_pattern (set_orientation c d')); [|split; [exact Lp|split; [exact N2|exact Hp]]|intros w [<-|[]]; split; [exact Lr|congruence]].
  rewrite (C74_pattern c) by (auto; intros w [<-|[]]; auto). cbn [map c_dir c_p c_gain set_orientation].
  unfold cos_angle. rewrite E3, N1, N2, Nd. reflexivity.
Qed.

(* ------------------------------------------------------------------ *)
(* The stated energy is the surface integral of the squared response. *)
Lemma sphere_unit : forall phi theta, vnorm (sphere_point phi theta) = 1.
Proof.
  intros. unfold vnorm, vsq, dot, sphere_point, map2. cbn. pose proof (sin2_cos2 phi) as A. pose proof (sin2_cos2 theta) as B. unfold Rsqr in *.
  transitivity (sqrt 1); [f_equal|apply sqrt_1].
  transitivity ((sin phi * sin phi + cos phi * cos phi) * (sin theta * sin theta) + cos theta * cos theta); [ring|]. rewrite A. lra.
Qed.
Definition response_at (c : cardioid) (v : list R) : R :=
  match get_response_cartesian c [v] false with Some [r] => r | _ => 0 end.
Lemma response_sphere : forall c phi theta, oriented c ->
  response_at c (sphere_point phi theta) = c_gain c * c_p c + (c_gain c * (1 - c_p c) * nth 0 (c_dir c) 0 * nth 0 (sphere_point phi theta) 0
    + c_gain c * (1 - c_p c) * nth 1 (c_dir c) 0 * nth 1 (sphere_point phi theta) 0 + c_gain c * (1 - c_p c) * nth 2 (c_dir c) 0 * nth 2 (sphere_point phi theta) 0).
Proof.
  intros c phi theta Ho. pose proof Ho as [Ld [Nd Hp]]. unfold response_at.
  rewrite C74_pattern; [|exact Ho|intros w [<-|[]]; split; [reflexivity|rewrite sphere_unit; lra]]. cbn [map]. unfold cos_angle.
  rewrite Nd, sphere_unit, dot3 by (auto; reflexivity). field.
Qed.
Theorem C74_energy : forall c, oriented c ->
  surface_integral (fun r => (response_at c r) ^ 2) (cardioid_energy (c_p c) (c_gain c)).
Proof.
  intros c Ho. pose proof Ho as [Ld [Nd Hp]].
  set (q := c_gain c * (1 - c_p c)).
  pose proof (surface_affine (c_gain c * c_p c) (q * nth 0 (c_dir c) 0) (q * nth 1 (c_dir c) 0) (q * nth 2 (c_dir c) 0)) as H.
  match type of H with surface_integral _ ?e => assert (Ee : e = cardioid_energy (c_p c) (c_gain c)) end.
  { apply vsq_unit in Nd. unfold vsq in Nd. rewrite dot3 in Nd by assumption. set (x := nth 0 (c_dir c) 0) in *. set (y := nth 1 (c_dir c) 0) in *. set (z := nth 2 (c_dir c) 0) in *.
    unfold cardioid_energy, q. set (p := c_p c). set (G := c_gain c).
    transitivity (4 * PI * (G * p) ^ 2 + 4 * PI / 3 * ((G * (1 - p)) ^ 2 * (x * x + y * y + z * z))); [ring|]. rewrite Nd. field. }
  rewrite Ee in H. eapply surface_ext; [|exact H]. intros phi theta. cbv beta. rewrite response_sphere by exact Ho. reflexivity.
Qed.
(* Hence the density of the rays integrates to one. *)
Lemma pdf_formula : forall c x, 0 <= c_p c <= 1 -> unnormalized_pdf c x = (c_gain c * (c_p c + (1 - c_p c) * dot (c_loc c) x)) ^ 2.
Proof.
  intros c x Hp. unfold unnormalized_pdf, cardioid_func. destruct (Rle_dec 0 (c_p c)); [|lra]. destruct (Rle_dec (c_p c) 1); [|lra]. cbn [bind fst snd].
  cbn [pow]. rewrite !Rmult_1_r, <- Rabs_mult. apply Rabs_right. apply Rle_ge. apply Rle_0_sqr.
Qed.
Lemma energy_pos : forall p gain, gain <> 0 -> 0 < cardioid_energy p gain.
Proof.
  intros p gain Hg. unfold cardioid_energy. pose proof PI_RGT_0 as Hpi. apply Rmult_lt_0_compat; [apply Rmult_lt_0_compat; [|lra]|nra].
  cbn [pow]. rewrite Rmult_1_r. assert (0 < gain \/ gain < 0) as [H|H] by lra; nra.
Qed.
Theorem C74_pdf : forall c, List.length (c_loc c) = 3%nat -> vnorm (c_loc c) = 1 -> 0 <= c_p c <= 1 -> c_gain c <> 0 ->
  (forall x, 0 <= pdf c x) /\ surface_integral (pdf c) 1.
Proof.
  intros c Ll Nl Hp Hg. pose proof (energy_pos (c_p c) (c_gain c) Hg) as Ep. split.
  - intros x. unfold pdf. rewrite pdf_formula by exact Hp. apply Rmult_le_pos; [|left; now apply Rinv_0_lt_compat].
    cbn [pow]. rewrite Rmult_1_r. apply Rle_0_sqr.
  - set (c' := set_orientation c (c_loc c)). assert (Ho : oriented c') by (split; [exact Ll|split; [exact Nl|exact Hp]]).
    pose proof (C74_energy c' Ho) as H. change (c_p c') with (c_p c) in H. change (c_gain c') with (c_gain c) in H.
    apply (surface_scal _ (/ cardioid_energy (c_p c) (c_gain c))) in H. rewrite Rinv_l in H by lra.
    eapply surface_ext; [|exact H]. intros phi theta. cbv beta. unfold pdf. rewrite pdf_formula by exact Hp.
    rewrite response_sphere by exact Ho. change (c_dir c') with (c_loc c). change (c_p c') with (c_p c). change (c_gain c') with (c_gain c).
    rewrite dot3 by (auto; reflexivity). unfold Rdiv. rewrite Rmult_comm. f_equal. f_equal. ring.
Qed.

(* ------------------------------------------------------------------ *)
(* cardioid_func: the same pattern for arrays of any nonzero length. *)
Theorem C74_func : forall x direction p gain magnitude, List.length x = List.length direction -> vnorm x <> 0 -> vnorm direction <> 0 -> 0 <= p <= 1 ->
  exists r a, cardioid_func x direction p gain true magnitude = Some (r, a) /\
  r = (let v := gain * (p + (1 - p) * cos_angle direction x) in if magnitude then Rabs v else v).
Proof.
  intros x d p gain magnitude Hl Hx Hd Hp. unfold cardioid_func. destruct (Rle_dec 0 p); [|lra]. destruct (Rle_dec p 1); [|lra].
  destruct (Req_EM_T (vnorm x) 0); [contradiction|]. destruct (Req_EM_T (vnorm d) 0); [contradiction|]. cbn [bind fst snd].
  eexists. eexists. split; [reflexivity|]. rewrite dot_vscal_l, dot_vscal_r. unfold cos_angle.
  replace (/ vnorm d * (/ vnorm x * dot d x)) with (dot d x / (vnorm d * vnorm x)) by (field; split; assumption). reflexivity.
Qed.
(* ... but its arguments are normalised in place: the caller's array changes. *)
Theorem C74_func_in_place_refuted : exists x direction p gain r x' d', 
  cardioid_func x direction p gain true false = Some (r, (x', d')) /\ x' <> x.
Proof.
  assert (Hn : vnorm [2; 0; 0] = 2).
  { unfold vnorm, vsq, dot, map2. cbn. replace (2 * 2 + (0 * 0 + (0 * 0 + 0))) with (2 * 2) by ring. apply sqrt_square. lra. }
  exists [2; 0; 0], [2; 0; 0], (1 / 2), 1. do 3 eexists. split.
  - unfold cardioid_func. destruct (Rle_dec 0 (1 / 2)); [|lra]. destruct (Rle_dec (1 / 2) 1); [|lra]. rewrite Hn.
    destruct (Req_EM_T 2 0); [lra|]. cbn [bind fst snd]. reflexivity.
  - unfold vscal. cbn. intros E. injection E as E _ _. lra.
Qed.
(* The magnitude is never returned by the objects. *)
Theorem C74_magnitude_refuted : exists c az r, oriented c /\ get_response c [az] None true true = Some [r] /\ r < 0.
Proof.
  set (c := {| c_dir := [1; 0; 0]; c_p := 0; c_gain := 1; c_loc := [1; 0; 0] |}).
  assert (Nd : vnorm [1; 0; 0] = 1).
  { unfold vnorm, vsq, dot, map2. cbn. replace (1 * 1 + (0 * 0 + (0 * 0 + 0))) with 1 by ring. apply sqrt_1. }
  exists c, 180, (-1). split; [split; [reflexivity|split; [exact Nd|cbn; lra]]|]. split; [|lra].
  unfold get_response. cbn [c_p c]. destruct (Req_EM_T 0 1); [lra|]. cbn [List.length seq map nth option_map]. f_equal. f_equal.
  unfold response_vector, spher2cart, radians. cbn [c_gain c_p c_dir c]. replace (180 * PI / 180) with PI by field.
  cbn [option_map]. rewrite cos_PI, sin_PI, sin_PI2. unfold dot, map2. cbn. ring.
Qed.
(* After set_orientation the rays still follow the old direction. *)
Theorem C74_orientation_refuted : exists c u, oriented c /\ c_loc c = c_dir c /\
  let c' := set_orientation c u in oriented c' /\ response_at c' u = c_gain c /\ pdf c' u = 0.
Proof.
  set (c := {| c_dir := [1; 0; 0]; c_p := 1 / 2; c_gain := 1; c_loc := [1; 0; 0] |}).
  assert (N1 : vnorm [1; 0; 0] = 1).
  { unfold vnorm, vsq, dot, map2. cbn. replace (1 * 1 + (0 * 0 + (0 * 0 + 0))) with 1 by ring. apply sqrt_1. }
  assert (N2 : vnorm [-1; 0; 0] = 1).
  { unfold vnorm, vsq, dot, map2. cbn. replace (-1 * -1 + (0 * 0 + (0 * 0 + 0))) with 1 by ring. apply sqrt_1. }
  exists c, [-1; 0; 0]. split; [split; [reflexivity|split; [exact N1|cbn; lra]]|]. split; [reflexivity|]. cbv zeta.
  assert (Ho : oriented (set_orientation c [-1; 0; 0])) by (split; [reflexivity|split; [exact N2|cbn; lra]]).
  split; [exact Ho|]. split.
  - unfold response_at. rewrite C74_pattern; [|exact Ho|intros w [<-|[]]; split; [reflexivity|lra]]. cbn [map c_gain c_p c_dir set_orientation c].
    unfold cos_angle. rewrite N2. unfold dot, map2. cbn. field.
  - unfold pdf. rewrite pdf_formula by (cbn; lra). cbn [set_orientation c c_gain c_p c_loc].
    assert (E : dot [1; 0; 0] [-1; 0; 0] = -1) by (unfold dot, map2; cbn; ring). rewrite E.
    replace (1 * (1 / 2 + (1 - 1 / 2) * -1)) with 0 by field. rewrite pow_i by lia. unfold Rdiv. apply Rmult_0_l.
Qed.

(* ------------------------------------------------------------------ *)
(* Rays: n of them; without a generator each carries the squared response in its
   direction, with one each carries the mean energy, so that they add up to n
   times the mean over the sphere. *)
Theorem C74_rays : forall c n, oriented c -> (1 <= n)%nat ->
  (exists rays e, sample_rays c n None = Some (rays, e) /\ List.length rays = n /\ e = map (fun v => (response_at c v) ^ 2) rays) /\
  (forall drawn, List.length drawn = n -> exists e, sample_rays c n (Some drawn) = Some (drawn, e) /\ List.length e = n /\
     Rsum e = INR n * (cardioid_energy (c_p c) (c_gain c) / (4 * PI))).
Proof.
  intros c n Ho Hn. split.
  - destruct (C68_fibonacci n Hn) as [p [Hp [Lp [Hz _]]]]. exists p, (map (fun v => (response_vector c v false) ^ 2) p).
    unfold sample_rays. rewrite Hp. cbn [bind]. split; [reflexivity|]. split; [exact Lp|]. apply map_ext_in. intros v Hv. f_equal.
    destruct (In_nth _ _ [] Hv) as [i [Hi <-]]. destruct (Hz i ltac:(lia)) as [L1 [N1 _]].
    unfold response_at. rewrite C74_pattern; [|exact Ho|intros w [<-|[]]; split; [exact L1|rewrite N1; lra]]. cbn [map].
    unfold response_vector, cos_angle. destruct Ho as [_ [Nd _]]. rewrite Nd, N1. f_equal. f_equal. f_equal. field.
  - intros drawn Hd. eexists. split; [reflexivity|]. split; [apply repeat_length|].
    clear. induction n as [|n IH]; [cbn; ring|]. cbn [repeat]. cbn [Rsum fold_right]. change (fold_right Rplus 0 ?l) with (Rsum l). rewrite IH, S_INR. ring.
Qed.

(* A concrete cardioid: looking along (0, 3, 4), p = 1/2, gain 2. *)
Example C74_case : exists c, make_cardioid (Array [0; 3; 4]) (1 / 2) 2 = Some c /\ oriented c /\
  response_at c [0; 3; 4] = 2 /\ response_at c [0; -3; -4] = 0 /\ cardioid_energy (c_p c) (c_gain c) = 16 * PI / 3.
Proof.
  assert (N : vnorm [0; 3; 4] = 5).
  { unfold vnorm, vsq, dot, map2. cbn. replace (0 * 0 + (3 * 3 + (4 * 4 + 0))) with (5 * 5) by ring. apply sqrt_square. lra. }
  assert (N' : vnorm [0; -3; -4] = 5).
  { unfold vnorm, vsq, dot, map2. cbn. replace (0 * 0 + (-3 * -3 + (-4 * -4 + 0))) with (5 * 5) by ring. apply sqrt_square. lra. }
  destruct (C74_make [0; 3; 4] (1 / 2) 2) as [H _]. rewrite H by (try reflexivity; lra). eexists. split; [reflexivity|].
  set (c := {| c_dir := _ |}).
  assert (Ho : oriented c) by (split; [reflexivity|split; [apply unit_scaled; lra|cbn; lra]]).
  split; [exact Ho|]. split; [|split].
  - unfold response_at. rewrite C74_pattern; [|exact Ho|intros w [<-|[]]; split; [reflexivity|lra]]. cbn [map c_gain c_p c_dir c].
    unfold cos_angle. rewrite unit_scaled, N by lra. unfold dot, map2, vscal. cbn. field.
  - unfold response_at. rewrite C74_pattern; [|exact Ho|intros w [<-|[]]; split; [reflexivity|lra]]. cbn [map c_gain c_p c_dir c].
    unfold cos_angle. rewrite unit_scaled, N, N' by lra. unfold dot, map2, vscal. cbn. field.
  - cbn [c_p c_gain c]. unfold cardioid_energy. field.
Qed.
Print Assumptions C74_make.
Print Assumptions C74_pattern.
Print Assumptions C74_angles.
Print Assumptions C74_range.
Print Assumptions C74_symmetric.
Print Assumptions C74_energy.
Print Assumptions C74_pdf.
Print Assumptions C74_func.
Print Assumptions C74_func_in_place_refuted.
Print Assumptions C74_magnitude_refuted.
Print Assumptions C74_orientation_refuted.
Print Assumptions C74_rays.
