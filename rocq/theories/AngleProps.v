(** C91: cos_angle_between and dist_line_point of geometry.cpp (modelled in GeometryModel). *)
From Coq Require Import List ZArith Lia Reals Lra Bool Psatz.
From Verif Require Import Base Vec GeometryModel GeometrySpec GeometryProofs BaseProofs.
Import ListNotations.
Local Open Scope R_scope.

(** The points of the endless line through two points. *)
Definition on_line (a b p : vec) : Prop := exists t, p = vadd a (vscal t (vminus b a)).

Lemma vnormalized_pos : forall v, 0 < vsq v -> vnormalized v = vscal (/ vnorm v) v.
Proof. intros v H. unfold vnormalized. destruct (Rlt_dec 0 (vsq v)); [reflexivity|lra]. Qed.

Lemma vnorm_pos : forall v, 0 < vsq v -> 0 < vnorm v.
Proof. intros v H. apply sqrt_lt_R0. exact H. Qed.

Lemma clamp_in : forall x, -1 <= x <= 1 -> clamp x (-1) 1 = x.
Proof.
  intros x H. unfold clamp.
  repeat match goal with |- context [Rltb ?a ?b] => destruct (Rltb a b) eqn:?; 
    [rewrite Rltb_true in *|rewrite Rltb_false in *] end; lra.
Qed.

Lemma cos_angle_eq : forall v w, length v = length w -> 0 < vsq v -> 0 < vsq w ->
  cos_angle_between v w = dot v w / (vnorm v * vnorm w).
Proof.
  intros v w Hl Hv Hw. unfold cos_angle_between.
  pose proof (vnorm_pos _ Hv). pose proof (vnorm_pos _ Hw).
  assert (E : dot (vnormalized v) (vnormalized w) = dot v w / (vnorm v * vnorm w)).
  { rewrite !vnormalized_pos by assumption. rewrite dot_vscal_l, dot_vscal_r. field. lra. }
  rewrite E. apply clamp_in.
  pose proof (dot_le_norms v w Hl) as B. assert (B1 := Rle_trans _ _ _ (Rle_abs _) B). assert (B2 := Rle_abs (- dot v w)). rewrite Rabs_Ropp in B2.
  assert (0 < vnorm v * vnorm w) by (apply Rmult_lt_0_compat; assumption).
  split.
  - apply Rmult_le_reg_r with (vnorm v * vnorm w); [assumption|].
    unfold Rdiv. rewrite Rmult_assoc, Rinv_l by lra. lra.
  - apply Rmult_le_reg_r with (vnorm v * vnorm w); [assumption|].
    unfold Rdiv. rewrite Rmult_assoc, Rinv_l by lra. lra.
Qed.

(** The returned number is the cosine of the angle between the vectors: for the angle
    [acos] of it, the law of cosines of the triangle with sides [v], [w], [v - w] holds. *)
Theorem C91_cosine : forall v w, length v = length w -> 0 < vsq v -> 0 < vsq w ->
  exists theta, 0 <= theta <= PI /\ cos_angle_between v w = cos theta /\
    dot v w = vnorm v * vnorm w * cos theta /\
    vsq (vminus v w) = vsq v + vsq w - 2 * vnorm v * vnorm w * cos theta.
Proof.
  intros v w Hl Hv Hw. pose proof (cos_angle_eq v w Hl Hv Hw) as E.
  pose proof (vnorm_pos _ Hv). pose proof (vnorm_pos _ Hw).
  assert (D : dot v w = vnorm v * vnorm w * cos_angle_between v w) by (rewrite E; field; lra).
  assert (R1 : -1 <= cos_angle_between v w <= 1).
  { unfold cos_angle_between, clamp.
    repeat match goal with |- context [Rltb ?a ?b] => destruct (Rltb a b) eqn:?;
      [rewrite Rltb_true in *|rewrite Rltb_false in *] end; lra. }
  exists (acos (cos_angle_between v w)). rewrite cos_acos by exact R1.
  split; [apply acos_bound|]. split; [reflexivity|]. split; [exact D|].
  rewrite vsq_vminus by exact Hl. rewrite D. ring.
Qed.

(** It is symmetric, does not depend on the lengths, changes sign with a vector, and is one
    for a vector and itself. *)
Theorem C91_cosine_laws : forall v w k, length v = length w -> 0 < vsq v -> 0 < vsq w -> 0 < k ->
  cos_angle_between w v = cos_angle_between v w /\
  cos_angle_between (vscal k v) w = cos_angle_between v w /\
  cos_angle_between (vscal (- k) v) w = - cos_angle_between v w /\
  cos_angle_between v v = 1.
Proof.
  intros v w k Hl Hv Hw Hk.
  pose proof (vnorm_pos _ Hv). pose proof (vnorm_pos _ Hw).
  assert (forall c, c <> 0 -> 0 < vsq (vscal c v)).
  { intros c Hc. rewrite vsq_vscal. apply Rmult_lt_0_compat; [|exact Hv]. nra. }
  split; [|split; [|split]].
  - rewrite !cos_angle_eq by (auto; lia). rewrite dot_comm. field. lra.
  - rewrite !cos_angle_eq by (auto; try (rewrite vscal_length; lia); apply H1; lra).
    rewrite dot_vscal_l, vnorm_vscal, Rabs_pos_eq by lra. field. lra.
  - rewrite !cos_angle_eq by (auto; try (rewrite vscal_length; lia); apply H1; lra).
    rewrite dot_vscal_l, vnorm_vscal, Rabs_Ropp, Rabs_pos_eq by lra. field. lra.
  - rewrite cos_angle_eq by auto. rewrite vnorm_sq. unfold vsq in *. field. lra.
Qed.

(** The returned distance is attained on the line and no point of the line is nearer. *)
Theorem C91_distance : forall a b p, length a = length b -> length p = length a ->
  0 < vdist a b ->
  (exists q, on_line a b q /\ vdist p q = dist_line_point a b p) /\
  (forall q, on_line a b q -> dist_line_point a b p <= vdist p q).
Proof.
  intros a b p Hab Hp Hd.
  assert (Hs : 0 < vsq (vminus b a)).
  { rewrite (vdist_comm a b Hab) in Hd. rewrite <- vdist_sq. apply Rmult_lt_0_compat; exact Hd. }
  set (u := vminus b a) in *.
  assert (Lu : length u = length a) by (unfold u; rewrite vminus_length; lia).
  set (v := vminus p a). assert (Lv : length v = length a) by (unfold v; rewrite vminus_length; lia).
  pose proof (vnorm_pos _ Hs) as Hn. pose proof (vnorm_sq u) as Hn2.
  set (s := dot v u / vsq u).
  assert (Hq : forall t, vminus p (vadd a (vscal t u)) = vminus v (vscal t u)).
  { intro t. assert (Lt : length (vscal t u) = length a) by (rewrite vscal_length; exact Lu).
    assert (La : length (vadd a (vscal t u)) = length a) by (apply vadd_length; lia).
    apply vec_ext.
    - rewrite !vminus_length by lia. lia.
    - intros i. rewrite !nth_vminus, nth_vadd by lia. unfold v. rewrite nth_vminus by lia. lra. }
  assert (Hdl : dist_line_point a b p = vnorm (vminus v (vscal s u))).
  { unfold dist_line_point. fold u v. f_equal. f_equal. rewrite vnormalized_pos by exact Hs.
    rewrite dot_vscal_r. apply vec_ext; [rewrite !vscal_length; lia|].
    intros i. rewrite !nth_vscal. unfold s. rewrite <- Hn2. field. lra. }
  assert (Hv : forall t, vsq (vminus v (vscal t u)) = vsq v - 2 * t * dot v u + t * t * vsq u).
  { intro t. rewrite vsq_vminus by (rewrite vscal_length; lia).
    rewrite dot_vscal_r, vsq_vscal. ring. }
  split.
  - exists (vadd a (vscal s u)). split; [exists s; reflexivity|].
    unfold vdist. rewrite Hq. symmetry; exact Hdl.
  - intros q [t ->]. fold u. unfold vdist. rewrite Hq, Hdl. unfold vnorm.
    apply sqrt_le_1_alt. rewrite !Hv.
    assert (E : dot v u = s * vsq u) by (unfold s; field; lra). rewrite E.
    pose proof (Rle_0_sqr (s - t)). unfold Rsqr in *. nra.
Qed.

(** It is zero exactly for the points of the line. *)
Theorem C91_distance_zero : forall a b p, length a = length b -> length p = length a ->
  0 < vdist a b -> (dist_line_point a b p = 0 <-> on_line a b p).
Proof.
  intros a b p Hab Hp Hd. destruct (C91_distance a b p Hab Hp Hd) as [[q [Hq E]] Hm]. split.
  - intro H. rewrite H in E.
    assert (length q = length a).
    { destruct Hq as [t ->]. rewrite vadd_length; [lia|]. rewrite vscal_length, vminus_length; lia. }
    replace p with q; [exact Hq|].
    assert (Hz : vsq (vminus p q) = 0) by (rewrite <- vdist_sq, E; ring).
    apply vsq_zero in Hz. apply vec_ext; [lia|]. intro i.
    destruct (Nat.lt_ge_cases i (length p)) as [Hi|Hi].
    + rewrite Forall_forall in Hz.
      assert (Hz' : nth i (vminus p q) 0 = 0).
      { apply Hz. apply nth_In. rewrite vminus_length; lia. }
      rewrite nth_vminus in Hz' by lia. lra.
    + rewrite !nth_overflow by lia. reflexivity.
  - intro H. apply Rle_antisym.
    + rewrite <- (vdist_refl p). apply Hm. exact H.
    + rewrite <- E. apply vdist_nonneg.
Qed.

(** The hypotheses hold, and the values are not trivial: a 3-4-5 triangle. *)
Example C91_cosine_ex : 0 < vsq [1; 0] /\ cos_angle_between [1; 0] [-3; 4] = - (3 / 5).
Proof.
  assert (A : vsq [1; 0] = 1) by (unfold vsq, dot; simpl; ring).
  assert (B : vsq [-3; 4] = 25) by (unfold vsq, dot; simpl; ring).
  split; [rewrite A; lra|].
  rewrite cos_angle_eq by (try reflexivity; rewrite ?A, ?B; lra).
  unfold vnorm. rewrite A, B, sqrt_1. replace 25 with (5 * 5) by ring.
  rewrite sqrt_square by lra. unfold dot; simpl. field.
Qed.

Example C91_distance_ex : dist_line_point [1; 1; 0] [4; 1; 0] [9; 4; 4] = 5.
Proof.
  assert (A : vminus [4; 1; 0] [1; 1; 0] = [3; 0; 0]) by (unfold vminus; simpl; repeat f_equal; lra).
  assert (B : vminus [9; 4; 4] [1; 1; 0] = [8; 3; 4]) by (unfold vminus; simpl; repeat f_equal; lra).
  unfold dist_line_point. rewrite A, B.
  assert (N : vsq [3; 0; 0] = 3 * 3) by (unfold vsq, dot; simpl; ring).
  rewrite vnormalized_pos by (rewrite N; lra).
  assert (M : vnorm [3; 0; 0] = 3) by (unfold vnorm; rewrite N, sqrt_square; lra).
  rewrite M. rewrite dot_vscal_r.
  assert (D : dot [8; 3; 4] [3; 0; 0] = 24) by (unfold dot; simpl; ring). rewrite D.
  match goal with |- vnorm ?x = _ => assert (E : vsq x = 5 * 5) by (unfold vsq, dot; simpl; field) end.
  unfold vnorm. rewrite E. apply sqrt_square. lra.
Qed.

Print Assumptions C91_cosine.
Print Assumptions C91_distance.
