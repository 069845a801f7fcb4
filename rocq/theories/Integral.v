(* Riemann integrals of explicit functions, and surface integrals over the unit
   sphere in spherical coordinates. *)
From Coq Require Import Reals List Lra.
Import ListNotations.
Local Open Scope R_scope.

Lemma dl_const : forall c x, derivable_pt_lim (fun _ => c) x 0.
Proof. intros. apply derivable_pt_lim_const. Qed.
Lemma dl_id : forall x, derivable_pt_lim (fun y => y) x 1.
Proof. intros. apply derivable_pt_lim_id. Qed.
Lemma dl_sin : forall f x a, derivable_pt_lim f x a -> derivable_pt_lim (fun y => sin (f y)) x (cos (f x) * a).
Proof. intros. apply (derivable_pt_lim_comp f sin); [assumption|]. apply derivable_pt_lim_sin. Qed.
Lemma dl_cos : forall f x a, derivable_pt_lim f x a -> derivable_pt_lim (fun y => cos (f y)) x (- sin (f x) * a).
Proof. intros. apply (derivable_pt_lim_comp f cos); [assumption|]. apply derivable_pt_lim_cos. Qed.
Lemma dl_plus : forall f g x a b, derivable_pt_lim f x a -> derivable_pt_lim g x b -> derivable_pt_lim (fun y => f y + g y) x (a + b).
Proof. intros. now apply (derivable_pt_lim_plus f g). Qed.
Lemma dl_minus : forall f g x a b, derivable_pt_lim f x a -> derivable_pt_lim g x b -> derivable_pt_lim (fun y => f y - g y) x (a - b).
Proof. intros. now apply (derivable_pt_lim_minus f g). Qed.
Lemma dl_mult : forall f g x a b, derivable_pt_lim f x a -> derivable_pt_lim g x b -> derivable_pt_lim (fun y => f y * g y) x (a * g x + f x * b).
Proof. intros. now apply (derivable_pt_lim_mult f g). Qed.
Lemma dl_opp : forall f x a, derivable_pt_lim f x a -> derivable_pt_lim (fun y => - f y) x (- a).
Proof. intros. now apply (derivable_pt_lim_opp f). Qed.
Lemma dl_eq : forall f x a b, derivable_pt_lim f x a -> a = b -> derivable_pt_lim f x b.
Proof. intros. now subst. Qed.
Ltac dl := repeat first [apply dl_const | apply dl_id | eapply dl_plus | eapply dl_minus | eapply dl_mult | eapply dl_opp | eapply dl_sin | eapply dl_cos].

Lemma dl_continuity : forall f, (forall x, exists a, derivable_pt_lim f x a) -> continuity f.
Proof. intros f H x. destruct (H x) as [a Ha]. apply derivable_continuous_pt. now exists a. Qed.

(* The fundamental theorem for a function with an explicit antiderivative. *)
Lemma ftc : forall (F f : R -> R) a b, a <= b -> (forall x, derivable_pt_lim F x (f x)) -> continuity f ->
  exists pr : Riemann_integrable f a b, RiemannInt pr = F b - F a.
Proof.
  intros F f a b Hab HF Hf.
  set (d := fun x => exist (fun l => derivable_pt_lim F x l) (f x) (HF x) : derivable_pt F x).
  set (C := mkC1 (c1 := F) (diff0 := d) Hf).
  exists (continuity_implies_RiemannInt Hab (fun x _ => Hf x)).
  exact (FTC_Riemann C (continuity_implies_RiemannInt Hab (fun x _ => Hf x))).
Qed.

(* Integral over the unit sphere: the point at azimuth phi and colatitude theta,
   area element sin theta. *)
Definition sphere_point (phi theta : R) : list R := [cos phi * sin theta; sin phi * sin theta; cos theta].
Definition surface_integral (f : list R -> R) (total : R) : Prop :=
  exists g : R -> R,
    (forall theta, exists pr : Riemann_integrable (fun phi => f (sphere_point phi theta) * sin theta) 0 (2 * PI), RiemannInt pr = g theta) /\
    exists pr : Riemann_integrable g 0 PI, RiemannInt pr = total.

(* The square of an affine function. *)
Lemma surface_affine : forall c x y z,
  surface_integral (fun r => (c + (x * nth 0 r 0 + y * nth 1 r 0 + z * nth 2 r 0)) ^ 2) (4 * PI * c ^ 2 + 4 * PI / 3 * (x ^ 2 + y ^ 2 + z ^ 2)).
Proof.
  intros c x y z. pose proof PI_RGT_0 as Hpi.
  exists (fun theta => sin theta * (2 * PI * ((c + z * cos theta) * (c + z * cos theta)) + PI * ((x * x + y * y) * (sin theta * sin theta)))). split.
  - intros theta. set (st := sin theta). set (A := c + z * cos theta). set (B := x * st). set (D := y * st).
    destruct (ftc (fun phi => st * (A * A * phi + 2 * (A * B) * sin phi - 2 * (A * D) * cos phi + B * B * ((phi + sin phi * cos phi) * / 2)
                               + D * D * ((phi - sin phi * cos phi) * / 2) + B * D * (sin phi * sin phi)))
                  (fun phi => (c + (x * nth 0 (sphere_point phi theta) 0 + y * nth 1 (sphere_point phi theta) 0 + z * nth 2 (sphere_point phi theta) 0)) ^ 2 * sin theta)
                  0 (2 * PI)) as [pr Hpr].
    + lra.
    + intros phi. unfold sphere_point. cbn [nth]. eapply dl_eq; [dl|]. cbv beta. fold st. subst B D. fold A.
      pose proof (sin2_cos2 phi) as T. unfold Rsqr in T. set (s := sin phi) in *. set (k := cos phi) in *.
      assert (T2 : s * s = 1 - k * k) by lra. subst A. clearbody s k st. field [T2].
    + apply dl_continuity. intros phi. unfold sphere_point. cbn [nth]. eexists. simpl pow. dl.
    + exists pr. etransitivity; [exact Hpr|]. rewrite sin_2PI, cos_2PI, sin_0, cos_0. subst B D A. field.
  - destruct (ftc (fun t => - (2 * PI) * (c * c * cos t + c * z * (cos t * cos t) + z * z * (cos t * (cos t * cos t)) * / 3)
                            + PI * (x * x + y * y) * (cos t * (cos t * cos t) * / 3 - cos t))
       (fun theta => sin theta * (2 * PI * ((c + z * cos theta) * (c + z * cos theta)) + PI * ((x * x + y * y) * (sin theta * sin theta))))
       0 PI) as [pr Hpr].
    + lra.
    + intros t. eapply dl_eq; [dl|]. cbv beta. pose proof (sin2_cos2 t) as T. unfold Rsqr in T. set (s := sin t) in *. set (k := cos t) in *.
      assert (T2 : s * s = 1 - k * k) by lra. clearbody s k. field [T2].
    + apply dl_continuity. intros t. eexists. dl.
    + exists pr. etransitivity; [exact Hpr|]. rewrite cos_PI, cos_0. field.
Qed.
Lemma int_ext : forall f g a b v, a <= b -> (forall x, f x = g x) ->
  (exists pr : Riemann_integrable f a b, RiemannInt pr = v) -> exists pr : Riemann_integrable g a b, RiemannInt pr = v.
Proof.
  intros f g a b v Hab H [pr Hpr]. exists (@Riemann_integrable_ext f g a b (fun x _ => H x) pr). rewrite <- Hpr.
  apply RiemannInt_P18; [exact Hab|]. intros. symmetry. apply H.
Qed.
Lemma int_scal : forall f k a b v, a <= b -> (exists pr : Riemann_integrable f a b, RiemannInt pr = v) ->
  exists pr : Riemann_integrable (fun x => k * f x) a b, RiemannInt pr = k * v.
Proof.
  intros f k a b v Hab [pr Hpr]. apply (int_ext (fun x => fct_cte 0 x + k * f x)); [exact Hab|intros; unfold fct_cte; ring|].
  pose (z := RiemannInt_P14 a b 0). exists (RiemannInt_P10 k z pr).
  rewrite (RiemannInt_P13 z pr (RiemannInt_P10 k z pr)). rewrite RiemannInt_P15, Hpr. ring.
Qed.
Lemma surface_ext : forall f g a, (forall phi theta, f (sphere_point phi theta) = g (sphere_point phi theta)) -> surface_integral f a -> surface_integral g a.
Proof.
  intros f g a H [h [H1 H2]]. exists h. split; [|exact H2]. intros theta. pose proof PI_RGT_0.
  apply (int_ext (fun phi => f (sphere_point phi theta) * sin theta)); [lra| |apply H1]. intros phi. now rewrite H.
Qed.
Lemma surface_scal : forall f k a, surface_integral f a -> surface_integral (fun r => k * f r) (k * a).
Proof.
  intros f k a [h [H1 H2]]. pose proof PI_RGT_0. exists (fun t => k * h t). split.
  - intros theta. apply (int_ext (fun phi => k * (f (sphere_point phi theta) * sin theta))); [lra|intros; ring|].
    apply int_scal; [lra|]. apply H1.
  - apply int_scal; [lra|exact H2].
Qed.
