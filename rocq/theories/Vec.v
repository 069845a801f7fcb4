(** Real vectors of any dimension as lists (Eigen column vectors). *)
From Coq Require Import List ZArith Lia Reals Lra Psatz.
From Verif Require Import Base BaseProofs.
Import ListNotations.
Local Open Scope R_scope.

Notation vec := (list R) (only parsing).

Fixpoint map2 {A B C} (f : A -> B -> C) (l : list A) (m : list B) : list C :=
  match l, m with a :: l', b :: m' => f a b :: map2 f l' m' | _, _ => [] end.

Definition vadd : vec -> vec -> vec := map2 Rplus.
Definition vminus : vec -> vec -> vec := map2 Rminus.
Definition vscal (k : R) (v : vec) : vec := map (fun x => k * x) v.
Definition dot (a b : vec) : R := Rsum (map2 Rmult a b).
Definition vsq (v : vec) : R := dot v v.
(** [norm()] *)
Definition vnorm (v : vec) : R := sqrt (vsq v).
(** Distance between two points. *)
Definition vdist (a b : vec) : R := vnorm (vminus a b).
(** Eigen's [normalized()]: divide by the norm when the squared norm is positive. *)
Definition vnormalized (v : vec) : vec :=
  if Rlt_dec 0 (vsq v) then vscal (/ vnorm v) v else v.

Lemma map2_length : forall {A B C} (f : A -> B -> C) l m,
  length l = length m -> length (map2 f l m) = length l.
Proof. induction l; destruct m; simpl; intros; try discriminate; auto. Qed.

Lemma vadd_length : forall a b, length a = length b -> length (vadd a b) = length a.
Proof. intros. now apply map2_length. Qed.
Lemma vminus_length : forall a b, length a = length b -> length (vminus a b) = length a.
Proof. intros. now apply map2_length. Qed.
Lemma vscal_length : forall k a, length (vscal k a) = length a.
Proof. intros. apply map_length. Qed.

Lemma dot_comm : forall a b, dot a b = dot b a.
Proof.
  unfold dot. induction a; destruct b; simpl; auto. rewrite IHa. lra.
Qed.

Lemma dot_cons : forall x a y b, dot (x :: a) (y :: b) = x * y + dot a b.
Proof. reflexivity. Qed.

Lemma dot_vadd_l : forall a b c, length a = length b ->
  dot (vadd a b) c = dot a c + dot b c.
Proof.
  induction a; destruct b; intros c H; simpl in H; try discriminate.
  - simpl. unfold dot; simpl. lra.
  - destruct c as [|z c]; [unfold dot; simpl; lra|].
    cbn [vadd map2]. fold (vadd a0 b). rewrite !dot_cons, IHa by lia. lra.
Qed.

Lemma dot_vminus_l : forall a b c, length a = length b ->
  dot (vminus a b) c = dot a c - dot b c.
Proof.
  induction a; destruct b; intros c H; simpl in H; try discriminate.
  - simpl. unfold dot; simpl. lra.
  - destruct c as [|z c]; [unfold dot; simpl; lra|].
    cbn [vminus map2]. fold (vminus a0 b). rewrite !dot_cons, IHa by lia. lra.
Qed.

Lemma dot_vscal_l : forall k a c, dot (vscal k a) c = k * dot a c.
Proof.
  induction a; intros c; [unfold dot; simpl; lra|].
  destruct c as [|z c]; [unfold dot; simpl; lra|].
  cbn [vscal map]. fold (vscal k a0). rewrite !dot_cons, IHa. lra.
Qed.

Lemma dot_vadd_r : forall a b c, length a = length b ->
  dot c (vadd a b) = dot c a + dot c b.
Proof. intros. rewrite !(dot_comm c). now apply dot_vadd_l. Qed.
Lemma dot_vminus_r : forall a b c, length a = length b ->
  dot c (vminus a b) = dot c a - dot c b.
Proof. intros. rewrite !(dot_comm c). now apply dot_vminus_l. Qed.
Lemma dot_vscal_r : forall k a c, dot c (vscal k a) = k * dot c a.
Proof. intros. rewrite !(dot_comm c). apply dot_vscal_l. Qed.

Lemma vsq_nonneg : forall v, 0 <= vsq v.
Proof. unfold vsq, dot. induction v; simpl; [lra|]. nra. Qed.

Lemma vsq_zero : forall v, vsq v = 0 -> Forall (fun x => x = 0) v.
Proof.
  induction v as [|x v IH]; intros H; constructor.
  - unfold vsq in H. rewrite dot_cons in H. pose proof (vsq_nonneg v). unfold vsq in *. nra.
  - apply IH. unfold vsq in *. rewrite dot_cons in H. pose proof (vsq_nonneg v).
    unfold vsq in *. nra.
Qed.

Lemma vnorm_nonneg : forall v, 0 <= vnorm v.
Proof. intros. apply sqrt_pos. Qed.

Lemma vnorm_sq : forall v, vnorm v * vnorm v = vsq v.
Proof. intros. apply sqrt_sqrt, vsq_nonneg. Qed.

Lemma vnorm_vscal : forall k v, vnorm (vscal k v) = Rabs k * vnorm v.
Proof.
  intros. unfold vnorm, vsq. rewrite dot_vscal_l, dot_vscal_r.
  rewrite <- Rmult_assoc. rewrite sqrt_mult_alt by nra.
  f_equal. rewrite <- sqrt_Rsqr_abs. reflexivity.
Qed.

(** Cauchy-Schwarz. *)
Lemma cauchy_schwarz : forall a b, length a = length b -> dot a b * dot a b <= vsq a * vsq b.
Proof.
  intros a b H.
  destruct (Req_dec (vsq b) 0) as [Hb|Hb].
  - assert (Hz : dot a b = 0).
    { apply vsq_zero in Hb. clear H. unfold dot. revert a.
      induction Hb; intros a; destruct a; simpl; auto.
      rewrite IHHb. subst. lra. }
    rewrite Hz, Hb. lra.
  - pose proof (vsq_nonneg b) as Pb.
    pose proof (vsq_nonneg (vminus a (vscal (dot a b / vsq b) b))) as P.
    unfold vsq in P at 1.
    rewrite dot_vminus_l, !dot_vminus_r, !dot_vscal_l, !dot_vscal_r in P
      by (rewrite vscal_length; auto).
    rewrite (dot_comm b a) in P. fold (vsq a) (vsq b) in P.
    replace (vsq a - dot a b / vsq b * dot a b - (dot a b / vsq b * dot a b - dot a b / vsq b * (dot a b / vsq b * vsq b)))
      with (vsq a - dot a b * dot a b / vsq b) in P by (field; auto).
    assert (dot a b * dot a b / vsq b <= vsq a) by lra.
    apply Rmult_le_compat_r with (r := vsq b) in H0; [|lra].
    unfold Rdiv in H0. rewrite Rmult_assoc, Rinv_l in H0 by auto. lra.
Qed.

Lemma dot_le_norms : forall a b, length a = length b -> Rabs (dot a b) <= vnorm a * vnorm b.
Proof.
  intros a b H. pose proof (cauchy_schwarz a b H) as C.
  apply Rsqr_incr_0_var.
  - rewrite <- Rsqr_abs. unfold Rsqr.
    replace (vnorm a * vnorm b * (vnorm a * vnorm b))
      with ((vnorm a * vnorm a) * (vnorm b * vnorm b)) by ring.
    rewrite !vnorm_sq. exact C.
  - apply Rmult_le_pos; apply vnorm_nonneg.
Qed.

Lemma vsq_vadd : forall a b, length a = length b ->
  vsq (vadd a b) = vsq a + 2 * dot a b + vsq b.
Proof.
  intros. unfold vsq. rewrite dot_vadd_l, !dot_vadd_r by (auto; rewrite vadd_length; auto).
  rewrite (dot_comm b a). lra.
Qed.

Lemma vsq_vminus : forall a b, length a = length b ->
  vsq (vminus a b) = vsq a - 2 * dot a b + vsq b.
Proof.
  intros. unfold vsq. rewrite dot_vminus_l, !dot_vminus_r by (auto; rewrite vminus_length; auto).
  rewrite (dot_comm b a). lra.
Qed.

Lemma vsq_vscal : forall k a, vsq (vscal k a) = k * k * vsq a.
Proof. intros. unfold vsq. rewrite dot_vscal_l, dot_vscal_r. lra. Qed.

Lemma vnorm_triangle : forall a b, length a = length b ->
  vnorm (vadd a b) <= vnorm a + vnorm b.
Proof.
  intros a b H. apply Rsqr_incr_0_var.
  - unfold Rsqr. rewrite vnorm_sq, vsq_vadd by auto.
    pose proof (dot_le_norms a b H). pose proof (Rle_abs (dot a b)).
    pose proof (vnorm_sq a). pose proof (vnorm_sq b). nra.
  - pose proof (vnorm_nonneg a). pose proof (vnorm_nonneg b). lra.
Qed.

(** Algebra of list vectors of equal length. *)
Lemma vminus_self : forall a, vminus a a = map (fun _ => 0) a.
Proof.
  unfold vminus. induction a as [|x a IH]; simpl; auto. rewrite IH. f_equal. lra.
Qed.

Lemma vec_ext : forall a b : vec, length a = length b ->
  (forall i, nth i a 0 = nth i b 0) -> a = b.
Proof.
  induction a as [|x a IH]; destruct b as [|y b]; simpl; intros H E; try discriminate; auto.
  f_equal; [exact (E 0%nat)|]. apply IH; [lia|]. intros i. exact (E (S i)).
Qed.

Lemma nth_map2 : forall (f : R -> R -> R) a b i, f 0 0 = 0 -> length a = length b ->
  nth i (map2 f a b) 0 = f (nth i a 0) (nth i b 0).
Proof.
  induction a; destruct b; intros i F H; simpl in H; try discriminate; destruct i; simpl; auto.
Qed.

Lemma nth_vadd : forall a b i, length a = length b -> nth i (vadd a b) 0 = nth i a 0 + nth i b 0.
Proof. intros. apply nth_map2; auto; lra. Qed.
Lemma nth_vminus : forall a b i, length a = length b -> nth i (vminus a b) 0 = nth i a 0 - nth i b 0.
Proof. intros. apply nth_map2; auto; lra. Qed.
Lemma nth_vscal : forall k a i, nth i (vscal k a) 0 = k * nth i a 0.
Proof.
  intros. unfold vscal. rewrite <- (map_nth (fun x => k * x)). f_equal. lra.
Qed.

Ltac vlen :=
  repeat first [ rewrite vscal_length | rewrite vadd_length by vlen | rewrite vminus_length by vlen ];
  solve [ reflexivity | assumption | symmetry; assumption | congruence | lia ].

(** Decide an equation between vector expressions coordinate by coordinate; the
    remaining goal is an equation between reals. *)
Ltac vring :=
  apply vec_ext; [vlen|];
  let i := fresh "i" in intro i;
  repeat first [ rewrite nth_vadd by vlen | rewrite nth_vminus by vlen | rewrite nth_vscal ];
  try ring.

Lemma vdist_comm : forall a b, length a = length b -> vdist a b = vdist b a.
Proof.
  intros a b H. unfold vdist, vnorm. f_equal.
  rewrite !vsq_vminus by auto. rewrite (dot_comm b a). lra.
Qed.

Lemma vdist_triangle : forall a b c, length a = length b -> length b = length c ->
  vdist a c <= vdist a b + vdist b c.
Proof.
  intros a b c H1 H2. unfold vdist.
  replace (vminus a c) with (vadd (vminus a b) (vminus b c)).
  - apply vnorm_triangle. vlen.
  - vring.
Qed.

Lemma vdist_nonneg : forall a b, 0 <= vdist a b.
Proof. intros. apply vnorm_nonneg. Qed.

Lemma vdist_sq : forall a b, vdist a b * vdist a b = vsq (vminus a b).
Proof. intros. apply vnorm_sq. Qed.

Lemma vdist_refl : forall a, vdist a a = 0.
Proof.
  intros a. unfold vdist, vnorm. rewrite vsq_vminus by auto.
  replace (vsq a - 2 * dot a a + vsq a) with 0 by (unfold vsq; lra). apply sqrt_0.
Qed.

Lemma vnormalized_unit : forall v, 0 < vsq v -> vsq (vnormalized v) = 1.
Proof.
  intros v H. unfold vnormalized. destruct (Rlt_dec 0 (vsq v)); [|contradiction].
  rewrite vsq_vscal. rewrite <- (vnorm_sq v). 
  assert (0 < vnorm v) by (apply sqrt_lt_R0; auto). field. lra.
Qed.

Lemma vnormalized_length : forall v, length (vnormalized v) = length v.
Proof. intros. unfold vnormalized. destruct (Rlt_dec _ _); auto. apply vscal_length. Qed.

(** Expand inner products of vector expressions (also in a hypothesis). *)
Ltac vexp :=
  repeat first [ rewrite dot_vminus_r by vlen | rewrite dot_vadd_r by vlen | rewrite dot_vscal_r
               | rewrite dot_vminus_l by vlen | rewrite dot_vadd_l by vlen | rewrite dot_vscal_l ].
Ltac vexp_in H :=
  repeat first [ rewrite dot_vminus_r in H by vlen | rewrite dot_vadd_r in H by vlen | rewrite dot_vscal_r in H
               | rewrite dot_vminus_l in H by vlen | rewrite dot_vadd_l in H by vlen | rewrite dot_vscal_l in H ].
