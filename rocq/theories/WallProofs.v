From Coq Require Import List ZArith Lia Reals Lra Psatz Bool.
From Verif Require Import Base BaseProofs Vec GeometryModel GeometrySpec GeometryProofs WallModel WallSpec.
Import ListNotations.
Local Open Scope R_scope.

Lemma vadd_inj_scal : forall p k n, length p = length n ->
  dot n n = 1 -> forall k', vadd p (vscal k n) = vadd p (vscal k' n) -> k = k'.
Proof.
  intros p k n L N k' H.
  assert (E : dot n (vadd p (vscal k n)) = dot n (vadd p (vscal k' n))) by now rewrite H.
  rewrite !dot_vadd_r, !dot_vscal_r, N in E by vlen. lra.
Qed.

(** The mirror image is unique. *)
Lemma is_mirror_unique : forall o n p q q', dot n n = 1 -> length n = length p -> length o = length p ->
  is_mirror o n p q -> is_mirror o n p q' -> q = q'.
Proof.
  intros o n p q q' N L1 L2 (La & [k Ek] & M) (Lb & [k' Ek'] & M').
  subst q q'.
  rewrite dot_vminus_r, dot_vscal_r, dot_vadd_r, dot_vadd_r, dot_vscal_r, N in M by vlen.
  rewrite dot_vminus_r, dot_vscal_r, dot_vadd_r, dot_vadd_r, dot_vscal_r, N in M' by vlen.
  assert (k = k') by lra. now subst.
Qed.

Section Reflect.
  Variables (eps : R) (w : wall).
  Hypothesis Nn : dot (w_normal w) (w_normal w) = 1.
  Let n := w_normal w.
  Let o := w_origin w.
  Hypothesis Lo : length o = length n.

  Lemma reflect_is_mirror : forall p, length p = length n -> is_mirror o n p (snd (reflect eps w p)).
  Proof.
    intros p L. unfold reflect; simpl. fold n o. split; [vlen|]. split; [eexists; reflexivity|].
    vexp. unfold n in *; rewrite Nn. lra.
  Qed.

  Lemma reflect_length : forall p, length p = length n -> length (snd (reflect eps w p)) = length n.
  Proof. intros. unfold reflect; simpl. fold n o. vlen. Qed.

  Lemma reflect_height : forall p, length p = length n ->
    height o n (snd (reflect eps w p)) = - height o n p.
  Proof.
    intros p L. unfold height, reflect; simpl. fold n o.
    vexp. unfold n in *; rewrite Nn. lra.
  Qed.

  Lemma reflect_involution_proof : forall p, length p = length n ->
    snd (reflect eps w (snd (reflect eps w p))) = p.
  Proof.
    intros p L.
    pose proof (reflect_height p L) as H. unfold height in H.
    unfold reflect at 1; cbn [snd]. fold n o.
    replace (dot n (vminus o (snd (reflect eps w p)))) with (- dot n (vminus o p)).
    - unfold reflect; cbn [snd]. fold n o. vring.
    - pose proof (reflect_length p L). vexp. vexp_in H. lra.
  Qed.

  Lemma reflect_isometry_proof : forall p q, length p = length n -> length q = length n ->
    vdist (snd (reflect eps w p)) (snd (reflect eps w q)) = vdist p q.
  Proof.
    intros p q Lp Lq. unfold vdist, vnorm. f_equal. unfold reflect; simpl. fold n o.
    replace (vminus (vadd p (vscal (2 * dot n (vminus o p)) n)) (vadd q (vscal (2 * dot n (vminus o q)) n)))
      with (vminus (vminus p q) (vscal (2 * dot n (vminus p q)) n)).
    - rewrite vsq_vminus by vlen. rewrite vsq_vscal, dot_vscal_r.
      rewrite (dot_comm (vminus p q) n). unfold vsq at 2. unfold n in *; rewrite Nn. ring.
    - rewrite !dot_vminus_r by vlen. vring.
  Qed.

  Lemma reflect_fixed_proof : forall p, length p = length n ->
    snd (reflect eps w p) = p <-> height o n p = 0.
  Proof.
    intros p L. split; intros H.
    - pose proof (reflect_height p L) as E. rewrite H in E. lra.
    - unfold height in H. unfold reflect; simpl. fold n o.
      replace (dot n (vminus o p)) with 0.
      + vring.
      + rewrite dot_vminus_r in * by vlen. lra.
  Qed.

  Lemma reflect_code_proof : forall p, 0 <= eps -> length p = length n ->
    code_of_height eps (- height o n p) (fst (reflect eps w p)) /\
    code_of_height eps (height o n p) (side eps w p) /\
    side eps w (snd (reflect eps w p)) = (- side eps w p)%Z /\
    side eps w (snd (reflect eps w p)) = fst (reflect eps w p).
  Proof.
    intros p He L.
    assert (S : forall q, length q = length n -> code_of_height eps (height o n q) (side eps w q)).
    { intros q Lq. unfold side, height. fold n o. rewrite (dot_comm (vminus q o) n).
      unfold code_of_height. rdec; [left|right; left|right; right]; split; auto; lra. }
    assert (C : code_of_height eps (- height o n p) (fst (reflect eps w p))).
    { unfold reflect, height, code_of_height; simpl. fold n o.
      rewrite !dot_vminus_r by vlen.
      rdec; [left|right; left|right; right]; split; auto; lra. }
    pose proof (S p L) as Sp. pose proof (S _ (reflect_length p L)) as Sq.
    rewrite reflect_height in Sq by auto.
    repeat split; auto; unfold code_of_height in *.
    - destruct Sp as [[-> ?]|[[-> ?]|[-> ?]]]; destruct Sq as [[-> ?]|[[-> ?]|[-> ?]]]; auto; lra.
    - destruct C as [[-> ?]|[[-> ?]|[-> ?]]]; destruct Sq as [[-> ?]|[[-> ?]|[-> ?]]]; auto; lra.
  Qed.

  (** Points of the plane are equidistant from a point and its mirror image. *)
  Lemma mirror_equidistant : forall p x, length p = length n -> length x = length n ->
    height o n x = 0 -> vdist x (snd (reflect eps w p)) = vdist x p.
  Proof.
    intros p x Lp Lx Hx.
    rewrite <- (reflect_isometry_proof x p) by auto.
    apply reflect_fixed_proof in Hx; auto. now rewrite Hx.
  Qed.

  Lemma nr_length : forall d, length d = length n -> length (normal_reflect w d) = length n.
  Proof. intros. unfold normal_reflect. fold n. vlen. Qed.

  Lemma nr_normal : forall d, length d = length n -> dot n (normal_reflect w d) = - dot n d.
  Proof.
    intros d L. unfold normal_reflect. fold n. rewrite dot_vminus_r, dot_vscal_r by vlen.
    rewrite (dot_comm d n). unfold n in *; rewrite Nn. lra.
  Qed.

  Lemma nr_tangent : forall d t, length d = length n -> length t = length n -> dot n t = 0 ->
    dot (normal_reflect w d) t = dot d t.
  Proof.
    intros d t L Lt H. unfold normal_reflect. fold n. rewrite dot_vminus_l, dot_vscal_l by vlen.
    rewrite H. lra.
  Qed.

  Lemma nr_sq : forall d, length d = length n -> vsq (normal_reflect w d) = vsq d.
  Proof.
    intros d L. unfold normal_reflect. fold n. rewrite vsq_vminus by vlen.
    rewrite vsq_vscal, dot_vscal_r. unfold vsq at 2. unfold n in *; rewrite Nn. ring.
  Qed.

  Lemma nr_involution : forall d, length d = length n -> normal_reflect w (normal_reflect w d) = d.
  Proof.
    intros d L. unfold normal_reflect at 1. fold n. rewrite (dot_comm _ n), nr_normal by auto.
    unfold normal_reflect. fold n. rewrite (dot_comm d n). vring.
  Qed.

  Lemma nr_at : forall start hit len, length start = length n -> length hit = length n ->
    0 < vsq (vminus hit start) -> vdist (normal_reflect_at w start hit len) hit = Rabs len.
  Proof.
    intros start hit len Ls Lh Hp. unfold normal_reflect_at.
    set (inc := vnormalized (vminus hit start)).
    assert (Li : length inc = length n).
    { unfold inc. rewrite vnormalized_length. vlen. }
    fold (normal_reflect w inc).
    unfold vdist.
    replace (vminus (vadd hit (vscal len (normal_reflect w inc))) hit) with (vscal len (normal_reflect w inc)).
    - rewrite vnorm_vscal. unfold vnorm. rewrite nr_sq by auto.
      unfold inc. rewrite vnormalized_unit by auto. rewrite sqrt_1. lra.
    - pose proof (nr_length inc Li). vring.
  Qed.
End Reflect.

(** ** Constructors *)
Lemma make_wall2_ok_proof : forall g c0 c1 a s w, length c0 = 2%nat -> length c1 = 2%nat ->
  c0 <> c1 -> make_wall2 g [c0; c1] a s = Some w ->
  length (w_normal w) = 2%nat /\ dot (w_normal w) (w_normal w) = 1 /\
  w_origin w = c0 /\ height c0 (w_normal w) c1 = 0 /\
  (forall p, length p = 2%nat ->
     (0 < height c0 (w_normal w) p <-> orient (to2 c0) (to2 c1) (to2 p) < 0)).
Proof.
  intros g c0 c1 a s w L0 L1 Hne. unfold make_wall2.
  destruct (negb _); [discriminate|]. intros H; injection H as <-. simpl.
  destruct c0 as [|x0 [|y0 [|]]]; try discriminate. destruct c1 as [|x1 [|y1 [|]]]; try discriminate.
  simpl.
  set (v := [y1 - y0; x0 - x1]).
  assert (P : 0 < vsq v).
  { unfold vsq, dot, v; simpl.
    clear v. destruct (Req_dec x0 x1) as [E|E]; [destruct (Req_dec y0 y1) as [E'|E']|].
    - subst; contradiction.
    - pose proof (Rle_0_sqr (x0 - x1)) as Q1. pose proof (Rsqr_pos_lt (y1 - y0)) as Q2. unfold Rsqr in *. lra.
    - pose proof (Rsqr_pos_lt (x0 - x1)) as Q1. pose proof (Rle_0_sqr (y1 - y0)) as Q2. unfold Rsqr in *. lra. }
  split; [rewrite vnormalized_length; reflexivity|].
  split; [apply vnormalized_unit; auto|].
  split; [reflexivity|].
  unfold height, vnormalized. destruct (Rlt_dec 0 (vsq v)); [|contradiction].
  assert (Pn : 0 < / vnorm v) by (apply Rinv_0_lt_compat, sqrt_lt_R0; auto).
  split.
  - rewrite dot_vscal_l. unfold v, dot, vminus; simpl. ring.
  - intros p Lp. destruct p as [|px [|py [|]]]; try discriminate.
    rewrite dot_vscal_l. unfold v, dot, vminus, orient, to2; simpl.
    set (k := / _) in *. split; intros.
    + assert (0 < (y1 - y0) * (px - x0) + ((x0 - x1) * (py - y0) + 0)) by nra. lra.
    + apply Rmult_lt_0_compat; auto. lra.
Qed.

Ltac vec3 v L := destruct v as [|? [|? [|? [|]]]]; try discriminate L; clear L.

Lemma cross3_orthonormal : forall u v, orthonormal3 u v ->
  length (cross3 u v) = 3%nat /\ dot (cross3 u v) (cross3 u v) = 1 /\
  dot (cross3 u v) u = 0 /\ dot (cross3 u v) v = 0.
Proof.
  intros u v (Lu & Lv & U & V & O). vec3 u Lu. vec3 v Lv.
  unfold cross3, dot in *; simpl in *.
  split; [reflexivity|]. split; [|split; ring].
  (* Lagrange identity *)
  match goal with |- ?lhs = 1 => assert (E : lhs =
     (r * r + r0 * r0 + r1 * r1) * (r2 * r2 + r3 * r3 + r4 * r4) - (r * r2 + r0 * r3 + r1 * r4) * (r * r2 + r0 * r3 + r1 * r4)) by ring end.
  rewrite E.
  replace (r * r + r0 * r0 + r1 * r1) with 1 by lra.
  replace (r2 * r2 + r3 * r3 + r4 * r4) with 1 by lra.
  replace (r * r2 + r0 * r3 + r1 * r4) with 0 by lra. ring.
Qed.

Lemma cross3_swap : forall u v, length u = 3%nat -> length v = 3%nat -> cross3 u v = vscal (-1) (cross3 v u).
Proof.
  intros u v Lu Lv. vec3 u Lu. vec3 v Lv. simpl. unfold vscal; simpl. f_equal; [ring|f_equal; [ring|f_equal; ring]].
Qed.

Lemma cross_cross3 : forall u v, length u = 3%nat -> length v = 3%nat -> cross u v = cross3 u v.
Proof. intros u v Lu Lv. vec3 u Lu. vec3 v Lv. reflexivity. Qed.

Lemma orthonormal3_sym : forall u v, orthonormal3 u v -> orthonormal3 v u.
Proof. intros u v (A & B & C & D & E). repeat split; auto. now rewrite dot_comm. Qed.

Lemma area_swap : forall l, area_2d_polygon (map (fun p => (snd p, fst p)) l) = - area_2d_polygon l.
Proof.
  intros l. rewrite !area_shoelace_proof, !shoelace_Asum.
  assert (EM : edges (map (fun p : R * R => (snd p, fst p)) l)
     = map (fun e => ((snd (fst e), fst (fst e)), (snd (snd e), fst (snd e)))) (edges l)).
  { destruct l as [|a t]; [reflexivity|].
    set (g := fun p : R * R => (snd p, fst p)).
    assert (C : forall m a, chain (g a) (map g m) = map (fun e => (g (fst e), g (snd e))) (chain a m)).
    { induction m; intros; simpl; auto. now rewrite IHm. }
    unfold edges. cbn [map].
    replace (last (g a :: map g t) (g a)) with (g (last (a :: t) a)).
    - apply (C (a :: t)).
    - rewrite !last_cons. clear. revert a. induction t as [|b t IH]; intros a; [reflexivity|].
      simpl map. rewrite !last_cons. apply IH. }
  rewrite EM. unfold Asum. rewrite map_map.
  rewrite (Rsum_map_ext _ (fun e => (-1) * cr e)).
  - rewrite Rsum_map_scal. lra.
  - intros [[? ?] [? ?]]. unfold cr, X, Y; simpl. lra.
Qed.

Lemma make_wall3_ok_proof : forall eps svd corners a s w,
  (let m := relative corners in orthonormal3 (fst (fst (svd m))) (snd (fst (svd m)))) ->
  make_wall3 eps svd corners a s = Some w ->
  length (w_normal w) = 3%nat /\ dot (w_normal w) (w_normal w) = 1 /\
  orthonormal3 (fst (w_basis w)) (snd (w_basis w)) /\
  dot (w_normal w) (fst (w_basis w)) = 0 /\ dot (w_normal w) (snd (w_basis w)) = 0 /\
  w_normal w = cross3 (fst (w_basis w)) (snd (w_basis w)) /\
  w_origin w = nth 0 corners [] /\
  w_corners w = corners /\
  w_flat w = map (project (w_basis w) (w_origin w)) corners /\
  0 <= wall_area 3 w.
Proof.
  intros eps svd corners a s w Hs. unfold make_wall3.
  destruct (negb _); [discriminate|].
  cbv zeta in Hs. unfold relative in Hs.
  destruct (svd _) as [[u0 u1] sv2]. simpl in Hs.
  destruct (Rltb eps sv2); [discriminate|]. intros H; injection H as <-. cbn -[area_2d_polygon cross3].
  destruct (Rltb _ 0) eqn:E; cbn [fst snd].
  - pose proof (orthonormal3_sym _ _ Hs) as Hs'. destruct (cross3_orthonormal _ _ Hs') as (A & B & C & D).
    repeat split; auto; try apply Hs'.
    + rewrite map_map. apply map_ext. reflexivity.
    + unfold wall_area; cbn -[area_2d_polygon]. rewrite area_swap. apply Rltb_true in E. lra.
  - destruct (cross3_orthonormal _ _ Hs) as (A & B & C & D).
    repeat split; auto; try apply Hs.
    unfold wall_area; cbn -[area_2d_polygon]. apply Rltb_false in E. lra.
Qed.

(** Newell's formula: the flat area is the component of the area vector along the
    normal of the basis. *)
Lemma dot_vsum : forall n l v, length v = n -> (forall x, In x l -> length x = n) ->
  dot (vsum n l) v = Rsum (map (fun x => dot x v) l).
Proof.
  induction l as [|x l IH]; intros v L H.
  - simpl. clear H. revert v L. induction n; intros [|y v] L; simpl in *; try discriminate; auto.
    rewrite dot_cons. rewrite IHn by lia. lra.
  - cbn [vsum map Rsum fold_right]. fold (Rsum (map (fun x => dot x v) l)).
    rewrite dot_vadd_l.
    + rewrite IH; auto. intros; apply H; simpl; auto.
    + rewrite H by (simpl; auto). symmetry. clear - H.
      assert (forall x, In x l -> length x = n) by (intros; apply H; simpl; auto). clear H.
      induction l as [|y l IH]; [simpl; apply repeat_length|].
      cbn [vsum]. rewrite vadd_length; [apply H0; simpl; auto|].
      rewrite H0 by (simpl; auto). rewrite IH; auto. intros; apply H0; simpl; auto.
Qed.

Lemma binet_cauchy : forall a b u v, length a = 3%nat -> length b = 3%nat -> length u = 3%nat -> length v = 3%nat ->
  dot (cross a b) (cross3 u v) = dot a u * dot b v - dot a v * dot b u.
Proof.
  intros a b u v La Lb Lu Lv. vec3 a La. vec3 b Lb. vec3 u Lu. vec3 v Lv.
  unfold cross, cross3, dot; simpl. ring.
Qed.

Lemma edges_map : forall {A B} (g : A -> B) m,
  edges (map g m) = map (fun e => (g (fst e), g (snd e))) (edges m).
Proof.
  intros A B g m. destruct m as [|a t]; [reflexivity|].
  assert (C : forall m a, chain (g a) (map g m) = map (fun e => (g (fst e), g (snd e))) (chain a m)).
  { induction m; intros; simpl; auto. now rewrite IHm. }
  unfold edges. cbn [map].
  replace (last (g a :: map g t) (g a)) with (g (last (a :: t) a)).
  - apply (C (a :: t)).
  - rewrite !last_cons. clear. revert a. induction t as [|b t IH]; intros a; [reflexivity|].
    simpl map. rewrite !last_cons. apply IH.
Qed.

Lemma edges_In' : forall {A} (l : list A) e, In e (edges l) -> In (fst e) l /\ In (snd e) l.
Proof.
  intros A [|a t] e H; [destruct H|]. unfold edges in H.
  assert (G : forall m x, In e (chain x m) -> (fst e = x \/ In (fst e) m) /\ In (snd e) m).
  { induction m as [|b m IH]; intros x Hx; [destruct Hx|].
    destruct Hx as [<-|Hx]; simpl; [auto|]. destruct (IH b Hx) as [[->|HA] HB]; auto. }
  destruct (G _ _ H) as [[HA|HA] HB]; split; auto. rewrite HA. apply last_In. discriminate.
Qed.

Definition area_vector (origin : vec) (corners : list vec) : vec :=
  vscal (/ 2) (vsum 3 (map (fun e => cross (vminus (fst e) origin) (vminus (snd e) origin)) (edges corners))).

Lemma newell_proof : forall u v o corners, orthonormal3 u v -> length o = 3%nat ->
  (forall c, In c corners -> length c = 3%nat) ->
  area_2d_polygon (map (project (u, v) o) corners) = dot (area_vector o corners) (cross3 u v).
Proof.
  intros u v o corners Ho Lo Lc.
  pose proof (cross3_orthonormal _ _ Ho) as (L3 & _). destruct Ho as (Lu & Lv & _).
  rewrite area_shoelace_proof, shoelace_Asum. unfold area_vector.
  rewrite dot_vscal_l. f_equal.
  rewrite dot_vsum; auto.
  2:{ intros x Hx. apply in_map_iff in Hx. destruct Hx as [e [<- _]]. reflexivity. }
  rewrite edges_map. unfold Asum. rewrite !map_map. f_equal. apply map_ext_in.
  intros e He. apply edges_In' in He. destruct He as [H1 H2].
  pose proof (Lc _ H1). pose proof (Lc _ H2).
  rewrite binet_cauchy by vlen.
  unfold cr, project, X, Y; simpl.
  rewrite !(dot_comm _ (vminus _ _)). ring.
Qed.

(** In space, a vector orthogonal to two orthonormal vectors is a multiple of their
    cross product. *)
Lemma span_normal : forall u v x, orthonormal3 u v -> length x = 3%nat ->
  dot x u = 0 -> dot x v = 0 -> x = vscal (dot x (cross3 u v)) (cross3 u v).
Proof.
  intros u v x Ho Lx H1 H2. pose proof (cross3_orthonormal _ _ Ho) as (L3 & N & _).
  set (n := cross3 u v) in *.
  set (y := vminus x (vscal (dot x n) n)).
  assert (Z : vsq y = 0).
  { (* y is orthogonal to u, v, n; use the identity |y x ...| via Gram determinant *)
    destruct Ho as (Lu & Lv & U & V & O). subst y n.
    vec3 u Lu. vec3 v Lv. vec3 x Lx.
    unfold cross3, vsq, dot, vminus, vscal in *; simpl in *.
    set (a := r0 * r4 - r1 * r3) in *. set (b := r1 * r2 - r * r4) in *. set (c := r * r3 - r0 * r2) in *.
    (* x x n = x x (u x v) = u (x.v) - v (x.u) = 0, so |x|^2 |n|^2 = (x.n)^2 *)
    assert (C1 : r6 * c - r7 * b = 0).
    { replace (r6 * c - r7 * b) with (r * (r5 * r2 + r6 * r3 + r7 * r4) - r2 * (r5 * r + r6 * r0 + r7 * r1)) by (subst a b c; ring).
      replace (r5 * r2 + r6 * r3 + r7 * r4) with 0 by lra. replace (r5 * r + r6 * r0 + r7 * r1) with 0 by lra. ring. }
    assert (C2 : r7 * a - r5 * c = 0).
    { replace (r7 * a - r5 * c) with (r0 * (r5 * r2 + r6 * r3 + r7 * r4) - r3 * (r5 * r + r6 * r0 + r7 * r1)) by (subst a b c; ring).
      replace (r5 * r2 + r6 * r3 + r7 * r4) with 0 by lra. replace (r5 * r + r6 * r0 + r7 * r1) with 0 by lra. ring. }
    assert (C3 : r5 * b - r6 * a = 0).
    { replace (r5 * b - r6 * a) with (r1 * (r5 * r2 + r6 * r3 + r7 * r4) - r4 * (r5 * r + r6 * r0 + r7 * r1)) by (subst a b c; ring).
      replace (r5 * r2 + r6 * r3 + r7 * r4) with 0 by lra. replace (r5 * r + r6 * r0 + r7 * r1) with 0 by lra. ring. }
    clearbody a b c.
    assert (G : (r5 * r5 + r6 * r6 + r7 * r7) * (a * a + b * b + c * c) = (r5 * a + r6 * b + r7 * c) * (r5 * a + r6 * b + r7 * c)).
    { replace ((r5 * r5 + r6 * r6 + r7 * r7) * (a * a + b * b + c * c)) with
       ((r5 * a + r6 * b + r7 * c) * (r5 * a + r6 * b + r7 * c) + (r6 * c - r7 * b) * (r6 * c - r7 * b)
         + (r7 * a - r5 * c) * (r7 * a - r5 * c) + (r5 * b - r6 * a) * (r5 * b - r6 * a)) by ring.
      rewrite C1, C2, C3. ring. }
    set (t := r5 * a + (r6 * b + (r7 * c + 0))) in *.
    assert (T : r5 * a + r6 * b + r7 * c = t) by (subst t; ring).
    assert (N1 : a * a + b * b + c * c = 1) by lra.
    rewrite T, N1 in G.
    replace ((r5 - t * a) * (r5 - t * a) + ((r6 - t * b) * (r6 - t * b) + ((r7 - t * c) * (r7 - t * c) + 0)))
      with ((r5 * r5 + r6 * r6 + r7 * r7) * 1 - 2 * t * (r5 * a + r6 * b + r7 * c) + t * t * (a * a + b * b + c * c)) by ring.
    rewrite G, T, N1. ring. }
  assert (Ly : length y = 3%nat) by (subst y; vlen).
  apply vsq_zero in Z. subst y.
  apply vec_ext; [vlen|]. intros i.
  assert (nth i (vminus x (vscal (dot x n) n)) 0 = 0).
  { destruct (nth_in_or_default i (vminus x (vscal (dot x n) n)) 0) as [Hi|Hi]; auto.
    rewrite Forall_forall in Z. now apply Z. }
  rewrite nth_vminus in H by vlen. lra.
Qed.

(** A vector orthogonal to the normal is spanned by the basis. *)
Lemma plane_expand : forall u v a, orthonormal3 u v -> length a = 3%nat ->
  dot a (cross3 u v) = 0 -> a = vadd (vscal (dot a u) u) (vscal (dot a v) v).
Proof.
  intros u v a Ho La Hn. pose proof (cross3_orthonormal _ _ Ho) as (L3 & N & NU & NV).
  pose proof Ho as (Lu & Lv & U & V & O).
  set (y := vminus a (vadd (vscal (dot a u) u) (vscal (dot a v) v))).
  assert (Ly : length y = 3%nat) by (subst y; vlen).
  assert (Y0 : y = vscal (dot y (cross3 u v)) (cross3 u v)).
  { apply span_normal; auto; subst y; vexp; rewrite ?U, ?V, ?O, ?(dot_comm v u), ?O; ring. }
  assert (Y1 : dot y (cross3 u v) = 0).
  { subst y. vexp. rewrite Hn, (dot_comm u), (dot_comm v), NU, NV. ring. }
  rewrite Y1 in Y0.
  apply vec_ext; [vlen|]. intros i.
  assert (E : nth i y 0 = 0) by (rewrite Y0, nth_vscal; ring).
  subst y. rewrite nth_vminus in E by vlen. lra.
Qed.

Lemma cross_in_plane : forall u v a b, orthonormal3 u v -> length a = 3%nat -> length b = 3%nat ->
  dot a (cross3 u v) = 0 -> dot b (cross3 u v) = 0 ->
  cross a b = vscal (dot a u * dot b v - dot a v * dot b u) (cross3 u v).
Proof.
  intros u v a b Ho La Lb Ha Hb.
  rewrite (plane_expand u v a Ho La Ha) at 1. rewrite (plane_expand u v b Ho Lb Hb) at 1.
  generalize (dot a u), (dot a v), (dot b u), (dot b v). intros a1 a2 b1 b2.
  destruct Ho as (Lu & Lv & _). vec3 u Lu. vec3 v Lv.
  unfold cross, cross3, vadd, vscal; simpl.
  f_equal; [ring|f_equal; [ring|f_equal; ring]].
Qed.

Lemma vsum_multiples : forall n l m, length m = n ->
  (forall x, In x l -> exists k, x = vscal k m) -> exists k, vsum n l = vscal k m.
Proof.
  induction l as [|x l IH]; intros m L H.
  - exists 0. simpl. rewrite <- L. clear. induction m; simpl; [reflexivity|]. f_equal; [ring|apply IHm].
  - destruct (IH m L) as [k Ek]; [intros; apply H; simpl; auto|].
    destruct (H x) as [k' Ek']; [simpl; auto|].
    exists (k' + k). cbn [vsum]. rewrite Ek, Ek'. vring.
Qed.

Lemma newell_parallel : forall u v o corners, orthonormal3 u v -> length o = 3%nat ->
  (forall c, In c corners -> length c = 3%nat) ->
  (forall c, In c corners -> dot (vminus c o) (cross3 u v) = 0) ->
  area_vector o corners =
  vscal (area_2d_polygon (map (project (u, v) o) corners)) (cross3 u v).
Proof.
  intros u v o corners Ho Lo Lc Hc.
  pose proof (cross3_orthonormal _ _ Ho) as (L3 & N & _).
  rewrite newell_proof by auto.
  destruct (vsum_multiples 3 (map (fun e => cross (vminus (fst e) o) (vminus (snd e) o)) (edges corners)) (cross3 u v) L3) as [k Ek].
  { intros x Hx. apply in_map_iff in Hx. destruct Hx as [e [<- He]]. apply edges_In' in He. destruct He as [H1 H2].
    pose proof (Lc _ H1). pose proof (Lc _ H2).
    eexists. apply cross_in_plane; auto; vlen. }
  unfold area_vector. rewrite Ek. rewrite !dot_vscal_l. rewrite N. vring.
Qed.

Lemma vnormalized_scaled : forall k n, dot n n = 1 -> 0 < k -> vnormalized (vscal k n) = n.
Proof.
  intros k n N K. unfold vnormalized.
  assert (E : vsq (vscal k n) = k * k) by (rewrite vsq_vscal; unfold vsq; rewrite N; ring).
  destruct (Rlt_dec 0 (vsq (vscal k n))) as [_|H]; [|exfalso; apply H; rewrite E; nra].
  unfold vnorm. rewrite E. rewrite sqrt_square by lra.
  apply vec_ext; [vlen|]. intros i. rewrite !nth_vscal. field. lra.
Qed.

(** The 3D constructor computes the right-hand normal of the corner list, whatever
    orthonormal basis of the plane the SVD returns. *)
Lemma make_wall3_normal_proof : forall eps svd corners a s w,
  (let m := relative corners in orthonormal3 (fst (fst (svd m))) (snd (fst (svd m)))) ->
  (forall c, In c corners -> length c = 3%nat) -> corners <> [] ->
  make_wall3 eps svd corners a s = Some w ->
  (forall c, In c corners -> height (w_origin w) (w_normal w) c = 0) ->
  0 < vsq (area_vector (w_origin w) corners) ->
  w_normal w = vnormalized (area_vector (w_origin w) corners) /\
  wall_area 3 w = vnorm (area_vector (w_origin w) corners).
Proof.
  intros eps svd corners a s w Hs Lc Hne H Hp Hv. cbv zeta in Hs.
  destruct (make_wall3_ok_proof _ _ _ _ _ _ Hs H) as (Ln & N & Ho & _ & _ & En & Eo & Ec & Ef & Ha).
  assert (Lo : length (w_origin w) = 3%nat).
  { rewrite Eo. apply Lc. destruct corners; [contradiction|simpl; auto]. }
  assert (NP : area_vector (w_origin w) corners = vscal (wall_area 3 w) (w_normal w)).
  { unfold wall_area; cbn [Nat.eqb]. rewrite Ef, En. destruct (w_basis w) as [u v].
    apply newell_parallel; auto. intros c Hc. specialize (Hp c Hc). unfold height in Hp.
    rewrite En in Hp. rewrite dot_comm. exact Hp. }
  rewrite NP in *. rewrite vsq_vscal in Hv. unfold vsq in Hv. rewrite N in Hv.
  assert (0 < wall_area 3 w) by nra.
  split; [symmetry; now apply vnormalized_scaled|].
  rewrite vnorm_vscal. unfold vnorm, vsq. rewrite N, sqrt_1, Rabs_right; lra.
Qed.

(** ** Lambertian sampling and bounces *)
Lemma lambertian_proof : forall w u1 u2, orthonormal3 (fst (w_basis w)) (snd (w_basis w)) ->
  w_normal w = cross3 (fst (w_basis w)) (snd (w_basis w)) -> 0 <= u1 <= 1 ->
  length (sample_lambertian w u1 u2) = 3%nat /\
  vsq (sample_lambertian w u1 u2) = 1 /\
  dot (w_normal w) (sample_lambertian w u1 u2) = sqrt (1 - u1).
Proof.
  intros w u1 u2 Ho En Hu. pose proof (cross3_orthonormal _ _ Ho) as (L3 & N & NU & NV).
  rewrite <- En in *. destruct (w_basis w) as [b0 b1] eqn:EB. simpl in *.
  destruct Ho as (Lu & Lv & U & V & O).
  unfold sample_lambertian. rewrite EB. simpl.
  rewrite Rmax_right by lra.
  split; [vlen|]. split.
  - unfold vsq. vexp. rewrite U, V, O, N, (dot_comm b1 b0), O, NU, NV, (dot_comm b0 (w_normal w)), (dot_comm b1 (w_normal w)), NU, NV.
    set (c := cos _). set (s := sin _).
    assert (CS : c * c + s * s = 1) by (pose proof (sin2_cos2 (2 * PI * u2)) as Q; unfold Rsqr in Q; fold c s in Q; lra).
    pose proof (sqrt_sqrt u1 ltac:(lra)) as S1. pose proof (sqrt_sqrt (1 - u1) ltac:(lra)) as S2.
    set (r := sqrt u1) in *. set (z := sqrt (1 - u1)) in *.
    match goal with |- ?l = 1 => replace l with (r * r * (c * c + s * s) + z * z) by ring end.
    rewrite CS, S1, S2. ring.
  - vexp. rewrite NU, NV, N. ring.
Qed.

Lemma bounce_dir_proof : forall w dir lamb, let n := w_normal w in
  dot n n = 1 -> length dir = length n -> length lamb = length n ->
  vsq dir = 1 -> 0 < dot n dir ->
  0 <= average_scatter w <= 1 -> vsq lamb = 1 -> 0 <= dot n lamb ->
  (average_scatter w < 1 \/ 0 < dot n lamb) ->
  length (bounce_dir w dir lamb) = length n /\
  vsq (bounce_dir w dir lamb) = 1 /\ dot n (bounce_dir w dir lamb) < 0.
Proof.
  intros w dir lamb n N L1 L2 Hd Hn Ha Hl Hnl Hx.
  pose proof (nr_length w dir L1) as Lr. pose proof (nr_normal w N dir L1) as Rn.
  pose proof (nr_sq w N dir L1) as Rs. fold n in Lr, Rn.
  unfold bounce_dir. destruct (does_scatter w).
  - set (m := vadd _ _).
    assert (Lm : length m = length n) by (subst m; vlen).
    assert (Dn : dot n m < 0).
    { subst m. vexp. rewrite Rn. destruct Hx; nra. }
    assert (P : 0 < vsq m).
    { pose proof (vsq_nonneg m). destruct (Req_dec (vsq m) 0) as [Z|Z]; [|lra].
      exfalso. pose proof (cauchy_schwarz n m (eq_sym Lm)) as C. rewrite Z in C. nra. }
    split; [rewrite vnormalized_length; auto|]. split; [apply vnormalized_unit; auto|].
    unfold vnormalized. destruct (Rlt_dec 0 (vsq m)); [|contradiction].
    rewrite dot_vscal_r. assert (0 < / vnorm m) by (apply Rinv_0_lt_compat, sqrt_lt_R0; auto). nra.
  - split; auto. split; [congruence|]. rewrite Rn. lra.
Qed.

Lemma make_wall3_planar : forall eps svd corners a s, svd_spec svd (relative corners) -> 0 <= eps ->
  length a = length s -> corners <> [] -> (forall c, In c corners -> length c = 3%nat) ->
  (exists nn, length nn = 3%nat /\ 0 < vsq nn /\
     forall c, In c corners -> dot (vminus c (nth 0 corners [])) nn = 0) ->
  0 < vsq (area_vector (nth 0 corners []) corners) ->
  exists w, make_wall3 eps svd corners a s = Some w /\
    w_origin w = nth 0 corners [] /\ w_corners w = corners /\ w_abs w = a /\ w_scat w = s /\
    w_normal w = vnormalized (area_vector (nth 0 corners []) corners) /\
    wall_area 3 w = vnorm (area_vector (nth 0 corners []) corners) /\
    (forall c, In c corners -> height (w_origin w) (w_normal w) c = 0).
Proof.
  intros eps svd corners a s Hs He Hl Hne Lc Hp Ha.
  set (m := map (fun c => vminus c (nth 0 corners [])) corners).
  destruct Hs as [Ho Hpl]. fold m in Ho, Hpl. unfold relative in *. fold m in Ho, Hpl. destruct Hpl as [S0 Hx].
  { destruct Hp as (nn & L & P & Q). exists nn. split; [auto|]. split; [auto|].
    intros x Hx. apply in_map_iff in Hx. destruct Hx as [c [<- Hc]]. auto. }
  assert (Lo : length (nth 0 corners []) = 3%nat).
  { apply Lc. destruct corners; [contradiction|simpl; auto]. }
  assert (W : exists w, make_wall3 eps svd corners a s = Some w).
  { unfold make_wall3. rewrite Hl, Nat.eqb_refl. simpl. fold m. destruct (svd m) as [[u0 u1] sv]. simpl in S0.
    subst sv. destruct (Rltb eps 0) eqn:E; [apply Rltb_true in E; lra|]. eexists; reflexivity. }
  destruct W as [w W]. exists w. split; [exact W|].
  pose proof Ho as Hs'.
  destruct (make_wall3_ok_proof _ _ _ _ _ _ Hs' W) as (Ln & N & HoB & _ & _ & En & Eo & Ec & Ef & Har).
  assert (Hh : forall c, In c corners -> height (w_origin w) (w_normal w) c = 0).
  { intros c Hc. unfold height. rewrite Eo. rewrite dot_comm.
    assert (Hz : dot (vminus c (nth 0 corners [])) (cross (fst (fst (svd m))) (snd (fst (svd m)))) = 0).
    { apply Hx. apply in_map_iff. exists c. auto. }
    pose proof Ho as (Lu & Lv & _). rewrite cross_cross3 in Hz by auto.
    assert (w_normal w = cross3 (fst (fst (svd m))) (snd (fst (svd m))) \/
            w_normal w = cross3 (snd (fst (svd m))) (fst (fst (svd m)))) as [E|E].
    { revert W. unfold make_wall3. rewrite Hl, Nat.eqb_refl. simpl. fold m.
      destruct (svd m) as [[u0 u1] sv]. simpl. destruct (Rltb eps sv); [discriminate|].
      intros E; injection E as <-. cbn -[area_2d_polygon cross3].
      destruct (Rltb _ _); auto. }
    - now rewrite E.
    - rewrite E, cross3_swap, dot_vscal_r, Hz by auto. ring. }
  assert (Ws : w_abs w = a /\ w_scat w = s).
  { revert W. unfold make_wall3. destruct (negb _); [discriminate|]. fold m.
    destruct (svd m) as [[u0 u1] sv]. destruct (Rltb eps sv); [discriminate|].
    intros E; injection E as <-. auto. }
  destruct (make_wall3_normal_proof _ _ _ _ _ _ Hs' Lc Hne W Hh) as [A B]; [rewrite Eo; auto|].
  rewrite Eo in A, B.
  repeat split; auto; try apply Ws.
Qed.

Lemma vsq3 : forall x y z, vsq [x; y; z] = x * x + y * y + z * z.
Proof. intros. unfold vsq, dot; simpl. ring. Qed.

Ltac area_vec :=
  unfold area_vector, edges; cbn [last chain map vsum fst snd nth];
  unfold cross, vminus, vadd, vscal; cbn [map2 nth map repeat].

Lemma area_vector_axis : forall v k (e : vec), v = vscal k e -> dot e e = 1 -> 0 < k ->
  0 < vsq v /\ vnormalized v = e /\ vnorm v = k.
Proof.
  intros v k e -> E K. split; [|split].
  - rewrite vsq_vscal. unfold vsq. rewrite E. nra.
  - now apply vnormalized_scaled.
  - rewrite vnorm_vscal. unfold vnorm, vsq. rewrite E, sqrt_1, Rabs_right; lra.
Qed.

Lemma shoebox_walls3_proof : forall eps svd rx ry rz abs scat,
  (forall cs, In cs (shoebox_corners3 rx ry rz) -> svd_spec svd (relative cs)) ->
  0 <= eps -> 0 < rx -> 0 < ry -> 0 < rz ->
  (forall k, length (abs k) = length (scat k)) ->
  exists ws, make_shoebox_walls3 eps svd rx ry rz abs scat = Some ws /\
    map w_normal ws = [[-1;0;0]; [1;0;0]; [0;-1;0]; [0;1;0]; [0;0;-1]; [0;0;1]] /\
    map w_origin ws = [[0;ry;0]; [rx;0;0]; [0;0;0]; [rx;ry;0]; [rx;0;0]; [rx;0;rz]] /\
    map (wall_area 3) ws = [ry*rz; ry*rz; rx*rz; rx*rz; rx*ry; rx*ry] /\
    map w_abs ws = map abs (seq 0 6) /\ map w_scat ws = map scat (seq 0 6).
Proof.
  intros eps svd rx ry rz abs scat Hs He Hx Hy Hz Hl.
  assert (K : forall k corners e ar, corners = nth k (shoebox_corners3 rx ry rz) [] ->
     In (nth k (shoebox_corners3 rx ry rz) []) (shoebox_corners3 rx ry rz) ->
     (forall c, In c corners -> length c = 3%nat) -> corners <> [] ->
     dot e e = 1 -> length e = 3%nat -> 0 < ar ->
     area_vector (nth 0 corners []) corners = vscal ar e ->
     (forall c, In c corners -> dot (vminus c (nth 0 corners [])) e = 0) ->
     exists w, make_wall3 eps svd (nth k (shoebox_corners3 rx ry rz) []) (abs k) (scat k) = Some w /\
       w_normal w = e /\ w_origin w = nth 0 corners [] /\ wall_area 3 w = ar /\
       w_abs w = abs k /\ w_scat w = scat k).
  { intros k corners e ar -> Hk Lc Hne Ee Le Ka Av Hp.
    destruct (area_vector_axis _ _ _ Av Ee Ka) as (P & Nv & An).
    destruct (make_wall3_planar eps svd _ (abs k) (scat k) (Hs _ Hk) He (Hl k) Hne Lc) as (w & W & Eo & _ & Ea & Es & En & Ear & _); auto.
    { exists e. split; [auto|]. split; [unfold vsq; rewrite Ee; lra|auto]. }
    exists w. split; [exact W|]. repeat split; auto; congruence. }
  assert (AV : forall (x y z k a b c : R), x = k * a -> y = k * b -> z = k * c -> [x; y; z] = vscal k [a; b; c]).
  { intros; subst; reflexivity. }
  destruct (K 0%nat _ [-1;0;0] (ry*rz) eq_refl) as (w0 & W0 & N0 & O0 & A0 & B0 & S0);
    try (simpl; tauto || discriminate); try (unfold dot; simpl; lra); try nra; try reflexivity;
    try (cbn [nth shoebox_corners3]; area_vec; apply AV; field);
    try (cbn [nth shoebox_corners3]; intros c [<-|[<-|[<-|[<-|[]]]]]; try reflexivity; unfold dot, vminus; simpl; ring).
  destruct (K 1%nat _ [1;0;0] (ry*rz) eq_refl) as (w1 & W1 & N1 & O1 & A1 & B1 & S1);
    try (simpl; tauto || discriminate); try (unfold dot; simpl; lra); try nra; try reflexivity;
    try (cbn [nth shoebox_corners3]; area_vec; apply AV; field);
    try (cbn [nth shoebox_corners3]; intros c [<-|[<-|[<-|[<-|[]]]]]; try reflexivity; unfold dot, vminus; simpl; ring).
  destruct (K 2%nat _ [0;-1;0] (rx*rz) eq_refl) as (w2 & W2 & N2 & O2 & A2 & B2 & S2);
    try (simpl; tauto || discriminate); try (unfold dot; simpl; lra); try nra; try reflexivity;
    try (cbn [nth shoebox_corners3]; area_vec; apply AV; field);
    try (cbn [nth shoebox_corners3]; intros c [<-|[<-|[<-|[<-|[]]]]]; try reflexivity; unfold dot, vminus; simpl; ring).
  destruct (K 3%nat _ [0;1;0] (rx*rz) eq_refl) as (w3 & W3 & N3 & O3 & A3 & B3 & S3);
    try (simpl; tauto || discriminate); try (unfold dot; simpl; lra); try nra; try reflexivity;
    try (cbn [nth shoebox_corners3]; area_vec; apply AV; field);
    try (cbn [nth shoebox_corners3]; intros c [<-|[<-|[<-|[<-|[]]]]]; try reflexivity; unfold dot, vminus; simpl; ring).
  destruct (K 4%nat _ [0;0;-1] (rx*ry) eq_refl) as (w4 & W4 & N4 & O4 & A4 & B4 & S4);
    try (simpl; tauto || discriminate); try (unfold dot; simpl; lra); try nra; try reflexivity;
    try (cbn [nth shoebox_corners3]; area_vec; apply AV; field);
    try (cbn [nth shoebox_corners3]; intros c [<-|[<-|[<-|[<-|[]]]]]; try reflexivity; unfold dot, vminus; simpl; ring).
  destruct (K 5%nat _ [0;0;1] (rx*ry) eq_refl) as (w5 & W5 & N5 & O5 & A5 & B5 & S5);
    try (simpl; tauto || discriminate); try (unfold dot; simpl; lra); try nra; try reflexivity;
    try (cbn [nth shoebox_corners3]; area_vec; apply AV; field);
    try (cbn [nth shoebox_corners3]; intros c [<-|[<-|[<-|[<-|[]]]]]; try reflexivity; unfold dot, vminus; simpl; ring).
  exists [w0; w1; w2; w3; w4; w5].
  split.
  - unfold make_shoebox_walls3. cbn [seq mapM bind]. rewrite W0, W1, W2, W3, W4, W5. reflexivity.
  - cbn [map seq]. rewrite N0, N1, N2, N3, N4, N5, O0, O1, O2, O3, O4, O5, A0, A1, A2, A3, A4, A5,
      B0, B1, B2, B3, B4, B5, S0, S1, S2, S3, S4, S5. repeat split; reflexivity.
Qed.

Lemma shoebox_walls2_proof : forall g rx ry abs scat, 0 < rx -> 0 < ry ->
  (forall k, length (abs k) = length (scat k)) ->
  exists ws, make_shoebox_walls2 g rx ry abs scat = Some ws /\
    map w_normal ws = [[0;-1]; [1;0]; [0;1]; [-1;0]] /\
    map w_origin ws = [[0;0]; [rx;0]; [rx;ry]; [0;ry]] /\
    map (wall_area 2) ws = [rx; ry; rx; ry] /\
    map w_abs ws = map abs [2%nat; 1%nat; 3%nat; 0%nat].
Proof.
  intros g rx ry abs scat Hx Hy Hl. unfold make_shoebox_walls2, make_wall2.
  rewrite !Hl, !Nat.eqb_refl. cbn [negb bind]. eexists. split; [reflexivity|].
  cbn [map w_normal w_origin w_abs nth].
  assert (N : forall a b k e, [a; b] = vscal k e -> dot e e = 1 -> 0 < k -> vnormalized [a; b] = e).
  { intros a b k e -> E K. now apply vnormalized_scaled. }
  split; [|split; [reflexivity|split; [|reflexivity]]].
  - rewrite (N (0 - 0) (0 - rx) rx [0; -1]), (N (ry - 0) (rx - rx) ry [1; 0]),
      (N (ry - ry) (rx - 0) rx [0; 1]), (N (0 - ry) (0 - 0) ry [-1; 0]); auto;
      try (unfold dot; simpl; lra); unfold vscal; simpl; f_equal; [ring|f_equal; ring|ring|f_equal; ring|ring|f_equal; ring|ring|f_equal; ring].
  - assert (NN : forall a b k e, vminus a b = vscal k e -> dot e e = 1 -> 0 < k -> vnorm (vminus a b) = k).
    { intros a b k e -> E K. rewrite vnorm_vscal. unfold vnorm, vsq. rewrite E, sqrt_1, Rabs_right; lra. }
    unfold wall_area; cbn [Nat.eqb w_corners nth].
    rewrite (NN [rx; 0] [0; 0] rx [1; 0]), (NN [rx; ry] [rx; 0] ry [0; 1]),
      (NN [0; ry] [rx; ry] rx [-1; 0]), (NN [0; 0] [0; ry] ry [0; -1]); auto;
      try (unfold dot; simpl; lra); unfold vminus, vscal; simpl; f_equal; [ring|f_equal; ring|ring|f_equal; ring|ring|f_equal; ring|ring|f_equal; ring].
Qed.
