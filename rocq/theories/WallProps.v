(** C10, C11: mirroring and reflecting at a wall.  C79: wall constructors.
    C80: direction of a ray after a bounce. *)
From Coq Require Import List ZArith Lia Reals Lra Psatz Bool.
From Verif Require Import Base Vec GeometryModel GeometrySpec GeometryProofs WallModel WallSpec WallProofs.
Import ListNotations.
Local Open Scope R_scope.

(** ** C10 *)
Theorem C10_reflect_is_mirror_image : forall eps w p,
  dot (w_normal w) (w_normal w) = 1 -> length (w_origin w) = length (w_normal w) ->
  length p = length (w_normal w) ->
  is_mirror (w_origin w) (w_normal w) p (snd (reflect eps w p)) /\
  forall q, is_mirror (w_origin w) (w_normal w) p q -> q = snd (reflect eps w p).
Proof.
  intros eps w p N Lo Lp. pose proof (reflect_is_mirror eps w N Lo p Lp) as M.
  split; [exact M|]. intros q Hq. apply (is_mirror_unique (w_origin w) (w_normal w) p); auto; congruence.
Qed.

Theorem C10_reflect_involution : forall eps w p,
  dot (w_normal w) (w_normal w) = 1 -> length (w_origin w) = length (w_normal w) ->
  length p = length (w_normal w) ->
  snd (reflect eps w (snd (reflect eps w p))) = p.
Proof. intros. now apply reflect_involution_proof. Qed.

Theorem C10_reflect_isometry : forall eps w p q,
  dot (w_normal w) (w_normal w) = 1 -> length (w_origin w) = length (w_normal w) ->
  length p = length (w_normal w) -> length q = length (w_normal w) ->
  vdist (snd (reflect eps w p)) (snd (reflect eps w q)) = vdist p q.
Proof. intros. now apply reflect_isometry_proof. Qed.

Theorem C10_reflect_fixes_plane : forall eps w p,
  dot (w_normal w) (w_normal w) = 1 -> length (w_origin w) = length (w_normal w) ->
  length p = length (w_normal w) ->
  snd (reflect eps w p) = p <-> height (w_origin w) (w_normal w) p = 0.
Proof. intros. now apply reflect_fixed_proof. Qed.

(** [reflect] answers +1 for points on the inner side (the normal points outward). *)
Theorem C10_codes : forall eps w p, 0 <= eps ->
  dot (w_normal w) (w_normal w) = 1 -> length (w_origin w) = length (w_normal w) ->
  length p = length (w_normal w) ->
  code_of_height eps (- height (w_origin w) (w_normal w) p) (fst (reflect eps w p)) /\
  code_of_height eps (height (w_origin w) (w_normal w) p) (side eps w p) /\
  side eps w (snd (reflect eps w p)) = (- side eps w p)%Z /\
  side eps w (snd (reflect eps w p)) = fst (reflect eps w p).
Proof. intros. now apply reflect_code_proof. Qed.

Definition ex_wall : wall :=
  {| w_corners := [[4;0]; [4;3]]; w_origin := [4;0]; w_normal := [1;0];
     w_basis := ([], []); w_flat := []; w_abs := [1/5]; w_scat := [1/10] |}.
Example C10_ex : reflect (1/1000) ex_wall [1;2] = (1%Z, [7;2]) /\ side (1/1000) ex_wall [7;2] = 1%Z.
Proof.
  unfold reflect, side, ex_wall, dot, vminus, vadd, vscal; simpl.
  unfold Rltb. destruct (Rlt_dec _ _); [|exfalso; lra]. destruct (Rlt_dec _ _); [|exfalso; lra].
  split; [|reflexivity]. f_equal. f_equal; [lra|f_equal; lra].
Qed.

(** ** C11 *)
Theorem C11_reflection_preserves_length : forall w d,
  dot (w_normal w) (w_normal w) = 1 -> length d = length (w_normal w) ->
  vnorm (normal_reflect w d) = vnorm d.
Proof. intros. unfold vnorm. now rewrite nr_sq. Qed.

Theorem C11_reflection_reverses_normal_component_only : forall w d,
  dot (w_normal w) (w_normal w) = 1 -> length d = length (w_normal w) ->
  dot (w_normal w) (normal_reflect w d) = - dot (w_normal w) d /\
  forall t, length t = length (w_normal w) -> dot (w_normal w) t = 0 ->
    dot (normal_reflect w d) t = dot d t.
Proof. intros. split; [now apply nr_normal|]. intros. now apply nr_tangent. Qed.

Theorem C11_reflection_involution : forall w d,
  dot (w_normal w) (w_normal w) = 1 -> length d = length (w_normal w) ->
  normal_reflect w (normal_reflect w d) = d.
Proof. intros. now apply nr_involution. Qed.

Theorem C11_reflected_point_distance : forall w start hit len,
  dot (w_normal w) (w_normal w) = 1 ->
  length start = length (w_normal w) -> length hit = length (w_normal w) ->
  0 < vdist hit start ->
  vdist (normal_reflect_at w start hit len) hit = Rabs len /\
  (* it continues along the reflected direction of travel *)
  exists k, 0 < k /\ normal_reflect_at w start hit len
     = vadd hit (vscal (len * k) (normal_reflect w (vminus hit start))).
Proof.
  intros w start hit len N L1 L2 H.
  assert (P : 0 < vsq (vminus hit start)).
  { rewrite <- vdist_sq. nra. }
  split; [now apply nr_at|].
  exists (/ vnorm (vminus hit start)). split; [apply Rinv_0_lt_compat; exact H|].
  unfold normal_reflect_at, normal_reflect, vnormalized.
  destruct (Rlt_dec 0 (vsq (vminus hit start))); [|contradiction].
  rewrite dot_vscal_l. vring.
Qed.

Example C11_ex : normal_reflect ex_wall [3;4] = [-3;4] /\ vnorm [3;4] = 5.
Proof.
  split.
  - unfold normal_reflect, ex_wall, dot, vminus, vscal; simpl. f_equal; [lra|f_equal; lra].
  - unfold vnorm, vsq, dot; simpl. replace (3 * 3 + (4 * 4 + 0)) with (5 * 5) by ring.
    apply sqrt_square. lra.
Qed.

(** ** C79 *)

(** 2D constructor: unit normal, orthogonal to the wall, pointing to the right of the
    direction of travel from the first to the second corner (outward for a
    counter-clockwise polygon). *)
Theorem C79_wall2_normal : forall g c0 c1 a s w, length c0 = 2%nat -> length c1 = 2%nat ->
  c0 <> c1 -> make_wall2 g [c0; c1] a s = Some w ->
  length (w_normal w) = 2%nat /\ dot (w_normal w) (w_normal w) = 1 /\
  w_origin w = c0 /\ height c0 (w_normal w) c1 = 0 /\
  (forall p, length p = 2%nat ->
     (0 < height c0 (w_normal w) p <-> orient (to2 c0) (to2 c1) (to2 p) < 0)).
Proof. exact make_wall2_ok_proof. Qed.

(** 3D constructor: for planar corners enclosing an area, and whatever basis the SVD
    returns, the normal is the unit vector along Newell's area vector (right-hand rule
    around the corner list), all corners have height 0 and the area is the length of
    the area vector. *)
Theorem C79_wall3_normal : forall eps svd corners a s, svd_spec svd (relative corners) -> 0 <= eps ->
  length a = length s -> corners <> [] -> (forall c, In c corners -> length c = 3%nat) ->
  (exists nn, length nn = 3%nat /\ 0 < vsq nn /\
     forall c, In c corners -> dot (vminus c (nth 0 corners [])) nn = 0) ->
  let o := nth 0 corners [] in
  let newell := vscal (/ 2) (vsum 3 (map (fun e => cross (vminus (fst e) o) (vminus (snd e) o)) (edges corners))) in
  0 < vsq newell ->
  exists w, make_wall3 eps svd corners a s = Some w /\
    w_origin w = o /\ w_corners w = corners /\ w_abs w = a /\ w_scat w = s /\
    w_normal w = vnormalized newell /\ wall_area 3 w = vnorm newell /\
    (forall c, In c corners -> height (w_origin w) (w_normal w) c = 0).
Proof. exact make_wall3_planar. Qed.

Theorem C79_shoebox_walls_3d : forall eps svd rx ry rz abs scat,
  (forall cs, In cs (shoebox_corners3 rx ry rz) -> svd_spec svd (relative cs)) ->
  0 <= eps -> 0 < rx -> 0 < ry -> 0 < rz ->
  (forall k, length (abs k) = length (scat k)) ->
  exists ws, make_shoebox_walls3 eps svd rx ry rz abs scat = Some ws /\
    map w_normal ws = [[-1;0;0]; [1;0;0]; [0;-1;0]; [0;1;0]; [0;0;-1]; [0;0;1]] /\
    map w_origin ws = [[0;ry;0]; [rx;0;0]; [0;0;0]; [rx;ry;0]; [rx;0;0]; [rx;0;rz]] /\
    map (wall_area 3) ws = [ry*rz; ry*rz; rx*rz; rx*rz; rx*ry; rx*ry] /\
    map w_abs ws = map abs (seq 0 6) /\ map w_scat ws = map scat (seq 0 6).
Proof. exact shoebox_walls3_proof. Qed.

Theorem C79_shoebox_walls_2d : forall g rx ry abs scat, 0 < rx -> 0 < ry ->
  (forall k, length (abs k) = length (scat k)) ->
  exists ws, make_shoebox_walls2 g rx ry abs scat = Some ws /\
    map w_normal ws = [[0;-1]; [1;0]; [0;1]; [-1;0]] /\
    map w_origin ws = [[0;0]; [rx;0]; [rx;ry]; [0;ry]] /\
    map (wall_area 2) ws = [rx; ry; rx; ry] /\
    map w_abs ws = map abs [2%nat; 1%nat; 3%nat; 0%nat].
Proof. exact shoebox_walls2_proof. Qed.

(** A decomposition that meets [svd_spec] on the shoebox walls (so the hypothesis is
    satisfiable): the plane x = const, y = const or else z = const. *)
Definition all_zero (k : nat) (m : list vec) : bool :=
  forallb (fun v => if Req_EM_T (nth k v 0) 0 then true else false) m.
Definition axis_svd (m : list vec) : vec * vec * R :=
  if all_zero 0 m then ([0;0;1], [0;1;0], 0)
  else if all_zero 1 m then ([0;0;1], [1;0;0], 0) else ([0;1;0], [1;0;0], 0).

Example C79_ex : forall cs, In cs (shoebox_corners3 4 3 2) -> svd_spec axis_svd (relative cs).
Proof.
  intros cs H.
  assert (T : forall k m, (forall v, In v m -> nth k v 0 = 0) -> all_zero k m = true).
  { intros k m Hm. apply forallb_forall. intros v Hv. rewrite Hm by auto.
    destruct (Req_EM_T 0 0); auto. }
  assert (F : forall k m v, In v m -> nth k v 0 <> 0 -> all_zero k m = false).
  { intros k m v Hv Hn. apply not_true_is_false. intros E. unfold all_zero in E.
    rewrite forallb_forall in E. specialize (E v Hv). destruct (Req_EM_T (nth k v 0) 0); auto; discriminate. }
  unfold svd_spec, axis_svd.
  assert (FF : forall k m i, nth k (nth i m []) 0 <> 0 -> all_zero k m = false).
  { intros k m i Hn. apply (F k m (nth i m [])); auto.
    destruct (nth_in_or_default i m []) as [Hi|Hi]; auto. rewrite Hi in Hn. destruct k; simpl in Hn; lra. }
  Local Ltac zer := unfold relative, vminus; simpl; intros v Hv;
         repeat destruct Hv as [<-|Hv]; try destruct Hv; simpl; ring.
  Local Ltac fin := split; [unfold orthonormal3, dot; simpl; repeat split; lra|];
       intros _; split; [reflexivity|];
       unfold relative, vminus, dot, cross; simpl; intros v Hv;
       repeat destruct Hv as [<-|Hv]; try destruct Hv; simpl; ring.
  Local Ltac nz := unfold relative, vminus; simpl; lra.
  destruct H as [<-|[<-|[<-|[<-|[<-|[<-|[]]]]]]].
  - rewrite (T 0%nat) by zer. fin.
  - rewrite (T 0%nat) by zer. fin.
  - rewrite (FF 0%nat _ 1%nat) by nz. rewrite (T 1%nat) by zer. fin.
  - rewrite (FF 0%nat _ 1%nat) by nz. rewrite (T 1%nat) by zer. fin.
  - rewrite (FF 0%nat _ 1%nat) by nz. rewrite (FF 1%nat _ 2%nat) by nz. fin.
  - rewrite (FF 0%nat _ 2%nat) by nz. rewrite (FF 1%nat _ 1%nat) by nz. fin.
Qed.

(** ** C80 *)

(** The Lambertian sample of a 3D wall is a unit vector on the side of the normal, its
    cosine being sqrt(1-u) for the uniform draw u. *)
Theorem C80_lambertian_sample : forall w u1 u2,
  orthonormal3 (fst (w_basis w)) (snd (w_basis w)) ->
  w_normal w = cross3 (fst (w_basis w)) (snd (w_basis w)) -> 0 <= u1 <= 1 ->
  length (sample_lambertian w u1 u2) = 3%nat /\
  vnorm (sample_lambertian w u1 u2) = 1 /\
  dot (w_normal w) (sample_lambertian w u1 u2) = sqrt (1 - u1).
Proof.
  intros w u1 u2 H1 H2 H3. destruct (lambertian_proof w u1 u2 H1 H2 H3) as (A & B & C).
  repeat split; auto. unfold vnorm. rewrite B. apply sqrt_1.
Qed.

(** After a bounce the direction is again a unit vector and points strictly back into
    the room: the incoming ray travels outward, the outgoing one inward. *)
Theorem C80_bounce_points_inward : forall w dir lamb, let n := w_normal w in
  dot n n = 1 -> length dir = length n -> length lamb = length n ->
  vsq dir = 1 -> 0 < dot n dir ->
  0 <= average_scatter w <= 1 -> vsq lamb = 1 -> 0 <= dot n lamb ->
  (average_scatter w < 1 \/ 0 < dot n lamb) ->
  length (bounce_dir w dir lamb) = length n /\
  vsq (bounce_dir w dir lamb) = 1 /\ dot n (bounce_dir w dir lamb) < 0.
Proof. exact bounce_dir_proof. Qed.

(** A 2D wall never assigns [basis]: with unlucky memory contents the "Lambertian"
    sample of a properly constructed 2D wall is not a unit vector, and the ray
    direction after the bounce points out of the room. *)
Theorem C80_lambertian_2d_refuted : exists g w dir u1 u2,
  make_wall2 g [[0;0]; [1;0]] [0] [1] = Some w /\ 0 <= u1 < 1 /\ 0 <= u2 < 1 /\
  vsq dir = 1 /\ 0 < dot (w_normal w) dir /\
  vsq (sample_lambertian w u1 u2) <> 1 /\
  0 < dot (w_normal w) (bounce_dir w dir (sample_lambertian w u1 u2)).
Proof.
  exists ([0; 10], [0; 10]).
  eexists. exists [0; -1], (1/4), 0.
  split; [reflexivity|].
  set (w := {| w_corners := _ |}).
  assert (N : w_normal w = [0; -1]).
  { simpl. replace [0 - 0; 0 - 1] with (vscal 1 [0; -1]) by (unfold vscal; simpl; f_equal; [ring|f_equal; ring]).
    apply vnormalized_scaled; [unfold dot; simpl; lra|lra]. }
  assert (S : sample_lambertian w (1/4) 0 = [0; 5 - sqrt (3/4)]).
  { unfold sample_lambertian. rewrite N. simpl.
    replace (2 * PI * 0) with 0 by ring. rewrite cos_0, sin_0.
    rewrite Rmax_right by lra. replace (1 - 1/4) with (3/4) by lra.
    replace (sqrt (1/4)) with (1/2).
    2:{ replace (1/4) with ((1/2) * (1/2)) by lra. rewrite sqrt_square; lra. }
    unfold vadd, vscal; simpl. f_equal; [ring|f_equal; field]. }
  assert (S1 : 0 <= sqrt (3/4) <= 1).
  { split; [apply sqrt_pos|]. pose proof (sqrt_le_1_alt (3/4) 1 ltac:(lra)) as Q. rewrite sqrt_1 in Q. exact Q. }
  rewrite S. split; [lra|]. split; [lra|]. split; [unfold vsq, dot; simpl; lra|].
  split; [rewrite N; unfold dot; simpl; lra|].
  split; [unfold vsq, dot; simpl; nra|].
  unfold bounce_dir.
  assert (DS : does_scatter w = true) by (unfold does_scatter, list_max; simpl; apply Rltb_true; lra).
  assert (AS : average_scatter w = 1) by (unfold average_scatter, list_mean; simpl; lra).
  rewrite DS, AS, N.
  set (v := vadd _ _).
  assert (V : v = [0; - (5 - sqrt (3/4))]).
  { subst v. unfold normal_reflect. rewrite N. unfold vadd, vscal, vminus, dot; simpl.
    f_equal; [ring|f_equal; ring]. }
  unfold vnormalized. assert (P : 0 < vsq v) by (rewrite V; unfold vsq, dot; simpl; nra).
  destruct (Rlt_dec 0 (vsq v)); [|contradiction].
  rewrite dot_vscal_r. apply Rmult_lt_0_compat; [apply Rinv_0_lt_compat, sqrt_lt_R0; auto|].
  rewrite V. unfold dot; simpl. lra.
Qed.

Example C80_ex : average_scatter ex_wall = 1/10 /\ does_scatter ex_wall = true /\
  dot (w_normal ex_wall) [1;0] = 1.
Proof.
  unfold average_scatter, does_scatter, list_mean, list_max, ex_wall, dot; simpl.
  split; [lra|]. split; [apply Rltb_true; lra|lra].
Qed.

Print Assumptions C10_codes.
Print Assumptions C11_reflected_point_distance.
Print Assumptions C79_shoebox_walls_3d.
Print Assumptions C80_bounce_points_inward.
