(** C17-C19: ray length bound and next wall hit.  C22, C23: tracing a ray. *)
From Coq Require Import List ZArith Lia Reals Lra Psatz Bool.
From Verif Require Import Base BaseProofs Vec GeometryModel GeometrySpec GeometryProofs
  WallModel WallSpec WallProofs RayModel RaySpec RayProofs.
Import ListNotations.
Local Open Scope R_scope.

(** ** C17 *)
Theorem C17_max_distance_exceeds_hull : forall r, (r_dim r <= 3)%nat ->
  (forall c, is_corner r c -> length c = r_dim r) ->
  forall p q, hull (is_corner r) p -> hull (is_corner r) q -> vdist p q < max_distance r.
Proof. exact max_distance_proof. Qed.

(** ** C18 *)
Theorem C18_next_wall_hit_is_nearest : forall r eps s e, r_shoebox r = None ->
  match next_wall_hit r eps s e false with
  | Some h =>
      (exists w ret, nth_error (r_walls r) (h_wall h) = Some w /\
         wall_intersection (r_dim r) eps w s e = (ret, Some (h_pt h)) /\ (-1 < ret)%Z) /\
      h_dist h = vdist (h_pt h) s /\ eps < h_dist h < max_distance r /\
      forall w ret x, In w (r_walls r) -> wall_intersection (r_dim r) eps w s e = (ret, Some x) ->
        (-1 < ret)%Z -> eps < vdist x s -> h_dist h <= vdist x s
  | None =>
      forall w ret x, In w (r_walls r) -> wall_intersection (r_dim r) eps w s e = (ret, Some x) ->
        (-1 < ret)%Z -> eps < vdist x s -> max_distance r <= vdist x s
  end.
Proof.
  intros r eps s e Sh. unfold next_wall_hit. rewrite Sh.
  destruct (nearest_proof (r_dim r) eps s e (r_walls r) 0 None (max_distance r) I) as (A & B & C).
  cbv zeta in *. destruct (nearest _ _ _ _ _ _ _ _) as [h|].
  - destruct A as [A|(h' & j & w & ret & A1 & A2 & A3 & A4 & A5 & A6 & A7)]; [discriminate|].
    injection A1 as <-. simpl in A2. rewrite A2. split; [eauto|]. split; [auto|]. split; [lra|].
    intros w' ret' x Hw. apply In_nth_error in Hw. destruct Hw as (j' & Hj). eauto.
  - intros w' ret' x Hw. apply In_nth_error in Hw. destruct Hw as (j' & Hj). eauto.
Qed.

(** The cut-off distance never hides a wall: a hit point in the hull is found. *)
Theorem C18_no_wall_in_hull_is_missed : forall r eps s e, r_shoebox r = None -> (r_dim r <= 3)%nat ->
  (forall c, is_corner r c -> length c = r_dim r) -> hull (is_corner r) s ->
  forall w ret x, In w (r_walls r) -> wall_intersection (r_dim r) eps w s e = (ret, Some x) ->
    (-1 < ret)%Z -> eps < vdist x s -> hull (is_corner r) x ->
    exists h, next_wall_hit r eps s e false = Some h /\ h_dist h <= vdist x s.
Proof.
  intros r eps s e Sh HD Hc Hs w ret x Hw Hi Hr Hd Hx.
  pose proof (C18_next_wall_hit_is_nearest r eps s e Sh) as P.
  destruct (next_wall_hit r eps s e false) as [h|].
  - exists h. split; auto. destruct P as (_ & _ & _ & P). eauto.
  - exfalso. specialize (P w ret x Hw Hi Hr Hd).
    pose proof (max_distance_proof r HD Hc x s Hx Hs). lra.
Qed.

(** In 3D the reported point is on the plane of the reported wall and on the line of
    the ray, at a parameter between -eps and 1+eps. *)
Theorem C18_hit_on_ray_and_plane : forall r eps s e h, r_shoebox r = None -> r_dim r = 3%nat -> 0 < eps ->
  length s = 3%nat -> length e = 3%nat ->
  (forall w, In w (r_walls r) -> length (w_normal w) = 3%nat /\ length (w_origin w) = 3%nat) ->
  next_wall_hit r eps s e false = Some h ->
  exists w t, nth_error (r_walls r) (h_wall h) = Some w /\
    - eps <= t <= 1 + eps /\ h_pt h = along s e t /\ height (w_origin w) (w_normal w) (h_pt h) = 0.
Proof.
  intros r eps s e h Sh HD He Ls Le Hw H.
  pose proof (C18_next_wall_hit_is_nearest r eps s e Sh) as P. rewrite H in P.
  destruct P as ((w & ret & N & I & R) & _).
  destruct (Hw w (nth_error_In _ _ N)) as [Ln Lo].
  unfold wall_intersection in I. rewrite HD in I. simpl in I.
  destruct (intersection_seg_plane eps s e (w_origin w) (w_normal w)) as [c [x|]] eqn:E; [|injection I as <-; discriminate].
  assert (X : x = h_pt h).
  { destruct (_ <? 0)%Z; [discriminate|]. destruct (_ =? 1)%Z; injection I as _ <-; reflexivity. }
  subst x. destruct (seg_plane_sound_proof eps s e (w_origin w) (w_normal w) c (h_pt h)) as (t & T & E1 & E2 & _);
    try congruence.
  exists w, t. split; [auto|]. split; [lra|]. split.
  - rewrite E1. unfold along. vring.
  - unfold height. rewrite dot_comm. rewrite <- E2. rewrite dot_comm. reflexivity.
Qed.

(** A cubic room given as a general room. *)
Definition mkw (cs : list vec) (n : vec) (b : vec * vec) : wall :=
  {| w_corners := cs; w_origin := nth 0 cs []; w_normal := n; w_basis := b;
     w_flat := map (project b (nth 0 cs [])) cs; w_abs := [1/5]; w_scat := [0] |}.
Definition cube : list wall :=
  [ mkw [[0;0;0]; [0;4;0]; [4;4;0]; [4;0;0]] [0;0;-1] ([0;1;0], [1;0;0]);
    mkw [[0;0;4]; [4;0;4]; [4;4;4]; [0;4;4]] [0;0;1] ([1;0;0], [0;1;0]);
    mkw [[0;0;0]; [0;0;4]; [0;4;4]; [0;4;0]] [-1;0;0] ([0;0;1], [0;1;0]);
    mkw [[4;0;0]; [4;4;0]; [4;4;4]; [4;0;4]] [1;0;0] ([0;1;0], [0;0;1]);
    mkw [[0;0;0]; [4;0;0]; [4;0;4]; [0;0;4]] [0;-1;0] ([1;0;0], [0;0;1]);
    mkw [[0;4;0]; [0;4;4]; [4;4;4]; [4;4;0]] [0;1;0] ([0;0;1], [1;0;0]) ].
Definition cube_room : room :=
  {| r_dim := 3; r_walls := cube; r_obs := []; r_mics := [[1;1;1]]; r_speed := 343; r_ism_order := 1;
     r_ethres := 1/10000000; r_tthres := 1; r_radius := 1/2; r_hybrid := false; r_shoebox := None |}.

Lemma cube_corner_length : forall c, is_corner cube_room c -> length c = 3%nat.
Proof.
  intros c (w & Hw & Hc). simpl in Hw.
  repeat destruct Hw as [<-|Hw]; try destruct Hw; simpl in Hc;
    repeat destruct Hc as [<-|Hc]; try destruct Hc; reflexivity.
Qed.
Lemma cube_walls_length : forall w, In w (r_walls cube_room) -> length (w_normal w) = 3%nat /\ length (w_origin w) = 3%nat.
Proof.
  intros w Hw. simpl in Hw. repeat destruct Hw as [<-|Hw]; try destruct Hw; simpl; auto.
Qed.
Lemma cube_max_distance : 4 < max_distance cube_room.
Proof.
  replace 4 with (vdist [4;0;0] [0;0;0]).
  - apply max_distance_proof; [simpl; lia|exact cube_corner_length| |];
      apply hull_pt; exists (nth 0 cube wall0); split; simpl; tauto.
  - unfold vdist, vnorm, vsq, vminus, dot; simpl.
    match goal with |- sqrt ?a = _ => replace a with (4 * 4) by ring end. apply sqrt_square. lra.
Qed.

(** The tolerance of the intersection test is relative to the segment, which is as long
    as the room: a ray starting less than eps * max_dist from a wall and moving away
    from it is reported to hit that wall, behind its start. *)
Theorem C18_hit_in_front_refuted : exists r eps s dir h,
  0 < eps /\ (4 <= length (r_walls r))%nat /\ vsq dir = 1 /\
  next_wall_hit r eps s (vadd s (vscal (max_distance r) dir)) false = Some h /\
  dot (vminus (h_pt h) s) dir < 0.
Proof.
  pose proof cube_max_distance as M4. set (M := max_distance cube_room) in *.
  set (eps := 1/100000). set (s := [2; 2; 3/2 * eps]).
  set (e := vadd s (vscal M [0;0;1])).
  assert (Es : e = [2; 2; 3/2 * eps + M]).
  { subst e s. unfold vadd, vscal; simpl. f_equal; [ring|f_equal; [ring|f_equal; ring]]. }
  assert (Fl : wall_intersection 3 eps (nth 0 cube wall0) s e = (1%Z, Some [2;2;0])).
  { unfold wall_intersection. cbv [Nat.eqb].
    assert (U : vminus e s = [0;0;M]).
    { rewrite Es. subst s. unfold vminus; simpl. f_equal; [ring|f_equal; [ring|f_equal; ring]]. }
    set (t := - (3/2 * eps) / M).
    assert (T : - eps / 2 < t < 0).
    { assert (Q : t * M = - (3/2 * eps)) by (subst t; field; lra). subst eps. nra. }
    assert (SP : intersection_seg_plane eps s e (w_origin (nth 0 cube wall0)) (w_normal (nth 0 cube wall0)) = (1%Z, Some [2;2;0])).
    { unfold intersection_seg_plane. cbv zeta. rewrite U.
      assert (D1 : dot (w_normal (nth 0 cube wall0)) [0;0;M] = - M) by (unfold dot; simpl; ring).
      assert (D2 : dot (w_normal (nth 0 cube wall0)) (vminus s (w_origin (nth 0 cube wall0))) = - (3/2 * eps))
        by (unfold dot, vminus, s; simpl; ring).
      rewrite D1, D2.
      assert (D3 : - - (3/2 * eps) / - M = t) by (subst t; field; lra). rewrite D3.
      assert (R1 : Rltb eps (Rabs (- M)) = true) by (apply Rltb_true; rewrite Rabs_Ropp, Rabs_right; subst eps; lra).
      assert (R2 : Rleb (0 - eps) t && Rleb t (1 + eps) = true) by (apply andb_true_iff; split; apply Rleb_true; subst eps; lra).
      assert (R3 : Rltb (Rabs t) eps = true) by (apply Rltb_true; rewrite Rabs_left by lra; subst eps; lra).
      rewrite R1, R2, R3. simpl. f_equal. f_equal. unfold vadd, vscal, s; simpl.
      f_equal; [ring|]. f_equal; [ring|]. f_equal. subst t. field. lra. }
    rewrite SP.
    assert (In2 : is_inside_2d_polygon eps (project (w_basis (nth 0 cube wall0)) (w_origin (nth 0 cube wall0)) [2;2;0])
        (w_flat (nth 0 cube wall0)) = 0%Z).
    { apply inside_strict_proof; [subst eps; lra|discriminate|].
      intros ed He. simpl in He. repeat destruct He as [<-|He]; try destruct He;
      unfold orient, project, dot, vminus, eps; simpl; lra. }
    rewrite In2. simpl. reflexivity. }
  exists cube_room, eps, s, [0;0;1].
  pose proof (C18_next_wall_hit_is_nearest cube_room eps s e eq_refl) as P.
  assert (V : vdist [2;2;0] s = 3/2 * eps).
  { unfold vdist, vnorm, vsq, vminus, dot, s; simpl.
    match goal with |- sqrt ?a = _ => replace a with ((3/2*eps) * (3/2*eps)) by ring end.
    apply sqrt_square. subst eps. lra. }
  fold M. fold e. destruct (next_wall_hit cube_room eps s e false) as [h|] eqn:H.
  2:{ exfalso. specialize (P _ _ _ (or_introl eq_refl) Fl ltac:(lia)). rewrite V in P.
      specialize (P ltac:(subst eps; lra)). fold M in P. subst eps. lra. }
  exists h. split; [subst eps; lra|]. split; [simpl; lia|]. split; [unfold vsq, dot; simpl; ring|]. split; [reflexivity|].
  destruct P as (_ & P1 & _ & P2).
  specialize (P2 _ _ _ (or_introl eq_refl) Fl ltac:(lia)). rewrite V in P2. specialize (P2 ltac:(subst eps; lra)).
  destruct (C18_hit_on_ray_and_plane cube_room eps s e h eq_refl eq_refl ltac:(subst eps; lra) eq_refl
              ltac:(rewrite Es; reflexivity) cube_walls_length H) as (w & t & N & T & A & B).
  (* the point is (2, 2, z) within 3/2 eps of the start, so it is on the floor *)
  assert (Hp : h_pt h = [2; 2; 3/2 * eps + t * M]).
  { rewrite A. unfold along. rewrite Es. subst s. unfold vadd, vscal, vminus; simpl.
    f_equal; [ring|f_equal; [ring|f_equal; ring]]. }
  assert (Dz : Rabs (t * M) <= 3/2 * eps).
  { pose proof (nth_le_vnorm (vminus (h_pt h) s) 2) as Q. fold (vdist (h_pt h) s) in Q.
    rewrite Hp in Q. subst s. unfold vminus in Q; simpl in Q.
    replace (3/2*eps + t*M - 3/2*eps) with (t*M) in Q by ring. rewrite Hp in P1.
    rewrite <- P1 in Q. lra. }
  assert (Dz' : - (3/2*eps) <= t * M <= 3/2*eps).
  { unfold Rabs in Dz. destruct (Rcase_abs _); lra. }
  assert (Z : 3/2 * eps + t * M = 0).
  { rewrite Hp in B. unfold height in B. subst eps.
    destruct (h_wall h) as [|[|[|[|[|[|k]]]]]]; simpl in N; try (destruct k; discriminate);
      injection N as <-; unfold dot, vminus in B; simpl in B; lra. }
  rewrite Hp. unfold dot, vminus, s; simpl. subst eps. lra.
Qed.

(** ** C19 *)
Theorem C19_shoebox_hit_sound : forall r size eps start end_ h, r_shoebox r = Some size -> 0 < eps ->
  length size = r_dim r -> length start = r_dim r -> length end_ = r_dim r -> in_box 0 size start ->
  next_wall_hit r eps start end_ false = Some h ->
  exists t d, (d < r_dim r)%nat /\ 0 < t /\ h_pt h = along start end_ t /\
    (nth d end_ 0 < nth d start 0 /\ nth d (h_pt h) 0 = 0 /\ h_wall h = (2 * d)%nat \/
     nth d start 0 < nth d end_ 0 /\ nth d (h_pt h) 0 = nth d size 0 /\ h_wall h = (2 * d + 1)%nat) /\
    (forall s, 0 <= s <= t -> in_box eps size (along start end_ s)) /\
    h_dist h = vdist (h_pt h) start /\ eps <= h_dist h /\ length (h_pt h) = r_dim r.
Proof.
  intros r size eps start end_ h Sh He L1 L2 L3 Hin H. unfold next_wall_hit in H. rewrite Sh in H.
  now apply shoebox_hit_sound.
Qed.

(** A hit is found whenever every face the ray moves towards is at least eps ahead (in
    particular from a point eps away from all faces, or from a point of a face when
    moving inward) and the segment is longer than the diagonal. *)
Theorem C19_shoebox_hit_found : forall r size eps start end_, r_shoebox r = Some size -> 0 < eps ->
  length size = r_dim r -> length start = r_dim r -> length end_ = r_dim r -> in_box 0 size start ->
  (forall i, (i < r_dim r)%nat -> eps <= nth i size 0) ->
  (forall i, (i < r_dim r)%nat -> eps <= Rabs (nth i end_ 0 - nth i start 0) ->
     eps <= ahead size start (vminus end_ start) i) ->
  vnorm size < vdist end_ start ->
  exists h, next_wall_hit r eps start end_ false = Some h.
Proof.
  intros r size eps start end_ Sh. intros. unfold next_wall_hit. rewrite Sh. now apply shoebox_hit_complete.
Qed.

(** In 3D the index is that of the wall built for the face that was hit. *)
Theorem C19_shoebox_index_3d : forall r rx ry rz eps svd abs scat start end_ h,
  r_dim r = 3%nat -> r_shoebox r = Some [rx; ry; rz] -> 0 < eps -> 0 < rx -> 0 < ry -> 0 < rz ->
  (forall cs, In cs (shoebox_corners3 rx ry rz) -> svd_spec svd (relative cs)) ->
  (forall k, length (abs k) = length (scat k)) ->
  make_shoebox_walls3 eps svd rx ry rz abs scat = Some (r_walls r) ->
  length start = 3%nat -> length end_ = 3%nat -> in_box 0 [rx; ry; rz] start ->
  next_wall_hit r eps start end_ false = Some h ->
  exists w, nth_error (r_walls r) (h_wall h) = Some w /\
    height (w_origin w) (w_normal w) (h_pt h) = 0 /\ 0 < dot (w_normal w) (vminus end_ start) /\
    w_abs w = abs (h_wall h).
Proof.
  intros r rx ry rz eps svd abs scat start end_ h HD Sh He Hx Hy Hz Hsvd Hl Hw L1 L2 Hin H.
  destruct (shoebox_walls3_proof eps svd rx ry rz abs scat Hsvd ltac:(lra) Hx Hy Hz Hl) as (ws & E & N & O & _ & A & _).
  rewrite E in Hw. injection Hw as Hw. rewrite <- Hw.
  destruct (C19_shoebox_hit_sound r [rx;ry;rz] eps start end_ h Sh He (eq_sym HD)
              (eq_trans L1 (eq_sym HD)) (eq_trans L2 (eq_sym HD)) Hin H) as (t & d & Hd & _ & _ & F & _ & _ & _ & Lh).
  rewrite HD in Hd, Lh.
  destruct ws as [|w0 [|w1 [|w2 [|w3 [|w4 [|w5 [|? ?]]]]]]]; try discriminate.
  simpl in N, O, A. injection N as N0 N1 N2 N3 N4 N5. injection O as O0 O1 O2 O3 O4 O5.
  injection A as A0 A1 A2 A3 A4 A5.
  destruct start as [|s0 [|s1 [|s2 [|? ?]]]]; try discriminate.
  destruct end_ as [|e0 [|e1 [|e2 [|? ?]]]]; try discriminate.
  destruct (h_pt h) as [|p0 [|p1 [|p2 [|? ?]]]]; try discriminate.
  destruct d as [|[|[|d]]]; try lia; simpl in F; destruct F as [(F1 & F2 & F3)|(F1 & F2 & F3)];
    rewrite F3; simpl; eexists; (split; [reflexivity|]);
    rewrite ?N0, ?N1, ?N2, ?N3, ?N4, ?N5, ?O0, ?O1, ?O2, ?O3, ?O4, ?O5, ?A0, ?A1, ?A2, ?A3, ?A4, ?A5;
    unfold height, dot, vminus; simpl; (split; [subst; ring|split; [lra|reflexivity]]).
Qed.

(** In 2D the walls are stored south, east, north, west but the index is computed in the
    order west, east, south, north: a ray going west reports the south wall. *)
Theorem C19_shoebox_index_2d_refuted : exists r rx ry eps g abs scat start end_ h w,
  r_dim r = 2%nat /\ r_shoebox r = Some [rx; ry] /\ 0 < eps /\ 0 < rx /\ 0 < ry /\
  make_shoebox_walls2 g rx ry abs scat = Some (r_walls r) /\
  in_box 0 [rx; ry] start /\ next_wall_hit r eps start end_ false = Some h /\
  nth_error (r_walls r) (h_wall h) = Some w /\
  height (w_origin w) (w_normal w) (h_pt h) <> 0 /\
  (* the coefficients used are those of another side *)
  nth 0 (h_pt h) 0 = 0 /\ w_abs w <> abs 0%nat.
Proof.
  set (g := ([] : vec, [] : vec)). set (abs := fun k : nat => [INR k / 10]). set (scat := fun _ : nat => [0]).
  destruct (shoebox_walls2_proof g 4 4 abs scat ltac:(lra) ltac:(lra) (fun _ => eq_refl)) as (ws & E & N & O & _ & A).
  destruct ws as [|w0 [|w1 [|w2 [|w3 [|? ?]]]]]; try discriminate.
  simpl in N, O, A. injection N as N0 N1 N2 N3. injection O as O0 O1 O2 O3. injection A as A0 A1 A2 A3.
  set (r := {| r_dim := 2; r_walls := [w0;w1;w2;w3]; r_obs := []; r_mics := []; r_speed := 343; r_ism_order := 0;
     r_ethres := 0; r_tthres := 1; r_radius := 1/2; r_hybrid := false; r_shoebox := Some [4;4] |}).
  assert (B : in_box 0 [4;4] [2;2]).
  { intros [|[|i]] Hi; simpl in *; try lia; lra. }
  destruct (C19_shoebox_hit_found r [4;4] (1/100) [2;2] [-8;2] eq_refl ltac:(lra) eq_refl eq_refl eq_refl B) as (h & H).
  { intros [|[|i]] Hi; simpl in *; try lia; lra. }
  { intros [|[|i]] Hi; simpl in *; try lia; intros; unfold ahead; simpl; destruct (Rlt_dec _ _); lra. }
  { unfold vdist, vnorm. apply sqrt_lt_1_alt. unfold vsq, vminus, dot; simpl. lra. }
  destruct (C19_shoebox_hit_sound r [4;4] (1/100) [2;2] [-8;2] h eq_refl ltac:(lra) eq_refl eq_refl eq_refl B H)
    as (t & d & Hd & T & Hp & F & _ & _ & _ & Lh).
  assert (Ep : h_pt h = [2 - 10 * t; 2]).
  { rewrite Hp. unfold along, vadd, vscal, vminus; simpl. f_equal; [ring|f_equal; ring]. }
  exists r, 4, 4, (1/100), g, abs, scat, [2;2], [-8;2], h, w0.
  simpl in Hd. rewrite Ep in *. destruct d as [|[|d]]; [| |lia]; simpl in F.
  - destruct F as [(F1 & F2 & F3)|(F1 & _)]; [|lra]. rewrite F3.
    split; [reflexivity|]. split; [reflexivity|]. split; [lra|]. split; [lra|]. split; [lra|].
    split; [exact E|]. split; [exact B|]. split; [exact H|]. split; [reflexivity|]. split; [|split; [simpl; lra|]].
    + rewrite N0, O0. unfold height, dot, vminus; simpl. lra.
    + rewrite A0. unfold abs. simpl. intros C. injection C as C. lra.
  - destruct F as [(F1 & _)|(F1 & _)]; lra.
Qed.

(** ** C22 *)
Theorem C22_ray_terminates : forall r eps rng dir src e0, 0 < eps -> walls_wf r -> rng_wf r rng ->
  length src = r_dim r -> length dir = r_dim r ->
  exists hops fuel0,
    (forall fuel, (fuel0 <= fuel)%nat -> simul_ray fuel r eps rng dir src e0 = Some hops) /\
    INR (length hops) <= Rmax 0 (r_tthres r * r_speed r) / eps + 1.
Proof.
  intros r eps rng dir src e0 He Hw Hr Ls Ld. unfold simul_ray.
  set (et := list_max e0 * r_ethres r). set (s0 := {| ry_start := src |}).
  assert (W0 : ray_wf r s0) by (split; auto).
  destruct (nat_above (r_tthres r * r_speed r / eps)) as (m & Hm).
  assert (Hm' : r_tthres r * r_speed r < ry_travel s0 + INR m * eps).
  { simpl. apply Rmult_lt_compat_r with (r := eps) in Hm; auto. unfold Rdiv in Hm.
    rewrite Rmult_assoc, Rinv_l in Hm by lra. lra. }
  destruct (ray_loop_terminates r eps et rng He Hw Hr m 0 s0 W0 Hm' (m + 2) ltac:(lia)) as (l & L).
  exists l, (m + 2)%nat. split.
  - intros fuel Hf. now apply (ray_loop_fuel r eps et rng (m + 2)).
  - destruct (traced_length r eps et rng 0 s0 l He Hw Hr (ray_loop_traced _ _ _ _ _ _ _ _ L) W0) as [->|B].
    + simpl. assert (0 <= Rmax 0 (r_tthres r * r_speed r) / eps); [|lra].
      unfold Rdiv. apply Rmult_le_pos; [apply Rmax_l|]. left; now apply Rinv_0_lt_compat.
    + change (ry_travel s0) with 0 in B.
      assert (INR (length l) - 1 <= Rmax 0 (r_tthres r * r_speed r) / eps); [|lra].
      apply Rmult_le_reg_r with eps; auto. unfold Rdiv. rewrite Rmult_assoc, Rinv_l by lra. lra.
Qed.

(** Energy and distance bookkeeping at every hop: [j] counts bounces from 0. *)
Theorem C22_ray_energy_and_distance : forall fuel r n eps rng dir src e0 hops, 0 < eps -> walls_wf r ->
  rng_wf r rng -> room_ok r n -> length src = r_dim r -> length dir = r_dim r -> length e0 = n ->
  simul_ray fuel r eps rng dir src e0 = Some hops ->
  forall j h, nth_error hops j = Some h ->
    (h_wall (hp_hit h) < length (r_walls r))%nat /\
    ry_travel (hp_after h) = Rsum (map (fun x => h_dist (hp_hit x)) (firstn (S j) hops)) /\
    forall b, (b < n)%nat ->
      nth b (ry_trans (hp_after h)) 0 = nth b e0 0 *
        Rprod (map (fun x => 1 - nth b (w_abs (get_wall r (h_wall (hp_hit x)))) 0) (firstn (S j) hops)).
Proof.
  intros fuel r n eps rng dir src e0 hops He Hw Hr Hok Ls Ld Le H j h Hj.
  apply ray_loop_traced in H.
  destruct (traced_chain _ _ _ _ _ _ _ He Hw Hr H (conj Ls Ld) j h Hj) as (A1 & A2 & A3 & _).
  destruct (traced_energy _ _ _ _ _ _ _ n He Hw Hr Hok H (conj Ls Ld) Le j h Hj) as (B1 & B2 & B3).
  split; [auto|]. split; [rewrite A3; simpl ry_travel; ring|]. intros b Hb. now destruct (B3 b Hb).
Qed.

Theorem C22_energy_never_increases : forall fuel r n eps rng dir src e0 hops, 0 < eps -> walls_wf r ->
  rng_wf r rng -> room_ok r n -> length src = r_dim r -> length dir = r_dim r -> length e0 = n ->
  (forall w, In w (r_walls r) -> forall b, (b < n)%nat -> 0 <= nth b (w_abs w) 0 <= 1) ->
  (forall b, (b < n)%nat -> 0 <= nth b e0 0) ->
  simul_ray fuel r eps rng dir src e0 = Some hops ->
  forall h, In h hops -> forall b, (b < n)%nat ->
    0 <= nth b (ry_trans (hp_after h)) 0 <= nth b (ry_trans (hp_before h)) 0 /\
    nth b (ry_trans (hp_before h)) 0 <= nth b e0 0.
Proof.
  intros fuel r n eps rng dir src e0 hops He Hw Hr Hok Ls Ld Le Ha He0 H h Hin b Hb.
  apply ray_loop_traced in H. apply In_nth_error in Hin. destruct Hin as (j & Hj).
  assert (V : forall i x, nth_error hops i = Some x ->
     0 <= 1 - nth b (w_abs (get_wall r (h_wall (hp_hit x)))) 0 <= 1).
  { intros i x Hx. destruct (traced_chain _ _ _ _ _ _ _ He Hw Hr H (conj Ls Ld) i x Hx) as (A1 & _).
    specialize (Ha _ (get_wall_In r _ A1) b Hb). lra. }
  destruct (traced_energy _ _ _ _ _ _ _ n He Hw Hr Hok H (conj Ls Ld) Le j h Hj) as (B1 & B2 & B3).
  destruct (B3 b Hb) as [E1 E2]. simpl ry_trans in E1, E2.
  set (f := fun x : hop => 1 - nth b (w_abs (get_wall r (h_wall (hp_hit x)))) 0) in *.
  assert (P : 0 <= Rprod (map f (firstn j hops)) <= 1).
  { apply Rprod_nonneg_le1. intros y Hy. apply in_map_iff in Hy. destruct Hy as (x & <- & Hx).
    apply In_nth_error in Hx. destruct Hx as (i & Hi).
    apply (V i). rewrite <- Hi. symmetry.
    assert (i < j)%nat.
    { assert (i < length (firstn j hops))%nat by (apply nth_error_Some; congruence).
      rewrite firstn_length in *. lia. }
    clear - H0. revert i j H0. induction hops as [|a l IH]; intros [|i] [|j] Hij; simpl; auto; try lia.
    apply IH. lia. }
  assert (Q : Rprod (map f (firstn (S j) hops)) = Rprod (map f (firstn j hops)) * f h).
  { clear - Hj. revert j Hj. induction hops as [|a l IH]; intros [|j] Hj; try discriminate.
    - injection Hj as ->. simpl. ring.
    - simpl in Hj. cbn [firstn map] in *. unfold Rprod in *. cbn [fold_right]. rewrite (IH j Hj). ring. }
  rewrite Q in E2. specialize (V j h Hj). fold (f h) in V. specialize (He0 b Hb).
  rewrite E1, E2.
  assert (0 <= nth b e0 0 * Rprod (map f (firstn j hops)) <= nth b e0 0) by nra.
  assert (0 <= nth b e0 0 * (Rprod (map f (firstn j hops)) * f h) <= nth b e0 0 * Rprod (map f (firstn j hops))) by nra.
  lra.
Qed.

(** The hops form one connected path: the first starts at the source in the given
    direction; each hit is the next wall hit of the current ray; the next hop starts
    at that hit in the bounced direction; the loop goes on exactly as long as neither
    threshold is exceeded and a wall is hit. *)
Theorem C22_ray_path : forall fuel r eps rng dir src e0 hops, 0 < eps -> walls_wf r ->
  rng_wf r rng -> length src = r_dim r -> length dir = r_dim r ->
  simul_ray fuel r eps rng dir src e0 = Some hops ->
  let goes_on h := ry_travel (hp_after h) <= r_tthres r * r_speed r /\
                   list_max e0 * r_ethres r <= list_max (ry_trans (hp_after h)) in
  let next s := next_wall_hit r eps (ry_start s) (vadd (ry_start s) (vscal (max_distance r) (ry_dir s))) false in
  (forall h, nth_error hops 0 = Some h -> ry_start (hp_before h) = src /\ ry_dir (hp_before h) = dir) /\
  (forall j h, nth_error hops j = Some h ->
     next (hp_before h) = Some (hp_hit h) /\
     ry_start (hp_after h) = h_pt (hp_hit h) /\
     ry_dir (hp_after h) = bounce_dir (get_wall r (h_wall (hp_hit h))) (ry_dir (hp_before h))
                             (rng j (get_wall r (h_wall (hp_hit h)))) /\
     ry_count (hp_before h) = Z.of_nat j) /\
  (forall j h h', nth_error hops j = Some h -> nth_error hops (S j) = Some h' ->
     hp_before h' = hp_after h /\ goes_on h) /\
  (forall h, nth_error hops (length hops - 1) = Some h -> goes_on h -> next (hp_after h) = None) /\
  (hops = [] -> next_wall_hit r eps src (vadd src (vscal (max_distance r) dir)) false = None).
Proof.
  intros fuel r eps rng dir src e0 hops He Hw Hr Ls Ld H goes_on next.
  apply ray_loop_traced in H.
  assert (G : forall h lamb s, ray_step r eps (list_max e0 * r_ethres r) lamb s = Some h -> (hp_stop h = false <-> goes_on h)).
  { intros h lamb s E. unfold ray_step in E. destruct (next_wall_hit _ _ _ _ _); [|discriminate].
    injection E as <-. unfold goes_on. simpl. rewrite orb_false_iff, !Rltb_false. tauto. }
  assert (NN : forall lamb s, ray_step r eps (list_max e0 * r_ethres r) lamb s = None -> next s = None).
  { intros lamb s E. unfold ray_step in E. unfold next. destruct (next_wall_hit _ _ _ _ _); [discriminate|auto]. }
  pose proof (traced_chain _ _ _ _ _ _ _ He Hw Hr H (conj Ls Ld)) as C.
  split; [|split; [|split; [|split]]].
  - intros h Hh. destruct (C 0%nat h Hh) as (_ & _ & _ & _ & _ & [[_ ->]|(j' & h' & E & _)] & _); [auto|lia].
  - intros j h Hj. destruct (C j h Hj) as (_ & _ & _ & C4 & _ & _ & C7). rewrite C4. simpl in C7 |- *.
    unfold ray_step in C7. unfold next. destruct (next_wall_hit _ _ _ _ _) as [h0|]; [|discriminate].
    assert (E0 : h0 = hp_hit h) by (injection C7 as <-; reflexivity). subst h0.
    split; [auto|]. split; [injection C7 as <-; reflexivity|]. split; [|lia].
    injection C7 as C7. rewrite <- C7. simpl. rewrite <- C7. reflexivity.
  - intros j h h' Hj Hj'. destruct (C (S j) h' Hj') as (_ & _ & _ & _ & _ & [[E _]|(j2 & h2 & E & E2 & E3 & E4)] & _); [lia|].
    injection E as <-. assert (h2 = h) by congruence. subst h2. split; [auto|].
    destruct (C j h Hj) as (_ & _ & _ & _ & _ & _ & C7). now apply (G h _ _ C7).
  - intros h Hh Hg. destruct (traced_end _ _ _ _ _ _ _ H) as [_ [[-> _]|(h2 & E1 & E2)]]; [discriminate|].
    assert (h2 = h) by congruence. subst h2.
    destruct (C _ h Hh) as (_ & _ & _ & _ & _ & _ & C7).
    destruct E2 as [E2|[_ E2]]; [|eapply NN; eauto].
    apply (G h _ _ C7) in Hg. congruence.
  - intros ->. inversion H as [k s E| |]. subst. apply (NN _ _ E).
Qed.

(** ** C23 *)

(** Specular arrivals: an entry is logged for microphone [k] during a hop if and only if
    the closest point of the ray to it lies on the hop (within eps) and within the
    receiver radius (plus eps), and in hybrid mode the ray already made [ism_order]
    bounces; its travel distance is the distance travelled up to that point, and its
    energy the transmitted energy over (r^2 times the cap fraction). *)
Theorem C23_specular_arrivals : forall fuel r eps rng dir src e0 hops, 0 < eps -> walls_wf r ->
  rng_wf r rng -> length src = r_dim r -> length dir = r_dim r -> 0 < r_radius r ->
  (forall m, In m (r_mics r) -> length m = r_dim r) ->
  simul_ray fuel r eps rng dir src e0 = Some hops ->
  forall j h, nth_error hops j = Some h -> let s := hp_before h in
  let travelled := Rsum (map (fun x => h_dist (hp_hit x)) (firstn j hops)) in
  forall e, In e (hp_spec h) <->
    (r_hybrid r = true -> (r_ism_order r <= Z.of_nat j)%Z) /\
    exists mic, nth_error (r_mics r) (e_mic e) = Some mic /\
      let t := dot (vminus mic (ry_start s)) (ry_dir s) in
      - eps < t < h_dist (hp_hit h) + eps /\
      vdist mic (vadd (ry_start s) (vscal t (ry_dir s))) < r_radius r + eps /\
      e_travel e = travelled + Rabs t /\ e_origin e = ry_start s /\
      e_energy e = map (fun x => x / (e_travel e * e_travel e * cap_fraction (r_radius r) (e_travel e))) (ry_trans s).
Proof.
  intros fuel r eps rng dir src e0 hops He Hw Hr Ls Ld Hrad Hm H j h Hj s travelled e.
  apply ray_loop_traced in H.
  destruct (traced_chain _ _ _ _ _ _ _ He Hw Hr H (conj Ls Ld) j h Hj) as (_ & C2 & _ & C4 & [C5 C5'] & _ & C7).
  simpl in C2, C4. fold s in C2, C4, C5, C5', C7. rewrite Rplus_0_l in C2. fold travelled in C2.
  rewrite (hop_spec_In _ _ _ _ _ _ C7). rewrite C4.
  assert (D0 : forall l : list hop, (forall x, In x l -> 0 <= h_dist (hp_hit x)) -> 0 <= Rsum (map (fun x => h_dist (hp_hit x)) l)).
  { induction l as [|a l IH]; intros Hl; [simpl; lra|]. simpl. 
    pose proof (Hl a (or_introl eq_refl)). specialize (IH (fun x Hx => Hl x (or_intror Hx))). unfold Rsum in *. lra. }
  assert (T0 : 0 <= travelled).
  { apply D0. intros x Hx. assert (Hx' : In x hops).
    { rewrite <- (firstn_skipn j hops). apply in_or_app. auto. }
    apply In_nth_error in Hx'. destruct Hx' as (i & Hi).
    destruct (traced_chain _ _ _ _ _ _ _ He Hw Hr H (conj Ls Ld) i x Hi) as (_ & _ & _ & _ & B5 & _ & B7).
    destruct (ray_step_ok r eps _ _ _ x He Hw B5 (fun w Hw' => Hr _ w Hw') B7) as (_ & _ & B & _). lra. }
  split.
  - intros (A & k & mic & N & E). split; [exact A|].
    assert (Lm := Hm mic (nth_error_In _ _ N)).
    apply spec_entry_iff in E; try congruence. destruct E as (E1 & E2 & E3 & E4 & E5 & E6).
    exists mic. rewrite E3. split; [exact N|]. rewrite C2 in E4.
    split; [exact E1|]. split; [exact E2|]. split; [exact E4|]. split; [exact E5|].
    rewrite E6 at 1. rewrite cap_fraction_sq; auto. rewrite E4. 
    pose proof (Rabs_pos (dot (vminus mic (ry_start s)) (ry_dir s))). lra.
  - intros (A & mic & N & E1 & E2 & E4 & E5 & E6). split; [exact A|].
    assert (Lm := Hm mic (nth_error_In _ _ N)).
    exists (e_mic e), mic. split; [exact N|]. apply spec_entry_iff; try congruence.
    split; [exact E1|]. split; [exact E2|]. split; [reflexivity|]. rewrite C2. split; [exact E4|]. split; [exact E5|].
    rewrite cap_fraction_sq; auto. rewrite E4. pose proof (Rabs_pos (dot (vminus mic (ry_start s)) (ry_dir s))). lra.
Qed.

(** The logged energy is non-negative, and multiplied by the spherical spreading
    [r^2 * cap] it is exactly what the ray carried; the cap fraction is in (0, 1]. *)
Theorem C23_specular_energy : forall fuel r n eps rng dir src e0 hops, 0 < eps -> walls_wf r ->
  rng_wf r rng -> room_ok r n -> length src = r_dim r -> length dir = r_dim r -> length e0 = n -> 0 < r_radius r ->
  (forall m, In m (r_mics r) -> length m = r_dim r) ->
  (forall w, In w (r_walls r) -> forall b, (b < n)%nat -> 0 <= nth b (w_abs w) 0 <= 1) ->
  (forall b, (b < n)%nat -> 0 <= nth b e0 0) ->
  simul_ray fuel r eps rng dir src e0 = Some hops ->
  forall h e, In h hops -> In e (hp_spec h) -> 0 < e_travel e -> forall b, (b < n)%nat ->
    let p := cap_fraction (r_radius r) (e_travel e) in
    0 < p <= 1 /\ 0 <= nth b (e_energy e) 0 /\
    nth b (e_energy e) 0 * (e_travel e * e_travel e * p) = nth b (ry_trans (hp_before h)) 0 /\
    nth b (ry_trans (hp_before h)) 0 <= nth b e0 0.
Proof.
  intros fuel r n eps rng dir src e0 hops He Hw Hr Hok Ls Ld Le Hrad Hm Ha He0 H h e Hin Hie Ht b Hb p.
  pose proof (C22_energy_never_increases _ _ _ _ _ _ _ _ _ He Hw Hr Hok Ls Ld Le Ha He0 H h Hin b Hb) as [E1 E2].
  destruct (In_nth_error _ _ Hin) as (j & Hj).
  pose proof (ray_loop_traced _ _ _ _ _ _ _ _ H) as T.
  destruct (traced_energy _ _ _ _ _ _ _ n He Hw Hr Hok T (conj Ls Ld) Le j h Hj) as (B1 & _ & _).
  apply (C23_specular_arrivals _ _ _ _ _ _ _ _ He Hw Hr Ls Ld Hrad Hm H j h Hj) in Hie.
  destruct Hie as (_ & mic & _ & _ & _ & _ & _ & E).
  assert (P : 0 < p <= 1) by (apply cap_fraction_range; auto).
  assert (En : nth b (e_energy e) 0 = nth b (ry_trans (hp_before h)) 0 / (e_travel e * e_travel e * p)).
  { rewrite E. rewrite (map_ext_nth _ (fun x => x)) by lia. reflexivity. }
  rewrite En. assert (D : 0 < e_travel e * e_travel e * p) by (apply Rmult_lt_0_compat; [nra|lra]).
  split; [exact P|]. split.
  - unfold Rdiv. apply Rmult_le_pos; [lra|]. left; now apply Rinv_0_lt_compat.
  - split; [field; split; lra|lra].
Qed.

(** Scattered arrivals: exactly the microphones on the same side of the wall as the
    ray, with an unobstructed line to the hit point, before the time threshold and above
    the energy threshold. *)
Theorem C23_scattered_arrivals : forall fuel r eps rng dir src e0 hops, 0 < eps -> walls_wf r ->
  rng_wf r rng -> length src = r_dim r -> length dir = r_dim r -> 0 < r_radius r ->
  simul_ray fuel r eps rng dir src e0 = Some hops ->
  forall h, In h hops -> let w := get_wall r (h_wall (hp_hit h)) in let x := h_pt (hp_hit h) in
  forall e, In e (hp_scat h) <->
    (exists c, In c (w_scat w) /\ 0 < c) /\
    exists mic, nth_error (r_mics r) (e_mic e) = Some mic /\
      side eps w mic = side eps w (ry_start (hp_before h)) /\
      (r_shoebox r = None -> next_wall_hit r eps x mic true = None) /\
      e_origin e = x /\ e_travel e = ry_travel (hp_after h) + vdist mic x /\
      e_travel e < r_tthres r * r_speed r /\
      let arriving := map2 (fun s t => s * t * cap_fraction (r_radius r) (vdist mic x)
                                         * (2 * Rabs (cosine_angle w (vminus mic x)))) (w_scat w) (ry_trans (hp_after h)) in
      r_ethres r < list_max arriving /\
      e_energy e = map (fun y => y / (e_travel e * e_travel e * cap_fraction (r_radius r) (e_travel e))) arriving.
Proof.
  intros fuel r eps rng dir src e0 hops He Hw Hr Ls Ld Hrad H h Hin w x e.
  apply ray_loop_traced in H. destruct (In_nth_error _ _ Hin) as (j & Hj).
  destruct (traced_chain _ _ _ _ _ _ _ He Hw Hr H (conj Ls Ld) j h Hj) as (_ & _ & C3 & C4 & C5 & _ & C7).
  rewrite (hop_scat_In _ _ _ _ _ _ C7). fold w. fold x. cbv zeta.
  assert (DS : does_scatter w = true <-> exists c, In c (w_scat w) /\ 0 < c).
  { unfold does_scatter. rewrite Rltb_true. split.
    - unfold list_max. destruct (w_scat w) as [|a l]; simpl; [lra|]. intros P.
      assert (G : forall l a, 0 < fold_left Rmax l a -> 0 < a \/ exists c, In c l /\ 0 < c).
      { clear. induction l as [|y l IH]; simpl; intros a P; [auto|].
        destruct (IH _ P) as [Q|(c & Q1 & Q2)]; [|right; exists c; auto].
        unfold Rmax in Q. destruct (Rle_dec a y); [right; exists y; auto|auto]. }
      destruct (G l a P) as [Q|(c & Q1 & Q2)]; [exists a|exists c]; auto.
    - intros (c & C1 & C2). pose proof (list_max_ge _ _ C1). lra. }
  rewrite DS.
  assert (D0 : forall i y, nth_error hops i = Some y -> 0 <= ry_travel (hp_after y)).
  { intros i y Hi. 
    destruct (traced_chain _ _ _ _ _ _ _ He Hw Hr H (conj Ls Ld) i y Hi) as (_ & _ & B3 & _).
    rewrite B3. simpl ry_travel. rewrite Rplus_0_l.
    assert (G : forall l : list hop, (forall z, In z l -> 0 <= h_dist (hp_hit z)) -> 0 <= Rsum (map (fun z => h_dist (hp_hit z)) l)).
    { induction l as [|a l IH]; intros Hl; [simpl; lra|]. simpl. 
      pose proof (Hl a (or_introl eq_refl)). specialize (IH (fun z Hz => Hl z (or_intror Hz))). unfold Rsum in *. lra. }
    apply G. intros z Hz. assert (Hz' : In z hops).
    { rewrite <- (firstn_skipn (S i) hops). apply in_or_app. auto. }
    apply In_nth_error in Hz'. destruct Hz' as (q & Hq).
    destruct (traced_chain _ _ _ _ _ _ _ He Hw Hr H (conj Ls Ld) q z Hq) as (_ & _ & _ & _ & B5 & _ & B7).
    destruct (ray_step_ok r eps _ _ _ z He Hw B5 (fun w' Hw' => Hr _ w' Hw') B7) as (_ & _ & B & _). lra. }
  specialize (D0 j h Hj).
  split.
  - intros (A & k & mic & N & E). split; [exact A|]. apply scat_entry_iff in E. cbv zeta in E.
    destruct E as (E1 & E2 & E3 & E4 & E5 & E6 & E7 & E8).
    rewrite (cap_fraction_sq (r_radius r) (vdist mic x)) in E7, E8 by (auto; apply vdist_nonneg).
    exists mic. rewrite E3. repeat (split; [assumption|]).
    rewrite E8 at 1. rewrite (cap_fraction_sq (r_radius r) (e_travel e)); auto.
    rewrite E4. pose proof (vdist_nonneg mic x). lra.
  - intros (A & mic & N & E1 & E2 & E5 & E4 & E6 & E7 & E8). split; [exact A|]. exists (e_mic e), mic.
    split; [exact N|]. apply scat_entry_iff. cbv zeta.
    rewrite (cap_fraction_sq (r_radius r) (vdist mic x)) by (auto; apply vdist_nonneg).
    rewrite (cap_fraction_sq (r_radius r) (e_travel e)) by (auto; rewrite E4; pose proof (vdist_nonneg mic x); lra).
    repeat (split; [first [assumption|reflexivity]|]). exact E8.
Qed.

(** A microphone placed at the source is always reached at distance zero by the first
    hop: the energy logged is a division by zero. *)
Theorem C23_source_at_microphone_refuted : forall fuel r eps rng dir src e0 h hops k, 0 < eps -> walls_wf r ->
  rng_wf r rng -> length src = r_dim r -> length dir = r_dim r -> 0 < r_radius r ->
  (forall m, In m (r_mics r) -> length m = r_dim r) -> r_hybrid r = false ->
  nth_error (r_mics r) k = Some src ->
  simul_ray fuel r eps rng dir src e0 = Some (h :: hops) ->
  exists e, In e (hp_spec h) /\ e_mic e = k /\ e_travel e = 0 /\
    e_travel e * e_travel e * cap_fraction (r_radius r) (e_travel e) = 0.
Proof.
  intros fuel r eps rng dir src e0 h hops k He Hw Hr Ls Ld Hrad Hm Hh Hk H.
  pose proof (C22_ray_path _ _ _ _ _ _ _ _ He Hw Hr Ls Ld H) as (P1 & _). destruct (P1 h eq_refl) as [S1 S2].
  set (e := {| e_mic := k; e_travel := 0; e_origin := src;
    e_energy := map (fun x => x / (0 * 0 * cap_fraction (r_radius r) 0)) (ry_trans (hp_before h)) |}).
  exists e. split; [|simpl; repeat split; ring].
  apply (C23_specular_arrivals _ _ _ _ _ _ _ _ He Hw Hr Ls Ld Hrad Hm H 0 h eq_refl).
  split; [congruence|]. exists src. split; [exact Hk|]. rewrite S1, S2.
  assert (T : dot (vminus src src) dir = 0).
  { rewrite dot_vminus_l by auto. ring. }
  cbv zeta. rewrite T.
  pose proof (ray_loop_traced _ _ _ _ _ _ _ _ H) as Tr.
  destruct (traced_chain _ _ _ _ _ _ _ He Hw Hr Tr (conj Ls Ld) 0 h eq_refl) as (_ & _ & _ & _ & B5 & _ & B7).
  destruct (ray_step_ok r eps _ _ _ h He Hw B5 (fun w Hw' => Hr _ w Hw') B7) as (_ & _ & B & _).
  split; [lra|]. split.
  - replace (vadd src (vscal 0 dir)) with src by vring. rewrite vdist_refl. lra.
  - split; [simpl; rewrite Rabs_R0; ring|]. split; reflexivity.
Qed.

(** The hypotheses hold for the cubic room with a microphone. *)
Example C22_ex : walls_wf cube_room /\ room_ok cube_room 1 /\ rng_wf cube_room (fun _ _ => [0;0;1]) /\
  (forall m, In m (r_mics cube_room) -> length m = 3%nat) /\
  (forall w, In w (r_walls cube_room) -> forall b, (b < 1)%nat -> 0 <= nth b (w_abs w) 0 <= 1).
Proof.
  split; [split; [right; reflexivity|split; [intros w Hw; now apply cube_walls_length|intros C; contradiction]]|].
  split; [split; [intros C; contradiction|]|].
  { intros w Hw. simpl in Hw. repeat destruct Hw as [<-|Hw]; try destruct Hw; simpl; auto. }
  split; [intros k w _; reflexivity|]. split; [intros m [<-|[]]; reflexivity|].
  intros w Hw b Hb. simpl in Hw. assert (b = 0%nat) by lia. subst b.
  repeat destruct Hw as [<-|Hw]; try destruct Hw; simpl; lra.
Qed.
Example C17_ex : hull (is_corner cube_room) [2;0;0] /\ 4 < max_distance cube_room.
Proof.
  split; [|exact cube_max_distance].
  replace [2;0;0] with (vadd (vscal (1 - 1/2) [0;0;0]) (vscal (1/2) [4;0;0])).
  - apply hull_mix; [| |lra]; apply hull_pt; exists (nth 0 cube wall0); split; simpl; tauto.
  - unfold vadd, vscal; simpl. f_equal; [lra|f_equal; [lra|f_equal; lra]].
Qed.
Example C19_ex : in_box 0 [4;3;2] [1;1;0] /\ vnorm [4;3;2] < vdist [1;1;10] [1;1;0] /\
  ahead [4;3;2] [1;1;0] (vminus [1;1;10] [1;1;0]) 2 = 2.
Proof.
  split; [intros [|[|[|i]]] Hi; simpl in *; try lia; lra|]. split.
  - unfold vdist, vnorm. apply sqrt_lt_1_alt. unfold vsq, vminus, dot; simpl. lra.
  - unfold ahead; simpl. destruct (Rlt_dec _ _); lra.
Qed.

Print Assumptions C17_max_distance_exceeds_hull.
Print Assumptions C18_next_wall_hit_is_nearest.
Print Assumptions C18_hit_in_front_refuted.
Print Assumptions C19_shoebox_hit_sound.
Print Assumptions C19_shoebox_hit_found.
Print Assumptions C22_ray_terminates.
Print Assumptions C22_ray_path.
Print Assumptions C23_specular_arrivals.
Print Assumptions C23_scattered_arrivals.
