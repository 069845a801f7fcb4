(** C12 - C16: planar and spatial primitives of geometry.cpp. *)
From Coq Require Import List ZArith Lia Reals Lra Bool.
From Verif Require Import Base Vec GeometryModel GeometrySpec GeometryProofs.
Import ListNotations.
Local Open Scope R_scope.

(** ** C12 *)

(** The orientation code is the sign of twice the triangle area with a dead band. *)
Theorem C12_ccw_is_signed_area : forall eps a b c, 0 <= eps ->
  sign_with_margin eps (orient a b c) (ccw3p eps a b c).
Proof. exact ccw_sign_proof. Qed.

Theorem C12_ccw_symmetry : forall eps a b c, 0 < eps ->
  ccw3p eps b c a = ccw3p eps a b c /\
  ccw3p eps c a b = ccw3p eps a b c /\
  ccw3p eps b a c = (- ccw3p eps a b c)%Z /\
  ccw3p eps a c b = (- ccw3p eps a b c)%Z /\
  ccw3p eps c b a = (- ccw3p eps a b c)%Z.
Proof. exact ccw_symmetry_proof. Qed.

Theorem C12_intersection_test_symmetry : forall eps a1 a2 b1 b2, 0 < eps ->
  check_intersection_2d eps a2 a1 b1 b2 = check_intersection_2d eps a1 a2 b1 b2 /\
  check_intersection_2d eps a1 a2 b2 b1 = check_intersection_2d eps a1 a2 b1 b2 /\
  check_intersection_2d eps b1 b2 a1 a2 = swap_flags (check_intersection_2d eps a1 a2 b1 b2).
Proof. exact check_sym_proof. Qed.

(** With eps = 0 the antisymmetry is lost exactly on collinear triples: the code for a
    degenerate triple is -1 in every order (the dead band is open). *)
Theorem C12_zero_tolerance_refuted : exists a b c,
  ccw3p 0 b a c <> (- ccw3p 0 a b c)%Z.
Proof.
  exists (0,0), (1,0), (2,0). unfold ccw3p, X, Y; simpl.
  assert (E : forall d, d = 0 -> Rltb d 0 && Rltb (-0) d = false /\ Rltb 0 d = false).
  { intros d ->. unfold Rltb. destruct (Rlt_dec 0 0); [lra|]. simpl. auto. }
  destruct (E ((0 - 1) * (0 - 0) - (2 - 1) * (0 - 0))) as [A B]; [ring|].
  destruct (E ((1 - 0) * (0 - 0) - (2 - 0) * (0 - 0))) as [C D]; [ring|].
  rewrite A, B, C, D. discriminate.
Qed.

(** A T-shaped pair of segments: touching in the interior of the first one. *)
Example C12_ex : check_intersection_2d (1/100) (0,0) (2,0) (1,0) (1,1) = 2%Z /\
                 check_intersection_2d (1/100) (1,0) (1,1) (0,0) (2,0) = 1%Z.
Proof.
  assert (E1 : ccw3p (1/100) (0,0) (2,0) (1,0) = 0%Z).
  { rewrite ccw3p_tri. apply tri_0; unfold orient; simpl; lra. }
  assert (E2 : ccw3p (1/100) (0,0) (2,0) (1,1) = 1%Z).
  { rewrite ccw3p_tri. apply tri_pos; unfold orient; simpl; lra. }
  assert (E3 : ccw3p (1/100) (1,0) (1,1) (0,0) = 1%Z).
  { rewrite ccw3p_tri. apply tri_pos; unfold orient; simpl; lra. }
  assert (E4 : ccw3p (1/100) (1,0) (1,1) (2,0) = (-1)%Z).
  { rewrite ccw3p_tri. apply tri_m1; unfold orient; simpl; lra. }
  unfold check_intersection_2d. rewrite E1, E2, E3, E4. split; reflexivity.
Qed.

(** ** C13 *)

(** A reported point is on both lines; its parameters on the two segments exceed
    [0,1] by less than one segment length, and for code 0 (orientations decided
    strictly) they are strictly inside. *)
Theorem C13_intersection_2d_sound : forall eps a1 a2 b1 b2 c x, 0 < eps ->
  intersection_2d eps a1 a2 b1 b2 = (c, Some x) ->
  orient a1 a2 x = 0 /\ orient b1 b2 x = 0 /\
  (exists s t, -1 < s < 2 /\ -1 < t < 2 /\ x = seg_at a1 a2 s /\ x = seg_at b1 b2 t) /\
  (c = 0%Z -> exists s t, 0 < s < 1 /\ 0 < t < 1 /\ x = seg_at a1 a2 s /\ x = seg_at b1 b2 t).
Proof. exact intersection_2d_sound_proof. Qed.

(** Code 0 is returned exactly when the endpoints of each segment are separated by the
    line of the other one, by at least the tolerance. *)
Theorem C13_intersection_2d_strict_iff : forall eps a1 a2 b1 b2, 0 < eps ->
  (((eps <= orient a1 a2 b1 /\ orient a1 a2 b2 <= - eps) \/
    (orient a1 a2 b1 <= - eps /\ eps <= orient a1 a2 b2)) /\
   ((eps <= orient b1 b2 a1 /\ orient b1 b2 a2 <= - eps) \/
    (orient b1 b2 a1 <= - eps /\ eps <= orient b1 b2 a2)))
  <-> exists x, intersection_2d eps a1 a2 b1 b2 = (0%Z, Some x).
Proof. exact intersection_2d_complete_proof. Qed.

Theorem C13_intersection_2d_none : forall eps a1 a2 b1 b2, 0 < eps ->
  (eps <= orient a1 a2 b1 /\ eps <= orient a1 a2 b2) \/
  (orient a1 a2 b1 <= - eps /\ orient a1 a2 b2 <= - eps) \/
  (eps <= orient b1 b2 a1 /\ eps <= orient b1 b2 a2) \/
  (orient b1 b2 a1 <= - eps /\ orient b1 b2 a2 <= - eps) ->
  intersection_2d eps a1 a2 b1 b2 = ((-1)%Z, None).
Proof. exact intersection_2d_none_proof. Qed.

(** The return value and the out-parameter go together. *)
Theorem C13_intersection_2d_codes : forall eps a1 a2 b1 b2,
  let r := intersection_2d eps a1 a2 b1 b2 in
  ((fst r = -1)%Z /\ snd r = None) \/ ((0 <= fst r <= 3)%Z /\ snd r <> None).
Proof. exact intersection_2d_codes. Qed.

(** The tolerance can put the reported point well outside a segment: here it
    is half a segment length before the start of the second segment. *)
Theorem C13_point_on_segment_refuted : exists a1 a2 b1 b2 c x,
  intersection_2d (1/100000) a1 a2 b1 b2 = (c, Some x) /\ ~ on_edge b1 b2 x.
Proof.
  exists (-1,0), (1,0), (0, 1/400000), (0, 3/400000 + 1/100000), 2%Z, (0,0).
  assert (E1 : ccw3p (1/100000) (-1,0) (1,0) (0, 1/400000) = 0%Z).
  { rewrite ccw3p_tri. apply tri_0; unfold orient; simpl; lra. }
  assert (E2 : ccw3p (1/100000) (-1,0) (1,0) (0, 3/400000 + 1/100000) = 1%Z).
  { rewrite ccw3p_tri. apply tri_pos; unfold orient; simpl; lra. }
  assert (E3 : ccw3p (1/100000) (0, 1/400000) (0, 3/400000 + 1/100000) (-1,0) = 1%Z).
  { rewrite ccw3p_tri. apply tri_pos; unfold orient; simpl; lra. }
  assert (E4 : ccw3p (1/100000) (0, 1/400000) (0, 3/400000 + 1/100000) (1,0) = (-1)%Z).
  { rewrite ccw3p_tri. apply tri_m1; unfold orient; simpl; lra. }
  split.
  - unfold intersection_2d, check_intersection_2d. rewrite E1, E2, E3, E4. simpl.
    unfold X, Y; simpl.
    match goal with |- context [Rltb (Rabs ?d) _] => replace d with (3/100000) by lra end.
    rewrite Rabs_right by lra.
    destruct (Rltb _ _) eqn:E; [apply Rltb_true in E; lra|].
    f_equal. f_equal. f_equal; field.
  - intros [t [Ht E]]. unfold seg_at in E; simpl in E. injection E as _ E. lra.
Qed.

(** Two diagonals of the unit square cross in its centre. *)
Example C13_ex : intersection_2d (1/100) (0,0) (1,1) (0,1) (1,0) = (0%Z, Some (1/2, 1/2)).
Proof.
  destruct (proj1 (C13_intersection_2d_strict_iff (1/100) (0,0) (1,1) (0,1) (1,0) ltac:(lra))) as [x Hx].
  - unfold orient; simpl; lra.
  - destruct (C13_intersection_2d_sound _ _ _ _ _ _ _ (ltac:(lra) : 0 < 1/100) Hx) as (A & B & _).
    rewrite Hx. f_equal. f_equal. destruct x as [u v]. unfold orient in *; simpl in *.
    f_equal; lra.
Qed.

(** ** C14 (stated for any dimension) *)
Theorem C14_segment_plane_sound : forall eps a1 a2 p n c x,
  length a2 = length a1 -> length p = length a1 -> length n = length a1 -> 0 < eps ->
  intersection_seg_plane eps a1 a2 p n = (c, Some x) ->
  exists s, - eps <= s <= 1 + eps /\ x = vadd (vscal s (vminus a2 a1)) a1 /\
    dot n (vminus x p) = 0 /\ eps < Rabs (dot n (vminus a2 a1)) /\
    (c = 0 \/ c = 1)%Z /\ (c = 1%Z <-> Rabs s < eps \/ Rabs (s - 1) < eps).
Proof. exact seg_plane_sound_proof. Qed.

Theorem C14_segment_plane_complete : forall eps a1 a2 p n s,
  length a2 = length a1 -> length p = length a1 -> length n = length a1 -> 0 < eps ->
  eps < Rabs (dot n (vminus a2 a1)) -> - eps <= s <= 1 + eps ->
  dot n (vminus (vadd (vscal s (vminus a2 a1)) a1) p) = 0 ->
  exists c, (0 <= c)%Z /\
    intersection_seg_plane eps a1 a2 p n = (c, Some (vadd (vscal s (vminus a2 a1)) a1)).
Proof. exact seg_plane_complete_proof. Qed.

Theorem C14_segment_plane_same_side : forall eps a1 a2 p n,
  length a2 = length a1 -> length p = length a1 -> length n = length a1 -> 0 < eps ->
  let h1 := dot n (vminus a1 p) in let h2 := dot n (vminus a2 p) in
  (0 < h1 /\ 0 < h2 \/ h1 < 0 /\ h2 < 0) ->
  eps * Rabs (h2 - h1) < Rabs h1 -> eps * Rabs (h2 - h1) < Rabs h2 ->
  intersection_seg_plane eps a1 a2 p n = ((-1)%Z, None).
Proof. exact seg_plane_same_side_proof. Qed.

Example C14_ex : exists c, (0 <= c)%Z /\
  intersection_seg_plane (1/100) [0;0;1] [2;0;-1] [5;5;0] [0;0;1]
   = (c, Some (vadd (vscal (1/2) (vminus [2;0;-1] [0;0;1])) [0;0;1])).
Proof.
  apply C14_segment_plane_complete; try reflexivity; unfold dot, vminus, vadd, vscal; simpl; try lra.
  unfold Rabs. destruct (Rcase_abs _); lra.
Qed.

(** ** C15 *)
Theorem C15_area_is_shoelace : forall l, area_2d_polygon l = shoelace l.
Proof. exact area_shoelace_proof. Qed.

Theorem C15_area_laws : forall l,
  area_2d_polygon (rev l) = - area_2d_polygon l /\
  (forall l1 l2, l = l1 ++ l2 -> area_2d_polygon (l2 ++ l1) = area_2d_polygon l) /\
  (forall dx dy, area_2d_polygon (map (fun p => (fst p + dx, snd p + dy)) l) = area_2d_polygon l) /\
  (forall k, area_2d_polygon (map (fun p => (k * fst p, k * snd p)) l) = k * k * area_2d_polygon l).
Proof. exact area_laws_proof. Qed.

(** An L-shaped (non-convex) room of area 3. *)
Example C15_ex : area_2d_polygon [(0,0); (2,0); (2,1); (1,1); (1,2); (0,2)] = 3.
Proof. rewrite C15_area_is_shoelace. unfold shoelace; simpl. lra. Qed.

(** ** C16 *)
Theorem C16_boundary : forall eps l a b p, 0 < eps ->
  In (a, b) (edges l) -> on_edge a b p -> is_inside_2d_polygon eps p l = 1%Z.
Proof. exact inside_boundary_proof. Qed.

(** Any polygon (convex or not): left of all edges by the tolerance means inside. *)
Theorem C16_left_of_all_edges_is_inside : forall eps l p, 0 < eps -> l <> [] ->
  (forall e, In e (edges l) -> eps <= orient (fst e) (snd e) p) ->
  is_inside_2d_polygon eps p l = 0%Z.
Proof. exact inside_strict_proof. Qed.

(** Convex polygons: a point whose side of every edge line is decided (outside the
    tolerance band) is classified correctly. *)
Theorem C16_convex_polygon_decided : forall eps l p, 0 < eps -> l <> [] -> convex_ccw l ->
  (forall e, In e (edges l) -> eps <= Rabs (orient (fst e) (snd e) p)) ->
  ((forall e, In e (edges l) -> 0 < orient (fst e) (snd e) p) -> is_inside_2d_polygon eps p l = 0%Z) /\
  ((exists e, In e (edges l) /\ orient (fst e) (snd e) p < 0) -> is_inside_2d_polygon eps p l = (-1)%Z).
Proof. exact convex_decided_proof. Qed.

(** Any polygon at all: if all vertices are strictly on one side of a line through p
    and no edge line passes within tolerance of p, p is reported outside. *)
Theorem C16_separated_is_outside : forall eps l p nx ny, 0 < eps ->
  (forall v, In v l -> 0 < nx * (fst v - fst p) + ny * (snd v - snd p)) ->
  (forall e, In e (edges l) -> ~ (- eps < orient (fst e) (snd e) p < eps)) ->
  is_inside_2d_polygon eps p l = (-1)%Z.
Proof.
  intros eps l p nx ny He H1 H2. apply (halfplane_outside eps l p nx ny); auto.
  intros e Hi. rewrite ccw3p_tri. rewrite tri_0 by auto. auto.
Qed.

(** Inside the tolerance band the answer is wrong on both sides: a point strictly
    inside the unit square, one micrometre from the right edge, is reported outside
    (not "boundary"), and a point strictly outside, one micrometre left of the left
    edge, is reported inside. *)
Theorem C16_tolerance_band_refuted :
  let sq := [(0,0); (1,0); (1,1); (0,1)] in
  exists p q,
    (0 < fst p < 1 /\ 0 < snd p < 1 /\ is_inside_2d_polygon (1/100000) p sq = (-1)%Z) /\
    (fst q < 0 /\ is_inside_2d_polygon (1/100000) q sq = 0%Z).
Proof.
  cbv zeta. exists (1 - 1/1000000, 1/2), (-1/1000000, 1/2).
  assert (T : forall (p : R * R), 1/2 = snd p -> ~ (0 = fst p) -> ~ (1 = fst p) ->
     is_inside_2d_polygon (1/100000) p [(0,0); (1,0); (1,1); (0,1)] =
     (if (((if (0 <? is_left (1/100000)%R (1,0)%R (1,1)%R p)%Z then 1 else 0)
        + (if (is_left (1/100000)%R (0,1)%R (0,0)%R p <? 0)%Z then -1 else 0)) =? 0)%Z then (-1)%Z else 0%Z)).
  { intros p Hy H0 H1. rewrite inside_eq.
    assert (S1 : on_segment (0,1) (0,0) p = false).
    { apply not_true_is_false. rewrite on_segment_true. unfold X, Y; simpl.
      rewrite Rmin_left, Rmax_left by lra. intros [? ?]. lra. }
    assert (S2 : on_segment (0,0) (1,0) p = false).
    { apply not_true_is_false. rewrite on_segment_true. unfold X, Y; simpl.
      rewrite (Rmin_left 0 0), (Rmax_left 0 0) by lra. intros [? ?]. lra. }
    assert (S3 : on_segment (1,0) (1,1) p = false).
    { apply not_true_is_false. rewrite on_segment_true. unfold X, Y; simpl.
      rewrite (Rmin_left 1 1), (Rmax_left 1 1) by lra. intros [? ?]. lra. }
    assert (S4 : on_segment (1,1) (0,1) p = false).
    { apply not_true_is_false. rewrite on_segment_true. unfold X, Y; simpl.
      rewrite (Rmin_left 1 1), (Rmax_left 1 1) by lra. intros [? ?]. lra. }
    unfold edges. cbn [last chain existsb]. unfold on_bnd. cbn [fst snd].
    rewrite S1, S2, S3, S4. rewrite !Bool.andb_false_r. cbn [orb].
    cbn [map]. unfold wcontrib. cbn [fst snd]. unfold Y. cbn [snd]. rewrite <- Hy.
    assert (L0 : Rleb 0 (1/2) = true) by (apply Rleb_true; lra).
    assert (L1 : Rleb 1 (1/2) = false) by (apply Rleb_false; lra).
    assert (L2 : Rltb (1/2) 0 = false) by (apply Rltb_false; lra).
    assert (L3 : Rltb (1/2) 1 = true) by (apply Rltb_true; lra).
    rewrite L0, L1, L2, L3. unfold Zsum. cbn [fold_right].
    match goal with |- (if (?u =? 0)%Z then _ else _) = (if (?v =? 0)%Z then _ else _) =>
      replace u with v by (destruct (_ <? _)%Z, (_ <? _)%Z; reflexivity) end.
    reflexivity. }
  split.
  - split; [simpl; lra|]. split; [simpl; lra|]. rewrite T by (simpl; lra).
    rewrite !is_left_tri by lra.
    replace (tri (1/100000) (orient (1,0) (1,1) (1 - 1/1000000, 1/2))) with 0%Z
      by (symmetry; apply tri_0; unfold orient; simpl; lra).
    replace (tri (1/100000) (orient (0,1) (0,0) (1 - 1/1000000, 1/2))) with 1%Z
      by (symmetry; apply tri_pos; unfold orient; simpl; lra).
    reflexivity.
  - split; [simpl; lra|]. rewrite T by (simpl; lra).
    rewrite !is_left_tri by lra.
    replace (tri (1/100000) (orient (1,0) (1,1) (-1/1000000, 1/2))) with 1%Z
      by (symmetry; apply tri_pos; unfold orient; simpl; lra).
    replace (tri (1/100000) (orient (0,1) (0,0) (-1/1000000, 1/2))) with 0%Z
      by (symmetry; apply tri_0; unfold orient; simpl; lra).
    reflexivity.
Qed.

(** A 4 x 3 rectangle is convex; a point of its interior and one outside. *)
Example C16_ex : let r := [(0,0); (4,0); (4,3); (0,3)] in
  convex_ccw r /\ is_inside_2d_polygon (1/1000) (1,2) r = 0%Z /\
  is_inside_2d_polygon (1/1000) (5,2) r = (-1)%Z /\ is_inside_2d_polygon (1/1000) (4,2) r = 1%Z.
Proof.
  cbv zeta.
  assert (C : convex_ccw [(0,0); (4,0); (4,3); (0,3)]).
  { intros e v He Hv. unfold edges in He. cbn [last chain] in He.
    destruct He as [<-|[<-|[<-|[<-|[]]]]]; destruct Hv as [<-|[<-|[<-|[<-|[]]]]];
      unfold orient; simpl; lra. }
  split; [exact C|]. split; [|split].
  - apply C16_left_of_all_edges_is_inside; [lra|discriminate|].
    intros e He. unfold edges in He. cbn [last chain] in He.
    destruct He as [<-|[<-|[<-|[<-|[]]]]]; unfold orient; simpl; lra.
  - apply (C16_convex_polygon_decided (1/1000) _ (5,2)); auto; [lra|discriminate| |].
    + intros e He. unfold edges in He. cbn [last chain] in He.
      destruct He as [<-|[<-|[<-|[<-|[]]]]]; unfold orient, Rabs; simpl; destruct (Rcase_abs _); lra.
    + exists ((4,0),(4,3)). split; [simpl; auto|unfold orient; simpl; lra].
  - apply (C16_boundary _ _ (4,0) (4,3)); [lra|simpl; auto|].
    exists (2/3). split; [lra|]. unfold seg_at; simpl. f_equal; lra.
Qed.

Print Assumptions C12_ccw_symmetry.
Print Assumptions C13_intersection_2d_sound.
Print Assumptions C14_segment_plane_sound.
Print Assumptions C15_area_laws.
Print Assumptions C16_convex_polygon_decided.
