(** Rooms built from polygons: from_corners, extrude, volumes, shoebox membership. *)
From Coq Require Import List ZArith Lia Reals Lra Bool.
From Verif Require Import Base Vec GeometryModel GeometrySpec GeometryProofs WallModel WallSpec WallProofs WallProps BaseProofs PolyRoomModel PolyRoomSpec PolyRoomProofs.
Import ListNotations.
Local Open Scope R_scope.

(** C32.  Corners given counter-clockwise (positive area): one wall per corner; wall [i]
    joins corner [i] to the next one, has material [i], and its normal points outwards, to
    the right of the edge. *)
Theorem C32_counterclockwise_room : forall g corners mats,
  (3 <= length corners)%nat -> length mats = length corners -> (forall m, In m mats -> length (fst m) = length (snd m)) ->
  0 < area_2d_polygon corners ->
  exists ws, from_corners g corners mats = Some ws /\ length ws = length corners /\
    forall i, (i < length corners)%nat -> exists w m, nth_error ws i = Some w /\ nth_error mats i = Some m /\
      w_corners w = [of2 (nth i corners (0, 0)); of2 (next_corner corners i)] /\ w_abs w = fst m /\ w_scat w = snd m /\
      (nth i corners (0, 0) <> next_corner corners i -> w_normal w = right_of (nth i corners (0, 0)) (next_corner corners i)).
Proof.
  intros g corners mats Hn Hm Hl HA. eexists. split; [apply from_corners_walls; auto|].
  assert (E : ccw_corners corners = corners).
  { unfold ccw_corners. destruct (Rleb (area_2d_polygon corners) 0) eqn:Q; auto. rewrite Rleb_true in Q. lra. }
  rewrite E. split; [now rewrite map_length, seq_length|]. intros i Hi.
  destruct (nth_error mats i) as [m|] eqn:Em; [|apply nth_error_None in Em; lia].
  eexists _, m. split; [rewrite nth_error_map, nth_error_nth' with (d := 0%nat) by (now rewrite seq_length); rewrite seq_nth by auto; reflexivity|].
  split; [reflexivity|]. cbn [Nat.add]. rewrite (nth_error_nth _ _ _ Em). cbn. repeat (split; [reflexivity|]). apply vnormalized_right.
Qed.

(** C32.  Whatever the order of the corners, the polygon formed by the first corners of the
    stored walls has the absolute value of the given polygon's area: it is
    counter-clockwise. *)
Theorem C32_stored_counterclockwise : forall g corners mats ws, from_corners g corners mats = Some ws ->
  area_2d_polygon (map (fun w => to2 (nth 0 (w_corners w) [])) ws) = Rabs (area_2d_polygon corners).
Proof.
  intros g corners mats ws E. unfold from_corners in E. destruct (Nat.ltb_spec (length corners) 3) as [|Hn]; [discriminate|].
  destruct (Nat.eqb_spec (length mats) (length corners)) as [Hm|]; [|discriminate]. cbn [negb] in E.
  rewrite <- ccw_corners_area. f_equal. apply mapM_inv in E.
  apply nth_ext with (0, 0) (0, 0).
  { rewrite map_length, <- (F2_length _ _ _ E), seq_length. symmetry. apply ccw_corners_length. }
  intros i Hi. rewrite map_length, <- (F2_length _ _ _ E), seq_length in Hi.
  assert (G : forall a k ws, Forall2 (fun x y => (let m := nth x mats ([], []) in make_wall2 g [of2 (nth x (ccw_corners corners) (0, 0)); of2 (nth ((x + 1) mod length corners) (ccw_corners corners) (0, 0))] (fst m) (snd m)) = Some y) (seq a k) ws ->
     forall j, (j < k)%nat -> nth j (map (fun w => to2 (nth 0 (w_corners w) [])) ws) (0, 0) = nth (a + j) (ccw_corners corners) (0, 0)).
  { clear. intros a k. revert a. induction k as [|k IH]; intros a ws F j Hj; [lia|]. inversion F as [|x y xs ys Hxy F']; subst. destruct j.
    - cbn [map nth]. unfold make_wall2 in Hxy. destruct (negb _); [discriminate|]. injection Hxy as <-. cbn [w_corners nth]. rewrite to2_of2. f_equal. lia.
    - cbn [map nth]. rewrite (IH (S a) ys F' j) by lia. f_equal. lia. }
  apply (G 0%nat (length corners) ws E i Hi).
Qed.

(** C32.  Fewer than three corners, or a number of materials different from the number of
    corners, is an error. *)
Theorem C32_bad_input_rejected : forall g corners mats,
  ((length corners < 3)%nat \/ length mats <> length corners) -> from_corners g corners mats = None.
Proof.
  intros g corners mats H. unfold from_corners. destruct (Nat.ltb_spec (length corners) 3); auto.
  destruct (Nat.eqb_spec (length mats) (length corners)); auto. exfalso. destruct H; lia.
Qed.

(** C32.  For corners given clockwise the walls run along the reversed list while the
    materials are not reversed: material [i] is on the wall between corners [n-1-i] and
    [n-2-i] (the last one wraps around). *)
Theorem C32_clockwise_room : forall g corners mats,
  (3 <= length corners)%nat -> length mats = length corners -> (forall m, In m mats -> length (fst m) = length (snd m)) ->
  area_2d_polygon corners < 0 ->
  exists ws, from_corners g corners mats = Some ws /\ length ws = length corners /\
    forall i, (i < length corners)%nat -> exists w m, nth_error ws i = Some w /\ nth_error mats i = Some m /\
      w_corners w = [of2 (nth (length corners - 1 - i) corners (0, 0));
                     of2 (nth (if Nat.eqb (i + 1) (length corners) then length corners - 1 else length corners - 2 - i) corners (0, 0))] /\
      w_abs w = fst m /\ w_scat w = snd m.
Proof.
  intros g corners mats Hn Hm Hl HA. eexists. split; [apply from_corners_walls; auto|].
  assert (E : ccw_corners corners = rev corners).
  { unfold ccw_corners. destruct (Rleb (area_2d_polygon corners) 0) eqn:Q; auto. rewrite Rleb_false in Q. lra. }
  rewrite E. split; [now rewrite map_length, seq_length|]. intros i Hi.
  destruct (nth_error mats i) as [m|] eqn:Em; [|apply nth_error_None in Em; lia].
  eexists _, m. split; [rewrite nth_error_map, nth_error_nth' with (d := 0%nat) by (now rewrite seq_length); rewrite seq_nth by auto; reflexivity|].
  split; [reflexivity|]. cbn [Nat.add]. rewrite (nth_error_nth _ _ _ Em). cbn. split; [|auto].
  unfold next_corner. rewrite rev_length. rewrite (rev_nth corners) by lia.
  assert (Ln : ((i + 1) mod length corners < length corners)%nat) by (apply Nat.mod_upper_bound; lia).
  rewrite (rev_nth corners) by lia. do 2 f_equal; [f_equal; lia|]. f_equal. f_equal.
  destruct (Nat.eqb_spec (i + 1) (length corners)) as [Q|Q]; [rewrite Q, Nat.mod_same by lia; lia|rewrite Nat.mod_small by lia; lia].
Qed.

(** The rectangle 4 by 3, counter-clockwise and clockwise. *)
Definition rect : list (R * R) := [(0,0); (4,0); (4,3); (0,3)].
Definition mats4 : list (list R * list R) := [([1/10], [0]); ([2/10], [0]); ([3/10], [0]); ([4/10], [0])].
Example C32_ex : 0 < area_2d_polygon rect /\ length mats4 = length rect /\ proper rect /\ area_2d_polygon (rev rect) < 0.
Proof.
  split; [|split; [reflexivity|split]].
  - rewrite area_shoelace_proof. unfold shoelace, edges. simpl. lra.
  - intros i Hi. unfold rect in *. cbn [length] in Hi. unfold next_corner.
    assert (i = 0 \/ i = 1 \/ i = 2 \/ i = 3)%nat as [-> | [-> | [-> | -> ]]] by lia; cbn; intros Q; injection Q; lra.
  - rewrite area_shoelace_proof. unfold shoelace, edges. simpl. lra.
Qed.

(** The wall between the first two corners of a clockwise rectangle does not get the first
    material. *)
Theorem C32_clockwise_materials_refuted : exists corners mats ws w, (3 <= length corners)%nat /\ length mats = length corners /\
  from_corners ([], []) corners mats = Some ws /\ In w ws /\
  (w_corners w = [of2 (nth 0 corners (0, 0)); of2 (nth 1 corners (0, 0))] \/ w_corners w = [of2 (nth 1 corners (0, 0)); of2 (nth 0 corners (0, 0))]) /\
  w_abs w <> fst (nth 0 mats ([], [])).
Proof.
  destruct (C32_clockwise_room ([], []) (rev rect) mats4) as (ws & E & L & H); try (cbn; lia); auto.
  { intros m [<-|[<-|[<-|[<-|[]]]]]; reflexivity. }
  { apply C32_ex. }
  destruct (H 2%nat) as (w & m & E1 & E2 & E3 & E4 & _); [cbn; lia|].
  exists (rev rect), mats4, ws, w. split; [cbn; lia|]. split; [reflexivity|]. split; [exact E|]. split; [eapply nth_error_In; eauto|].
  split.
  - right. rewrite E3. reflexivity.
  - rewrite E4. cbn in E2. injection E2 as <-. cbn. intros Q. injection Q. lra.
Qed.

(** C33.  Extruding a room whose walls run around a polygon [l] (no degenerate edge,
    non-zero area) to height [h > 0] gives the faces of the upright prism: one upright
    rectangle per wall with that wall's coefficients, outward normal and area edge length
    times [h]; a floor looking down and a ceiling looking up, both with the polygon's area
    and the given materials; and the volume computed from these walls is area times [h].
    Here [fc] is the polygon taken counter-clockwise.  The decomposition used by the wall
    constructor meets its specification on the faces; [close] (np.allclose) accepts equal
    points. *)
Theorem C33_extrude_prism : forall eps svd close walls l h fm cm,
  0 <= eps -> (forall p, close p p = true) -> (3 <= length l)%nat -> proper l -> area_2d_polygon l <> 0 -> 0 < h ->
  length (fst fm) = length (snd fm) -> length (fst cm) = length (snd cm) ->
  length walls = length l ->
  (forall i w, nth_error walls i = Some w ->
     w_corners w = [of2 (nth i l (0, 0)); of2 (next_corner l i)] /\ length (w_abs w) = length (w_scat w)) ->
  let fc := if Rlt_dec 0 (area_2d_polygon l) then l else rev l in
  (forall cs, In cs (prism fc h) -> svd_spec svd (relative cs)) ->
  exists ws, extrude eps svd close walls h fm cm = Some ws /\ length ws = (length l + 2)%nat /\
    map w_corners ws = prism fc h /\
    map (wall_area 3) ws = map (fun i => edge_length (nth i fc (0, 0)) (next_corner fc i) * h) (seq 0 (length l)) ++ [Rabs (area_2d_polygon l); Rabs (area_2d_polygon l)] /\
    map w_normal ws = map (fun i => right_of (nth i fc (0, 0)) (next_corner fc i) ++ [0]) (seq 0 (length l)) ++ [[0; 0; -1]; [0; 0; 1]] /\
    map w_abs ws = map w_abs walls ++ [fst fm; fst cm] /\ map w_scat ws = map w_scat walls ++ [snd fm; snd cm] /\
    get_volume 3 ws = Rabs (area_2d_polygon l) * h.
Proof.
  intros eps svd close walls l h fm cm He Hc Hn Hp HA Hh Hf Hcm Hl Hw fc Hs.
  assert (Efc : fc = ccw_corners l).
  { unfold fc, ccw_corners. destruct (Rlt_dec 0 (area_2d_polygon l)), (Rleb (area_2d_polygon l) 0) eqn:Q; auto; [rewrite Rleb_true in Q|rewrite Rleb_false in Q]; lra. }
  destruct (extrude_proof eps svd close walls l h fm cm) as (sides & fl & ce & E & F & F1 & F2 & F3 & F4 & F5 & C1 & C2 & C3 & C4 & C5); auto.
  { split; auto. }
  { now rewrite <- Efc. }
  rewrite <- Efc in *. assert (Afc : area_2d_polygon fc = Rabs (area_2d_polygon l)) by (rewrite Efc; apply ccw_corners_area).
  assert (Lfc : length fc = length l) by (rewrite Efc; apply ccw_corners_length).
  exists (sides ++ [fl; ce]). split; [exact E|]. split; [rewrite app_length, <- (F2_length _ _ _ F), seq_length; reflexivity|].
  assert (G : forall {B} (f : wall -> B) (g : nat -> B), (forall i w0 w, nth_error walls i = Some w0 -> is_side fc h i w0 w -> f w = g i) -> map f sides = map g (seq 0 (length l))).
  { intros B f g Hfg. clear - F Hfg. induction F as [|i w ks ws (w0 & E0 & K) _ IH]; [reflexivity|]. cbn [map]. f_equal; eauto. }
  rewrite !map_app. cbn [map]. 
  assert (Gw : forall (f : wall -> list R), map f walls = map (fun i => match nth_error walls i with Some w => f w | None => [] end) (seq 0 (length l))).
  { intros f. rewrite <- Hl. apply nth_ext with [] []; [now rewrite !map_length, seq_length|]. intros i Hi. rewrite map_length in Hi. rewrite nth_map_seq by auto.
    destruct (nth_error walls i) as [w|] eqn:Ei; [|apply nth_error_None in Ei; lia]. exact (nth_error_nth _ _ _ (map_nth_error f _ _ Ei)). }
  split.
  { unfold prism. rewrite Lfc. f_equal; [|now rewrite F1, C1]. apply G. intros i w0 w _ K. apply K. }
  split.
  { f_equal; [|now rewrite F3, C3, Afc]. apply G. intros i w0 w _ K. apply K. }
  split.
  { f_equal; [|now rewrite F2, C2]. apply G. intros i w0 w _ K. apply K. }
  split.
  { f_equal; [|now rewrite F4, C4]. rewrite Gw. apply G. intros i w0 w Ew K. rewrite Ew. apply K. }
  split.
  { f_equal; [|now rewrite F5, C5]. rewrite Gw. apply G. intros i w0 w Ew K. rewrite Ew. apply K. }
  rewrite <- Afc. eapply volume_proof; eauto; try lia; [rewrite Efc; now apply proper_ccw|rewrite Lfc; exact F].
Qed.

(** C33 and C32 together: the extrusion of a counter-clockwise corner list is the prism
    over it, face [i] carrying material [i]. *)
Theorem C33_from_corners_extruded : forall eps svd close g corners mats h fm cm,
  0 <= eps -> (forall p, close p p = true) -> (3 <= length corners)%nat -> proper corners -> 0 < area_2d_polygon corners -> 0 < h ->
  length mats = length corners -> (forall m, In m (fm :: cm :: mats) -> length (fst m) = length (snd m)) ->
  (forall cs, In cs (prism corners h) -> svd_spec svd (relative cs)) ->
  exists ws2 ws, from_corners g corners mats = Some ws2 /\ extrude eps svd close ws2 h fm cm = Some ws /\
    map w_corners ws = prism corners h /\ map w_abs ws = map fst (mats ++ [fm; cm]) /\ map w_scat ws = map snd (mats ++ [fm; cm]) /\
    get_volume 3 ws = area_2d_polygon corners * h.
Proof.
  intros eps svd close g corners mats h fm cm He Hc Hn Hp HA Hh Hm Hl Hs.
  assert (Hlm : forall m, In m mats -> length (fst m) = length (snd m)) by (intros m Im; apply Hl; simpl; auto).
  destruct (C32_counterclockwise_room g corners mats Hn Hm Hlm HA) as (ws2 & E2 & L2 & W2).
  destruct (C33_extrude_prism eps svd close ws2 corners h fm cm) as (ws & E & _ & Wc & _ & _ & Wa & Ws & V); auto; try lra.
  { apply Hl. simpl; auto. } { apply Hl. simpl; auto. }
  { intros i w Ew. assert (Li : (i < length corners)%nat) by (rewrite <- L2; apply nth_error_Some; congruence).
    destruct (W2 i Li) as (w' & m & E1 & Em & Ec & Ea & Es & _). rewrite Ew in E1. injection E1 as <-. split; auto. rewrite Ea, Es. eapply Hlm, nth_error_In; eauto. }
  { destruct (Rlt_dec 0 (area_2d_polygon corners)); [auto|lra]. }
  destruct (Rlt_dec 0 (area_2d_polygon corners)); [|lra].
  assert (G : forall (f : wall -> list R) (k : list R * list R -> list R), (forall i w m, nth_error ws2 i = Some w -> nth_error mats i = Some m -> f w = k m) -> map f ws2 = map k mats).
  { intros f k H. apply nth_ext with [] []; [rewrite !map_length; lia|]. intros i Hi. rewrite map_length in Hi.
    destruct (W2 i ltac:(lia)) as (w & m & E1 & Em & _). rewrite (nth_error_nth _ _ _ (map_nth_error f _ _ E1)), (nth_error_nth _ _ _ (map_nth_error k _ _ Em)). eauto. }
  assert (Q : forall i w m, nth_error ws2 i = Some w -> nth_error mats i = Some m -> w_abs w = fst m /\ w_scat w = snd m).
  { intros i w m E1 Em. destruct (W2 i) as (w' & m' & E1' & Em' & _ & Ea & Es & _); [rewrite <- L2; apply nth_error_Some; congruence|].
    rewrite E1 in E1'. rewrite Em in Em'. injection E1' as <-. injection Em' as <-. auto. }
  exists ws2, ws. split; [exact E2|]. split; [exact E|]. split; [exact Wc|]. rewrite !map_app. cbn [map].
  split; [rewrite Wa; f_equal; apply G; intros i w m E1 Em; apply (Q i w m E1 Em)|].
  split; [rewrite Ws; f_equal; apply G; intros i w m E1 Em; apply (Q i w m E1 Em)|].
  rewrite V, Rabs_right; lra.
Qed.

(** The hypotheses hold for the rectangle with height 2. *)
Example C33_ex : forall cs, In cs (prism rect 2) -> svd_spec axis_svd (relative cs).
Proof.
  intros cs H.
  assert (T : forall k m, (forall v, In v m -> nth k v 0 = 0) -> all_zero k m = true).
  { intros k m Hm. apply forallb_forall. intros v Hv. rewrite Hm by auto. destruct (Req_EM_T 0 0); auto. }
  assert (FF : forall k m i, nth k (nth i m []) 0 <> 0 -> all_zero k m = false).
  { intros k m i Hn. apply not_true_is_false. intros E. unfold all_zero in E. rewrite forallb_forall in E.
    destruct (nth_in_or_default i m []) as [Hi|Hi]; [|rewrite Hi in Hn; destruct k; simpl in Hn; lra].
    specialize (E _ Hi). destruct (Req_EM_T (nth k (nth i m []) 0) 0); auto; discriminate. }
  unfold svd_spec, axis_svd.
  Local Ltac zer' := unfold relative, vminus; simpl; intros v Hv; repeat destruct Hv as [<-|Hv]; try destruct Hv; simpl; ring.
  Local Ltac fin' := split; [unfold orthonormal3, dot; simpl; repeat split; lra|]; intros _; split; [reflexivity|];
     unfold relative, vminus, dot, cross; simpl; intros v Hv; repeat destruct Hv as [<-|Hv]; try destruct Hv; simpl; lra.
  Local Ltac z0 T := rewrite (T 0%nat) by zer'; fin'.
  Local Ltac z1 T FF := rewrite (FF 0%nat _ 1%nat) by (unfold relative, vminus; simpl; lra); rewrite (T 1%nat) by zer'; fin'.
  Local Ltac z2 FF i j := rewrite (FF 0%nat _ i) by (unfold relative, vminus; simpl; lra); rewrite (FF 1%nat _ j) by (unfold relative, vminus; simpl; lra); fin'.
  cbv [prism rect next_corner face at_height] in H. cbn in H. repeat destruct H as [<-|H]; try destruct H.
  - z1 T FF. 
  - z0 T.
  - z1 T FF.
  - z0 T.
  - z2 FF 1%nat 2%nat.
  - z2 FF 1%nat 2%nat.
Qed.

(** In two dimensions get_volume still divides by three: a 4 by 3 room of area 12 has
    "volume" 8. *)
Theorem C33_area_in_2d_refuted : exists corners mats ws, from_corners ([], []) corners mats = Some ws /\
  area_2d_polygon corners = 12 /\ get_volume 2 ws = 8.
Proof.
  destruct C32_ex as (A & L & P & _).
  destruct (C32_counterclockwise_room ([], []) rect mats4) as (ws & E & Lw & _); try (cbn; lia); auto.
  { intros m [<-|[<-|[<-|[<-|[]]]]]; reflexivity. }
  exists rect, mats4, ws. split; [exact E|]. split; [rewrite area_shoelace_proof; unfold shoelace, edges; simpl; lra|].
  rewrite from_corners_walls in E; try (cbn; lia); [|intros m [<-|[<-|[<-|[<-|[]]]]]; reflexivity].
  assert (Ew : forall (a b : list wall), Some a = Some b -> b = a) by (clear; congruence). apply Ew in E. subst ws. clear Ew Lw.
  assert (Q : ccw_corners rect = rect). { unfold ccw_corners. destruct (Rleb (area_2d_polygon rect) 0) eqn:Q; auto. rewrite Rleb_true in Q. lra. }
  rewrite Q. unfold get_volume, wall_area.
  assert (V : forall a b : R * R, a <> b -> forall m, dot (vnormalized (w_normal (wall2 ([], []) a b m))) (of2 a) * vnorm (vminus (of2 b) (of2 a)) = (snd b - snd a) * fst a + (fst a - fst b) * snd a).
  { intros a b N m. unfold wall2. cbn [w_normal]. rewrite vnormalized_right by auto.
    pose proof (edge_length_pos a b N) as Lp. pose proof (edge_length_sq a b) as Ls.
    assert (E1 : vsq (right_of a b) = 1).
    { unfold vsq, dot, right_of. simpl. set (L0 := edge_length a b) in *. 
      replace ((snd b - snd a) / L0 * ((snd b - snd a) / L0) + ((fst a - fst b) / L0 * ((fst a - fst b) / L0) + 0)) with ((L0 * L0) / (L0 * L0)) by (rewrite Ls at 1; field; lra). field. lra. }
    rewrite vnormalized_id by exact E1.
    assert (E2 : vnorm (vminus (of2 b) (of2 a)) = edge_length a b) by (unfold vnorm, vsq, dot, vminus, of2, edge_length; simpl; f_equal; ring).
    rewrite E2. unfold dot, right_of, of2. simpl. field. lra. }
  assert (P' : forall i, (i < 4)%nat -> nth i rect (0,0) <> next_corner rect i) by (intros i Hi; apply P; exact Hi).
  assert (V4 : forall i, (i < 4)%nat -> (fun w => dot (vnormalized (w_normal w)) (nth 0 (w_corners w) []) * (if (2 =? 2)%nat then vnorm (vminus (nth 1 (w_corners w) []) (nth 0 (w_corners w) [])) else area_2d_polygon (w_flat w)))
     (wall2 ([], []) (nth i rect (0,0)) (next_corner rect i) (nth i mats4 ([],[]))) = (snd (next_corner rect i) - snd (nth i rect (0,0))) * fst (nth i rect (0,0)) + (fst (nth i rect (0,0)) - fst (next_corner rect i)) * snd (nth i rect (0,0))).
  { intros i Hi. cbv beta. cbn [Nat.eqb wall2 w_corners nth]. apply (V _ _ (P' i Hi) (nth i mats4 ([],[]))). }
  rewrite map_map. rewrite (map_ext_in _ (fun i => (snd (next_corner rect i) - snd (nth i rect (0,0))) * fst (nth i rect (0,0)) + (fst (nth i rect (0,0)) - fst (next_corner rect i)) * snd (nth i rect (0,0)))).
  - unfold next_corner, rect. cbn. lra.
  - intros i Hi. apply in_seq in Hi. apply V4. cbn in Hi. lia.
Qed.

(** C33, shoebox: the volume is the product of the dimensions; for three dimensions it is
    what the general formula gives for the walls of the box. *)
Theorem C33_shoebox_volume : forall eps svd rx ry rz abs scat,
  (forall cs, In cs (shoebox_corners3 rx ry rz) -> svd_spec svd (relative cs)) ->
  0 <= eps -> 0 < rx -> 0 < ry -> 0 < rz -> (forall k, length (abs k) = length (scat k)) ->
  exists ws, make_shoebox_walls3 eps svd rx ry rz abs scat = Some ws /\
    map (fun w => nth 0 (w_corners w) []) ws = map w_origin ws /\
    shoebox_volume [rx; ry; rz] = rx * ry * rz /\ get_volume 3 ws = shoebox_volume [rx; ry; rz].
Proof.
  intros eps svd rx ry rz abs scat Hs He Hx Hy Hz Hl.
  destruct (C79_shoebox_walls_3d eps svd rx ry rz abs scat Hs He Hx Hy Hz Hl) as (ws & E & En & Eo & Ea & _ & _).
  exists ws. split; [exact E|].
  assert (M : forall cs a s w, make_wall3 eps svd cs a s = Some w -> nth 0 (w_corners w) [] = w_origin w).
  { clear. intros cs a s w H. unfold make_wall3 in H. destruct (negb _); [discriminate|]. destruct (svd _) as [[u0 u1] sv]. destruct (Rltb eps sv); [discriminate|]. injection H as <-. reflexivity. }
  assert (Mo : map (fun w => nth 0 (w_corners w) []) ws = map w_origin ws).
  { unfold make_shoebox_walls3 in E. apply mapM_inv in E. clear - E M. induction E; [reflexivity|]. cbn [map]. f_equal; eauto. }
  split; [exact Mo|]. split; [unfold shoebox_volume, Rprod; simpl; ring|].
  unfold get_volume, shoebox_volume, Rprod.
  rewrite (map_ext_in _ (fun w => dot (vnormalized (w_normal w)) (w_origin w) * wall_area 3 w)).
  2:{ clear - Mo. intros w Hw. f_equal. f_equal. induction ws as [|x ws IH]; [contradiction|]. injection Mo as M1 M2. destruct Hw as [<-|Hw]; auto. }
  destruct ws as [|w0 [|w1 [|w2 [|w3 [|w4 [|w5 [|]]]]]]]; try discriminate.
  assert (N : forall e, In e [[-1;0;0]; [1;0;0]; [0;-1;0]; [0;1;0]; [0;0;-1]; [0;0;1]] -> vnormalized e = e).
  { intros e Hin. apply vnormalized_id. repeat destruct Hin as [<-|Hin]; try destruct Hin; unfold vsq, dot; simpl; lra. }
  injection En as N0 N1 N2 N3 N4 N5. injection Eo as O0 O1 O2 O3 O4 O5. injection Ea as A0 A1 A2 A3 A4 A5. cbn [map].
  rewrite N0, N1, N2, N3, N4, N5, O0, O1, O2, O3, O4, O5, A0, A1, A2, A3, A4, A5, !N by (simpl; tauto).
  unfold dot. simpl. field.
Qed.

(** C34.  For a point with as many coordinates as the room, is_inside is membership in the
    closed box. *)
Theorem C34_shoebox_is_inside : forall dims pos, length pos = length dims ->
  exists b, shoebox_is_inside dims pos = Some b /\
    (b = true <-> forall k, (k < length dims)%nat -> 0 <= nth k pos 0 <= nth k dims 0).
Proof.
  intros dims pos L. unfold shoebox_is_inside. rewrite L, Nat.eqb_refl.
  destruct (forallb (fun x => Rleb 0 x) pos) eqn:E; cbn [negb].
  - eexists. split; [reflexivity|]. rewrite forallb_forall in E. rewrite forallb_forall. split.
    + intros H k Hk. split; [apply Rleb_true, E, nth_In; lia|].
      specialize (H (nth k pos 0, nth k dims 0)). cbn in H. apply Rleb_true, H. rewrite <- combine_nth by auto. apply nth_In. rewrite combine_length. lia.
    + intros H [x d] Hin. apply (In_nth _ _ (0, 0)) in Hin as (k & Hk & Ek). rewrite combine_length in Hk. rewrite combine_nth in Ek by auto. injection Ek as <- <-.
      cbn. apply Rleb_true, H. lia.
  - exists false. split; [reflexivity|]. split; [discriminate|]. intros H. exfalso.
    assert (T : forallb (fun x => Rleb 0 x) pos = true); [|congruence].
    apply forallb_forall. intros x Hx. apply (In_nth _ _ 0) in Hx as (k & Hk & <-). apply Rleb_true, H. lia.
Qed.
(** A single number is compared with every dimension; a negative coordinate is outside,
    whatever the length. *)
Theorem C34_other_lengths : forall dims pos,
  (forall x, pos = [x] -> length dims <> 1%nat -> 0 <= x -> exists b, shoebox_is_inside dims pos = Some b /\ (b = true <-> forall d, In d dims -> x <= d)) /\
  ((exists x, In x pos /\ x < 0) -> shoebox_is_inside dims pos = Some false) /\
  (length pos <> length dims -> length pos <> 1%nat -> (forall x, In x pos -> 0 <= x) -> shoebox_is_inside dims pos = None).
Proof.
  intros dims pos. split; [|split].
  - intros x -> L Hx. unfold shoebox_is_inside. cbn [forallb]. assert (E : Rleb 0 x = true) by now apply Rleb_true. rewrite E. cbn [negb andb].
    destruct (Nat.eqb_spec (length [x]) (length dims)) as [Q|Q]; [cbn in Q; lia|]. eexists. split; [reflexivity|].
    rewrite forallb_forall. split; intros H d Hd; [apply Rleb_true|apply Rleb_true]; auto.
  - intros (x & Hx & Lx). unfold shoebox_is_inside. destruct (forallb (fun x => Rleb 0 x) pos) eqn:E; auto.
    rewrite forallb_forall in E. specialize (E x Hx). rewrite Rleb_true in E. lra.
  - intros L L1 H. unfold shoebox_is_inside. replace (forallb (fun x => Rleb 0 x) pos) with true.
    + cbn [negb]. destruct (Nat.eqb_spec (length pos) (length dims)); [contradiction|]. destruct pos as [|? [|]]; auto. cbn in L1. lia.
    + symmetry. apply forallb_forall. intros x Hx. now apply Rleb_true, H.
Qed.
Example C34_ex : shoebox_is_inside [4; 3; 2] [1; 3; 0] = Some true /\ shoebox_is_inside [4; 3; 2] [1; 3; 5/2] = Some false.
Proof.
  split; [destruct (C34_shoebox_is_inside [4; 3; 2] [1; 3; 0] eq_refl) as (b & -> & H)|destruct (C34_shoebox_is_inside [4; 3; 2] [1; 3; 5/2] eq_refl) as (b & -> & H)]; f_equal.
  - apply H. intros k Hk. cbn in Hk. assert (k = 0 \/ k = 1 \/ k = 2)%nat as [-> | [-> | -> ]] by lia; cbn; lra.
  - destruct b; auto. destruct H as (H & _). specialize (H eq_refl 2%nat). cbn in H. specialize (H ltac:(lia)). lra.
Qed.

Print Assumptions C32_counterclockwise_room.
Print Assumptions C32_stored_counterclockwise.
Print Assumptions C32_bad_input_rejected.
Print Assumptions C32_clockwise_room.
Print Assumptions C32_clockwise_materials_refuted.
Print Assumptions C33_extrude_prism.
Print Assumptions C33_from_corners_extruded.
Print Assumptions C33_area_in_2d_refuted.
Print Assumptions C33_shoebox_volume.
Print Assumptions C34_shoebox_is_inside.
Print Assumptions C34_other_lengths.
