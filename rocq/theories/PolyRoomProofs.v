(** Proofs about polygon rooms. *)
From Coq Require Import List ZArith Lia Reals Lra Bool Permutation.
From Verif Require Import Base Vec GeometryModel GeometrySpec GeometryProofs WallModel WallSpec WallProofs BaseProofs PolyRoomModel PolyRoomSpec.
Import ListNotations.
Local Open Scope R_scope.

(** ** Edges by index *)
Lemma nth_chain : forall {A} (d : A) m a i, (i < length m)%nat -> nth i (chain a m) (d, d) = (nth i (a :: m) d, nth (S i) (a :: m) d).
Proof.
  intros A d. induction m as [|b m IH]; intros a i H; simpl in H; [lia|]. destruct i; [reflexivity|].
  cbn [chain nth]. rewrite IH by lia. reflexivity.
Qed.
Lemma chain_length : forall {A} (m : list A) a, length (chain a m) = length m.
Proof. induction m; intros; simpl; auto. Qed.
Lemma next_edges_seq : forall l, next_edges l = map (fun i => (nth i l (0, 0), next_corner l i)) (seq 0 (length l)).
Proof.
  intros [|a t]; [reflexivity|]. unfold next_edges. apply nth_ext with ((0,0),(0,0)) ((0,0),(0,0)).
  { rewrite chain_length, map_length, seq_length, app_length. simpl. lia. }
  intros i Hi. rewrite chain_length, app_length in Hi. simpl in Hi.
  rewrite nth_chain by (rewrite app_length; simpl; lia). rewrite nth_map_seq by (simpl; lia). unfold next_corner. cbn [length].
  f_equal.
  - change (a :: t ++ [a]) with ((a :: t) ++ [a]). rewrite app_nth1 by (simpl; lia). reflexivity.
  - cbn [nth]. destruct (Nat.eq_dec i (length t)) as [->|N].
    + rewrite app_nth2 by lia. rewrite Nat.sub_diag. replace ((length t + 1) mod S (length t))%nat with 0%nat; [reflexivity|].
      rewrite Nat.add_1_r. symmetry. apply Nat.mod_same. lia.
    + rewrite app_nth1 by lia. rewrite Nat.mod_small by lia. rewrite Nat.add_1_r. reflexivity.
Qed.
Lemma area_seq : forall l, area_2d_polygon l = / 2 * Rsum (map (fun i => cr (nth i l (0, 0), next_corner l i)) (seq 0 (length l))).
Proof.
  intros l. rewrite area_shoelace_proof, shoelace_Asum, (Asum_perm _ _ (edges_next l)), next_edges_seq.
  unfold Asum. now rewrite map_map.
Qed.

(** ** Horizontal polygons *)
Lemma lift_length : forall z p, length (lift z p) = 3%nat. Proof. reflexivity. Qed.
Lemma vsum_vertical : forall l, (forall v, In v l -> exists k, v = [0; 0; k]) -> exists k, vsum 3 l = [0; 0; k] /\ k = Rsum (map (fun v => nth 2 v 0) l).
Proof.
  induction l as [|v l IH]; intros H; simpl; [exists 0; auto|]. destruct (H v (or_introl eq_refl)) as (k & ->).
  destruct IH as (k' & E & E2); [intros; apply H; now right|]. rewrite E. exists (k + k'). unfold vadd. simpl. split; [now rewrite Rplus_0_l|]. now rewrite E2.
Qed.
Lemma area_vector_lift : forall z l, l <> [] -> area_vector (nth 0 (map (lift z) l) []) (map (lift z) l) = [0; 0; area_2d_polygon l].
Proof.
  intros z l Hl. destruct l as [|o t] eqn:E; [congruence|]. rewrite <- E. assert (Eo : nth 0 (map (lift z) l) [] = lift z o) by (rewrite E; reflexivity).
  rewrite Eo. unfold area_vector. rewrite edges_map, map_map. cbn [fst snd].
  set (f := fun e : (R * R) * (R * R) => cross (vminus (lift z (fst e)) (lift z o)) (vminus (lift z (snd e)) (lift z o))).
  assert (F : forall e, f e = [0; 0; (fst (fst e) - fst o) * (snd (snd e) - snd o) - (snd (fst e) - snd o) * (fst (snd e) - fst o)]).
  { intros [a b]. unfold f, cross, vminus, lift. simpl. repeat (apply f_equal2; [ring|]). reflexivity. }
  destruct (vsum_vertical (map f (edges l))) as (k & E1 & E2).
  { intros v Hv. apply in_map_iff in Hv as (e & <- & _). rewrite F. eauto. }
  rewrite E1. unfold vscal. simpl. rewrite !Rmult_0_r. do 3 f_equal.
  destruct (area_laws_proof l) as (_ & _ & T & _). rewrite <- (T (- fst o) (- snd o)). rewrite area_shoelace_proof, shoelace_Asum.
  f_equal. rewrite E2, map_map. unfold Asum. rewrite edges_map, map_map. apply Rsum_map_ext. intros [a b] _. rewrite F. unfold cr, X, Y. simpl. ring.
Qed.

Lemma make_wall3_horizontal : forall eps svd z l a s, svd_spec svd (relative (map (lift z) l)) -> 0 <= eps -> length a = length s -> l <> [] ->
  area_2d_polygon l <> 0 ->
  exists w, make_wall3 eps svd (map (lift z) l) a s = Some w /\ w_corners w = map (lift z) l /\ w_abs w = a /\ w_scat w = s /\
    w_normal w = [0; 0; if Rltb 0 (area_2d_polygon l) then 1 else -1] /\ wall_area 3 w = Rabs (area_2d_polygon l).
Proof.
  intros eps svd z l a s Hs He Ha Hl HA.
  destruct (make_wall3_planar eps svd (map (lift z) l) a s Hs He Ha) as (w & E & Eo & Ec & Ea & Es & En & Ear & _).
  - now destruct l.
  - intros c Hc. apply in_map_iff in Hc as (p & <- & _). reflexivity.
  - exists [0; 0; 1]. split; [reflexivity|]. split; [unfold vsq, dot; simpl; lra|]. intros c Hc. apply in_map_iff in Hc as (p & <- & Hp).
    destruct l as [|o t]; [easy|]. unfold dot, vminus, lift. simpl. ring.
  - rewrite area_vector_lift by auto. rewrite vsq3. nra.
  - exists w. rewrite area_vector_lift in En, Ear by auto. repeat (split; [assumption|]). 
    destruct (Rltb 0 (area_2d_polygon l)) eqn:El; [rewrite Rltb_true in El|rewrite Rltb_false in El].
    + destruct (area_vector_axis [0; 0; area_2d_polygon l] (area_2d_polygon l) [0; 0; 1]) as (_ & N1 & N2); auto.
      * unfold vscal. simpl. now rewrite !Rmult_0_r, Rmult_1_r.
      * unfold dot. simpl. ring.
      * rewrite En, Ear, N1, N2. split; auto. rewrite Rabs_right; lra.
    + destruct (area_vector_axis [0; 0; area_2d_polygon l] (- area_2d_polygon l) [0; 0; -1]) as (_ & N1 & N2); auto.
      * unfold vscal. simpl. rewrite !Rmult_0_r. do 3 f_equal. ring.
      * unfold dot. simpl. ring.
      * lra.
      * rewrite En, Ear, N1, N2. split; auto. rewrite Rabs_left; lra.
Qed.

(** ** Side walls *)
Lemma edge_length_pos : forall a b, a <> b -> 0 < edge_length a b.
Proof.
  intros [x y] [x' y'] N. unfold edge_length. simpl. apply sqrt_lt_R0.
  destruct (Req_dec x' x) as [->|Nx].
  - assert (H : y' - y <> 0) by (intros Q; apply N; f_equal; lra). pose proof (Rsqr_pos_lt _ H). unfold Rsqr in *. nra.
  - assert (H : x' - x <> 0) by lra. pose proof (Rsqr_pos_lt _ H). pose proof (Rle_0_sqr (y' - y)). unfold Rsqr in *. lra.
Qed.
Lemma edge_length_sq : forall a b, edge_length a b * edge_length a b = (fst b - fst a) * (fst b - fst a) + (snd b - snd a) * (snd b - snd a).
Proof. intros. unfold edge_length. apply sqrt_sqrt. pose proof (Rle_0_sqr (snd b - snd a)). pose proof (Rle_0_sqr (fst b - fst a)). unfold Rsqr in *. lra. Qed.

Definition quad (a b : R * R) (h : R) : list vec := [lift 0 a; lift 0 b; lift h b; lift h a].
Lemma make_wall3_side : forall eps svd a b h ca cs, svd_spec svd (relative (quad a b h)) -> 0 <= eps -> length ca = length cs -> a <> b -> 0 < h ->
  exists w, make_wall3 eps svd (quad a b h) ca cs = Some w /\ w_corners w = quad a b h /\ w_abs w = ca /\ w_scat w = cs /\
    w_normal w = right_of a b ++ [0] /\ wall_area 3 w = edge_length a b * h.
Proof.
  intros eps svd a b h ca cs Hs He Hl N Hh. pose proof (edge_length_pos a b N) as Lp. pose proof (edge_length_sq a b) as Ls.
  assert (AV : area_vector (nth 0 (quad a b h) []) (quad a b h) = vscal (edge_length a b * h) (right_of a b ++ [0])).
  { destruct a as [x y], b as [x' y']. unfold quad, lift. cbn [nth fst snd]. area_vec. unfold right_of. cbn [fst snd app map].
    set (L := edge_length (x, y) (x', y')) in *. f_equal; [field; lra|]. f_equal; [field; lra|]. f_equal; field. }
  assert (UN : dot (right_of a b ++ [0]) (right_of a b ++ [0]) = 1).
  { unfold right_of, dot. cbn [app map2]. unfold Rsum. simpl. set (L := edge_length a b) in *.
    replace ((snd b - snd a) / L * ((snd b - snd a) / L) + ((fst a - fst b) / L * ((fst a - fst b) / L) + (0 * 0 + 0)))
      with (((fst b - fst a) * (fst b - fst a) + (snd b - snd a) * (snd b - snd a)) / (L * L)) by (field; lra).
    rewrite <- Ls. field. lra. }
  destruct (area_vector_axis _ _ _ AV UN) as (V1 & V2 & V3); [apply Rmult_lt_0_compat; lra|].
  destruct (make_wall3_planar eps svd (quad a b h) ca cs Hs He Hl) as (w & E & Eo & Ec & Ea & Es & En & Ear & _); auto.
  - discriminate.
  - intros c [<-|[<-|[<-|[<-|[]]]]]; reflexivity.
  - exists (right_of a b ++ [0]). split; [reflexivity|]. split; [unfold vsq; rewrite UN; lra|].
    assert (K : (fst b - fst a) * ((snd b - snd a) / edge_length a b) + (snd b - snd a) * ((fst a - fst b) / edge_length a b) = 0) by (field; lra).
    intros c [<-|[<-|[<-|[<-|[]]]]]; unfold dot, vminus, lift, right_of; simpl; try ring;
      ring_simplify; ring_simplify in K; lra.
  - exists w. rewrite V2 in En. rewrite V3 in Ear. auto 10.
Qed.

(** ** from_corners *)
Lemma ccw_corners_length : forall l, length (ccw_corners l) = length l.
Proof. intros. unfold ccw_corners. destruct (Rleb _ _); auto. apply rev_length. Qed.
Lemma ccw_corners_area : forall l, area_2d_polygon (ccw_corners l) = Rabs (area_2d_polygon l).
Proof.
  intros l. unfold ccw_corners. destruct (Rleb (area_2d_polygon l) 0) eqn:E; [rewrite Rleb_true in E|rewrite Rleb_false in E].
  - destruct (area_laws_proof l) as (R & _). rewrite R, Rabs_left1; lra.
  - rewrite Rabs_right; lra.
Qed.
Lemma to2_of2 : forall p, to2 (of2 p) = p. Proof. now intros [x y]. Qed.

Definition wall2 (g : vec * vec) (a b : R * R) (m : material) : wall :=
  {| w_corners := [of2 a; of2 b]; w_origin := of2 a; w_normal := vnormalized [snd b - snd a; fst a - fst b];
     w_basis := g; w_flat := []; w_abs := fst m; w_scat := snd m |}.
Lemma from_corners_walls : forall g corners mats, (3 <= length corners)%nat -> length mats = length corners ->
  (forall m, In m mats -> length (fst m) = length (snd m)) ->
  from_corners g corners mats = Some (map (fun i => wall2 g (nth i (ccw_corners corners) (0, 0)) (next_corner (ccw_corners corners) i) (nth i mats ([], []))) (seq 0 (length corners))).
Proof.
  intros g corners mats Hn Hm Hl. unfold from_corners. destruct (Nat.ltb_spec (length corners) 3); [lia|]. rewrite Hm, Nat.eqb_refl. cbn [negb].
  rewrite (mapM_ext_in _ (fun i => Some (wall2 g (nth i (ccw_corners corners) (0, 0)) (next_corner (ccw_corners corners) i) (nth i mats ([], []))))).
  - apply mapM_total.
  - intros i Hi. apply in_seq in Hi. unfold make_wall2. rewrite Hl by (apply nth_In; lia). rewrite Nat.eqb_refl. cbn [negb].
    unfold wall2, next_corner. rewrite ccw_corners_length. reflexivity.
Qed.
Lemma vnormalized_right : forall a b, a <> b -> vnormalized [snd b - snd a; fst a - fst b] = right_of a b.
Proof.
  intros a b N. pose proof (edge_length_pos a b N) as P. unfold vnormalized, right_of, vscal.
  assert (E : vnorm [snd b - snd a; fst a - fst b] = edge_length a b).
  { unfold vnorm, edge_length, vsq, dot. simpl. f_equal. ring. }
  rewrite E. unfold vsq, dot. simpl.
  assert (Q : edge_length a b * edge_length a b > 0) by nra. pose proof (edge_length_sq a b).
  destruct (Rlt_dec _ _) as [_|K]; [|exfalso; apply K; nra]. simpl.
  unfold Rdiv. f_equal; [|f_equal]; ring.
Qed.

(** ** extrude *)
Definition room_of (l : list (R * R)) (walls : list wall) : Prop :=
  length walls = length l /\ forall i w, nth_error walls i = Some w ->
    w_corners w = [of2 (nth i l (0, 0)); of2 (next_corner l i)] /\ length (w_abs w) = length (w_scat w).

Lemma floor_corners_room : forall close l walls, (forall p, close p p = true) -> room_of l walls ->
  floor_corners close walls = Some (ccw_corners l).
Proof.
  intros close l walls Hc (Hn & Hw). unfold floor_corners.
  assert (F : map (fun w => to2 (nth 0 (w_corners w) [])) walls = l).
  { apply nth_ext with (0, 0) (0, 0); [now rewrite map_length|]. intros i Hi. rewrite map_length in Hi.
    destruct (nth_error walls i) as [w|] eqn:E; [|apply nth_error_None in E; lia]. destruct (Hw i w E) as (Ec & _).
    pose proof (map_nth_error (fun w => to2 (nth 0 (w_corners w) [])) _ _ E) as E2. cbv beta in E2. rewrite (nth_error_nth _ _ _ E2), Ec. apply to2_of2. }
  rewrite F. replace (forallb _ _) with true.
  - reflexivity.
  - symmetry. apply forallb_forall. intros i Hi. apply in_seq in Hi.
    destruct (nth_error walls i) as [w|] eqn:E; auto. destruct (nth_error walls ((i + 1) mod length walls)) as [w'|] eqn:E'; auto.
    destruct (Hw _ _ E) as (Ec & _). destruct (Hw _ _ E') as (Ec' & _). rewrite Ec, Ec'. cbn [nth]. rewrite !to2_of2.
    unfold next_corner. rewrite <- Hn. apply Hc.
Qed.

Lemma room_of_from_corners : forall g corners mats ws, (3 <= length corners)%nat -> length mats = length corners ->
  (forall m, In m mats -> length (fst m) = length (snd m)) -> from_corners g corners mats = Some ws -> room_of (ccw_corners corners) ws.
Proof.
  intros g corners mats ws Hn Hm Hl E. rewrite from_corners_walls in E by auto. injection E as <-. split.
  - now rewrite map_length, seq_length, ccw_corners_length.
  - intros i w Hi. assert (Li : (i < length corners)%nat).
    { assert (Q : nth_error (map (fun i => wall2 g (nth i (ccw_corners corners) (0, 0)) (next_corner (ccw_corners corners) i) (nth i mats ([], []))) (seq 0 (length corners))) i <> None) by congruence.
      apply nth_error_Some in Q. now rewrite map_length, seq_length in Q. }
    rewrite nth_error_map, nth_error_nth' with (d := 0%nat) in Hi by now rewrite seq_length.
    cbn [option_map] in Hi. rewrite seq_nth in Hi by auto. injection Hi as <-. cbn. split; auto. apply Hl, nth_In. lia.
Qed.

Lemma proper_rev : forall l, proper l -> proper (rev l).
Proof.
  intros l H i Hi. rewrite rev_length in Hi. unfold next_corner. rewrite rev_length.
  assert (Ln : ((i + 1) mod length l < length l)%nat) by (apply Nat.mod_upper_bound; lia).
  rewrite !rev_nth by lia. specialize (H (length l - S ((i + 1) mod length l))%nat ltac:(lia)). unfold next_corner in H.
  destruct (Nat.eq_dec (i + 1) (length l)) as [E|N].
  - rewrite E, Nat.mod_same in * by lia. replace (length l - 1 + 1)%nat with (length l) in H by lia. rewrite Nat.mod_same in H by lia.
    replace (length l - S i)%nat with 0%nat by lia. congruence.
  - rewrite (Nat.mod_small (i + 1)) in * by lia. replace (length l - S (i + 1) + 1)%nat with (length l - S i)%nat in H by lia.
    rewrite Nat.mod_small in H by lia. congruence.
Qed.
Lemma proper_ccw : forall l, proper l -> proper (ccw_corners l).
Proof. intros l H. unfold ccw_corners. destruct (Rleb _ _); auto using proper_rev. Qed.

Record is_side (l : list (R * R)) (h : R) (i : nat) (w0 w : wall) : Prop := {
  is_c : w_corners w = face (nth i l (0, 0)) (next_corner l i) h;
  is_n : w_normal w = right_of (nth i l (0, 0)) (next_corner l i) ++ [0];
  is_a : wall_area 3 w = edge_length (nth i l (0, 0)) (next_corner l i) * h;
  is_abs : w_abs w = w_abs w0;
  is_scat : w_scat w = w_scat w0 }.

Lemma mapM_pred : forall {A B} (P : A -> B -> Prop) (f : A -> option B) l,
  (forall x, In x l -> exists y, f x = Some y /\ P x y) -> exists ys, mapM f l = Some ys /\ Forall2 P l ys.
Proof.
  induction l as [|x l IH]; intros H; simpl; [eauto|].
  destruct (H x (or_introl eq_refl)) as (y & E & Py). destruct IH as (ys & E2 & F); [intros; apply H; now right|].
  rewrite E. cbn [bind]. rewrite E2. cbn. eauto.
Qed.

Lemma extrude_proof : forall eps svd close walls l h fm cm,
  0 <= eps -> (forall p, close p p = true) -> room_of l walls -> (3 <= length l)%nat -> proper l -> area_2d_polygon l <> 0 -> 0 < h ->
  length (fst fm) = length (snd fm) -> length (fst cm) = length (snd cm) ->
  let fc := ccw_corners l in
  (forall cs, In cs (prism fc h) -> svd_spec svd (relative cs)) ->
  exists sides fl ce, extrude eps svd close walls h fm cm = Some (sides ++ [fl; ce]) /\
    Forall2 (fun i w => exists w0, nth_error walls i = Some w0 /\ is_side fc h i w0 w) (seq 0 (length l)) sides /\
    w_corners fl = rev (map (at_height 0) fc) /\ w_normal fl = [0; 0; -1] /\ wall_area 3 fl = area_2d_polygon fc /\ w_abs fl = fst fm /\ w_scat fl = snd fm /\
    w_corners ce = map (at_height h) fc /\ w_normal ce = [0; 0; 1] /\ wall_area 3 ce = area_2d_polygon fc /\ w_abs ce = fst cm /\ w_scat ce = snd cm.
Proof.
  intros eps svd close walls l h fm cm He Hcl Hr Hn Hp HA Hh Hfm Hcm fc Hs.
  assert (Pf : proper fc) by now apply proper_ccw. assert (Lf : length fc = length l) by apply ccw_corners_length.
  assert (Af : 0 < area_2d_polygon fc) by (unfold fc; rewrite ccw_corners_area; now apply Rabs_pos_lt).
  unfold extrude. rewrite (floor_corners_room close l walls Hcl Hr). cbn [bind]. fold fc. destruct Hr as (Hl & Hw).
  destruct (mapM_pred (fun i w => exists w0, nth_error walls i = Some w0 /\ is_side fc h i w0 w)
    (fun i => let* w := nth_error walls i in make_wall3 eps svd (side_corners fc h i) (w_abs w) (w_scat w)) (seq 0 (length walls))) as (sides & E1 & F1).
  { intros i Hi. apply in_seq in Hi. destruct (nth_error walls i) as [w0|] eqn:E; [|apply nth_error_None in E; lia]. cbn [bind].
    destruct (Hw i w0 E) as (_ & Ll).
    destruct (make_wall3_side eps svd (nth i fc (0, 0)) (next_corner fc i) h (w_abs w0) (w_scat w0)) as (w & W & Wc & Wa & Ws & Wn & War); auto.
    - apply Hs. unfold prism. apply in_or_app. left. apply in_map_iff. exists i. split; [reflexivity|]. apply in_seq. lia.
    - apply Pf. lia.
    - exists w. split; [exact W|]. exists w0. split; [reflexivity|]. constructor; auto. }
  rewrite Hl in F1. rewrite E1. cbn [bind].
  destruct (make_wall3_horizontal eps svd 0 (rev fc) (fst fm) (snd fm)) as (fl & W & Wc & Wa & Ws & Wn & War); auto.
  { apply Hs. unfold prism. apply in_or_app. right. left. now rewrite map_rev. }
  { intros Q. apply (f_equal (@length _)) in Q. rewrite rev_length in Q. simpl in Q. lia. }
  { destruct (area_laws_proof fc) as (R & _). rewrite R. lra. }
  destruct (area_laws_proof fc) as (AR & _). rewrite AR in Wn, War. rewrite map_rev in W, Wc.
  unfold floor3. rewrite W. cbn [bind].
  destruct (make_wall3_horizontal eps svd h fc (fst cm) (snd cm)) as (ce & W' & Wc' & Wa' & Ws' & Wn' & War'); auto.
  { apply Hs. unfold prism. apply in_or_app. right. right. now left. }
  { intros Q. rewrite Q in Lf. simpl in Lf. lia. }
  { lra. }
  unfold ceiling3. rewrite W'. cbn [bind]. exists sides, fl, ce. split; [reflexivity|]. split; [exact F1|].
  assert (N1 : Rltb 0 (- area_2d_polygon fc) = false) by (apply Rltb_false; lra). rewrite N1 in Wn.
  assert (N2 : Rltb 0 (area_2d_polygon fc) = true) by (apply Rltb_true; lra). rewrite N2 in Wn'.
  split; [exact Wc|]. split; [exact Wn|]. split; [rewrite War, Rabs_left; lra|]. split; [exact Wa|]. split; [exact Ws|].
  split; [exact Wc'|]. split; [exact Wn'|]. split; [rewrite War', Rabs_right; lra|]. auto.
Qed.

Lemma right_of_unit : forall a b, a <> b -> vsq (right_of a b ++ [0]) = 1.
Proof.
  intros a b N. pose proof (edge_length_pos a b N) as P. pose proof (edge_length_sq a b) as Q. unfold vsq, dot, right_of. simpl. set (L := edge_length a b) in *.
  replace ((snd b - snd a) / L * ((snd b - snd a) / L) + ((fst a - fst b) / L * ((fst a - fst b) / L) + (0 * 0 + 0)))
      with (((fst b - fst a) * (fst b - fst a) + (snd b - snd a) * (snd b - snd a)) / (L * L)) by (field; lra).
  rewrite <- Q. field. lra.
Qed.
Lemma vnormalized_id : forall v, vsq v = 1 -> vnormalized v = v.
Proof.
  intros v H. unfold vnormalized. destruct (Rlt_dec _ _); auto. unfold vnorm. rewrite H, sqrt_1, Rinv_1.
  unfold vscal. rewrite <- (map_id v) at 2. apply map_ext. intros; ring.
Qed.

Lemma volume_proof : forall l h sides fl ce walls, (3 <= length l)%nat -> proper l -> 0 < h ->
  Forall2 (fun i w => exists w0, nth_error walls i = Some w0 /\ is_side l h i w0 w) (seq 0 (length l)) sides ->
  w_corners fl = rev (map (at_height 0) l) -> w_normal fl = [0; 0; -1] -> wall_area 3 fl = area_2d_polygon l ->
  w_corners ce = map (at_height h) l -> w_normal ce = [0; 0; 1] -> wall_area 3 ce = area_2d_polygon l ->
  get_volume 3 (sides ++ [fl; ce]) = area_2d_polygon l * h.
Proof.
  intros l h sides fl ce walls Hn Hp Hh F Fc Fn Fa Cc Cn Ca. unfold get_volume. rewrite map_app, Rsum_app. cbn [map].
  assert (S1 : Rsum (map (fun w => dot (vnormalized (w_normal w)) (nth 0 (w_corners w) []) * wall_area 3 w) sides) = 2 * area_2d_polygon l * h).
  { rewrite area_seq. replace (2 * (/ 2 * Rsum (map (fun i => cr (nth i l (0, 0), next_corner l i)) (seq 0 (length l)))) * h)
      with (h * Rsum (map (fun i => cr (nth i l (0, 0), next_corner l i)) (seq 0 (length l)))) by lra.
    rewrite <- Rsum_map_scal. f_equal.
    assert (G : forall ks ws, (forall k, In k ks -> (k < length l)%nat) -> Forall2 (fun i w => exists w0, nth_error walls i = Some w0 /\ is_side l h i w0 w) ks ws ->
      map (fun w => dot (vnormalized (w_normal w)) (nth 0 (w_corners w) []) * wall_area 3 w) ws = map (fun i => h * cr (nth i l (0, 0), next_corner l i)) ks).
    { induction 2 as [|k w ks ws (w0 & _ & K) _ IH]; [reflexivity|]. cbn [map]. f_equal; [|apply IH; intros; apply H; now right].
      assert (Nk : nth k l (0, 0) <> next_corner l k) by (apply Hp, H; now left).
      rewrite (is_n _ _ _ _ _ K), (is_c _ _ _ _ _ K), (is_a _ _ _ _ _ K), vnormalized_id by now apply right_of_unit.
      pose proof (edge_length_pos _ _ Nk). cbn [nth face]. unfold dot, right_of, at_height, cr, X, Y. simpl.
      set (a := nth k l (0, 0)) in *. set (b := next_corner l k) in *. set (L := edge_length a b) in *. field. lra. }
    apply G; auto. intros k Hk. apply in_seq in Hk. lia. }
  rewrite S1, Fn, Cn, Fc, Cc, Fa, Ca, !vnormalized_id by (unfold vsq, dot; simpl; lra).
  destruct l as [|p t]; [simpl in Hn; lia|].
  assert (Z0 : forall q, In q (rev (map (at_height 0) (p :: t))) -> nth 2 q 0 = 0).
  { intros q Hq. apply in_rev, in_map_iff in Hq as (r & <- & _). reflexivity. }
  assert (I0 : In (nth 0 (rev (map (at_height 0) (p :: t))) []) (rev (map (at_height 0) (p :: t)))).
  { apply nth_In. rewrite rev_length. simpl. lia. }
  pose proof (Z0 _ I0) as Z1. set (q := nth 0 (rev (map (at_height 0) (p :: t))) []) in *.
  assert (D0 : dot [0; 0; -1] q = 0).
  { apply in_rev, in_map_iff in I0 as (r & Er & _). rewrite <- Er. unfold dot, at_height. simpl. ring. }
  rewrite D0. cbn [map nth]. unfold dot, at_height. simpl. field.
Qed.
Lemma F2_length : forall {A B} (P : A -> B -> Prop) l m, Forall2 P l m -> length l = length m.
Proof. induction 1; simpl; auto. Qed.
