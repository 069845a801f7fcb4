(** C104: [Room.is_inside] for rooms in the plane. *)
From Coq Require Import List ZArith Lia Reals Lra Bool Permutation.
From Verif Require Import Base Vec GeometryModel GeometrySpec GeometryProofs WallModel WallSpec PolyRoomModel PolyRoomSpec PolyRoomProofs BaseProofs InsideModel InsideSpec InsideProofs.
From Verif Require RirProofs.
Import ListNotations.
Local Open Scope R_scope.

(** ** The walls and the edges *)
Definition pts (e : pt2 * pt2) : list vec := [of2 (fst e); of2 (snd e)].
Lemma from_corners_edges : forall g corners mats walls, from_corners g corners mats = Some walls ->
  map w_corners walls = map pts (next_edges (ccw_corners corners)).
Proof.
  intros g corners mats walls E. unfold from_corners in E. destruct (Nat.ltb_spec (length corners) 3) as [|Hn]; [discriminate|].
  destruct (Nat.eqb_spec (length mats) (length corners)) as [Hm|]; [|discriminate]. cbn [negb] in E. apply mapM_inv in E.
  rewrite next_edges_seq, map_map, ccw_corners_length. unfold pts, next_corner. cbn [fst snd]. rewrite ccw_corners_length.
  induction E as [|i w is ws H E IH]; [reflexivity|]. cbn [map]. rewrite IH. f_equal.
  unfold make_wall2 in H. destruct (negb _); [discriminate|]. injection H as <-. reflexivity.
Qed.

Definition swap_ok (f : pt2 * pt2 -> bool) : Prop := forall a b, f (a, b) = f (b, a).
Lemma par_ccw : forall f l, swap_ok f -> par f (edges (ccw_corners l)) = par f (edges l).
Proof.
  intros f l H. unfold ccw_corners. destruct (Rleb _ _); [|reflexivity]. rewrite (par_perm _ _ _ (edges_rev l)). unfold par. rewrite map_map.
  f_equal. apply map_ext. intros [a b]. symmetry. apply H.
Qed.
Lemma crossb_swap : forall p q, swap_ok (crossb p q).
Proof.
  intros p q a b. apply eq_true_iff_eq. rewrite !crossb_crosses. unfold crosses, opposite. cbn [fst snd].
  rewrite (orient_swap12 b a p), (orient_swap12 b a q). split; intros [H1 H2]; split; lra.
Qed.
Lemma rayb_swap : forall p, swap_ok (rayb p).
Proof.
  intros p a b. unfold rayb, rays. cbn [fst snd]. rewrite (orient_swap12 b a p).
  destruct (sg_cases (orient b a p)) as [[E H]|[[E H]|[E H]]]; rewrite E; [rewrite (sg_gt (- _)) by lra|rewrite (sg_eq (- _)) by lra|rewrite (sg_lt (- _)) by lra];
    destruct (low _), (low _); reflexivity.
Qed.
Lemma clear_swap : forall eps q p a b, clear eps q p (a, b) -> clear eps q p (b, a).
Proof.
  intros eps q p a b (H1 & H2 & H3). unfold clear. cbn [fst snd] in *. split; [exact H2|]. split; [exact H1|]. intros O.
  rewrite !(orient_swap12 a b), !Rabs_Ropp. apply H3. unfold opposite in *. lra.
Qed.
Lemma edges_ccw_In : forall l e, In e (edges (ccw_corners l)) -> In e (edges l) \/ In (flip e) (edges l).
Proof.
  intros l e H. unfold ccw_corners in H. destruct (Rleb _ _); [|now left]. right.
  apply (Permutation_in _ (edges_rev l)) in H. apply in_map_iff in H. destruct H as [[a b] [<- H]]. exact H.
Qed.
Lemma clear_ccw : forall eps q p l, (forall e, In e (edges l) -> clear eps q p e) -> forall e, In e (edges (ccw_corners l)) -> clear eps q p e.
Proof. intros eps q p l H [a b] He. destruct (edges_ccw_In l _ He) as [I|I]; [now apply H|]. apply clear_swap. exact (H _ I). Qed.
Lemma even_odd_ccw : forall l p, even_odd (ccw_corners l) p = even_odd l p.
Proof. intros l p. rewrite !even_odd_par. apply par_ccw, rayb_swap. Qed.

(** ** One wall *)
Lemma abs_ge : forall eps x, 0 < eps -> eps <= Rabs x -> eps <= x \/ x <= - eps.
Proof. intros eps x He H. unfold Rabs in H. destruct (Rcase_abs x); lra. Qed.
Lemma code_clear : forall eps q p e, 0 < eps -> clear eps q p e ->
  fst (intersection_2d eps q p (fst e) (snd e)) = if crossb q p e then 0%Z else (-1)%Z.
Proof.
  intros eps q p [a b] He (H1 & H2 & H3). cbn [fst snd] in *.
  destruct (crossb q p (a, b)) eqn:C.
  - apply crossb_crosses in C. destruct C as [C1 C2]. cbn [fst snd] in *. destruct (H3 C1) as [H4 H5].
    apply abs_ge in H1, H2, H4, H5; auto. unfold opposite in *.
    destruct (proj1 (intersection_2d_complete_proof eps q p a b He)) as [x E]; [split; lra|]. now rewrite E.
  - assert (N : ~ crosses q p (a, b)) by (intros F; apply crossb_crosses in F; congruence). unfold crosses in N. cbn [fst snd] in N.
    rewrite intersection_2d_none_proof; [reflexivity|exact He|].
    apply abs_ge in H1, H2; auto. unfold opposite in *.
    destruct H1 as [H1|H1]; destruct H2 as [H2|H2].
    + left. lra.
    + destruct H3 as [H4 H5]; [lra|]. apply abs_ge in H4, H5; auto. right. right.
      destruct (Rlt_le_dec 0 (orient a b q)); destruct (Rlt_le_dec 0 (orient a b p)); [left|exfalso; apply N|exfalso; apply N|right]; lra.
    + destruct H3 as [H4 H5]; [lra|]. apply abs_ge in H4, H5; auto. right. right.
      destruct (Rlt_le_dec 0 (orient a b q)); destruct (Rlt_le_dec 0 (orient a b p)); [left|exfalso; apply N|exfalso; apply N|right]; lra.
    + right. left. lra.
Qed.

(** ** One pass *)
Lemma look_plain : forall codes f, (forall c, In c codes -> c = 0%Z \/ c = (-1)%Z) ->
  f_ambiguous (fold_left look codes f) = f_ambiguous f /\ f_border (fold_left look codes f) = f_border f /\
  Nat.odd (f_count (fold_left look codes f)) = xorb (Nat.odd (f_count f)) (par (fun c => (c =? 0)%Z) codes).
Proof.
  induction codes as [|c codes IH]; intros f H; [cbn; now rewrite xorb_false_r|]. cbn [fold_left].
  destruct (IH (look f c)) as (I1 & I2 & I3); [intros; apply H; now right|].
  destruct (H c (or_introl eq_refl)) as [->| ->]; rewrite I1, I2, I3; cbn.
  - rewrite !orb_false_r. repeat (split; [reflexivity|]). unfold par. cbn. rewrite Nat.odd_succ, <- Nat.negb_odd.
    destruct (Nat.odd (f_count f)); cbn; try reflexivity; now destruct (fold_right xorb false _).
  - rewrite !orb_false_r. repeat (split; [reflexivity|]). unfold par. cbn. destruct (Nat.odd (f_count f)); cbn; try reflexivity; now destruct (fold_right xorb false _).
Qed.
Lemma codes_2d : forall eps walls q p es, map w_corners walls = map pts es ->
  map (fun w => fst (wall_intersection 2 eps w (of2 q) (of2 p))) walls = map (fun e => fst (intersection_2d eps q p (fst e) (snd e))) es.
Proof.
  intros eps walls q p. induction walls as [|w walls IH]; intros [|e es] H; try discriminate; [reflexivity|].
  cbn [map] in H. injection H as Hw H. cbn [map]. rewrite (IH es H). f_equal. unfold wall_intersection. cbn [Nat.eqb fst]. rewrite Hw. unfold pts. cbn [nth]. now rewrite !to2_of2.
Qed.
Lemma pass_clear : forall eps g corners mats walls q p, 0 < eps -> from_corners g corners mats = Some walls ->
  (forall e, In e (edges corners) -> clear eps q p e) ->
  let f := one_pass 2 eps walls (of2 q) (of2 p) in
  f_ambiguous f = false /\ f_border f = false /\ Nat.odd (f_count f) = par (crossb q p) (edges corners).
Proof.
  intros eps g corners mats walls q p He Hw Hc f. apply from_corners_edges in Hw. unfold f, one_pass. rewrite (codes_2d _ _ _ _ _ Hw).
  assert (Hc' : forall e, In e (next_edges (ccw_corners corners)) -> clear eps q p e).
  { intros e He'. apply (clear_ccw eps q p corners Hc). now apply (Permutation_in _ (Permutation_sym (edges_next _))). }
  assert (E : map (fun e => fst (intersection_2d eps q p (fst e) (snd e))) (next_edges (ccw_corners corners)) =
              map (fun e => if crossb q p e then 0%Z else (-1)%Z) (next_edges (ccw_corners corners))).
  { apply map_ext_in. intros e I. apply code_clear; auto. }
  rewrite E. destruct (look_plain (map (fun e => if crossb q p e then 0%Z else (-1)%Z) (next_edges (ccw_corners corners))) {| f_ambiguous := false; f_border := false; f_count := 0 |}) as (L1 & L2 & L3).
  { intros c Hi. apply in_map_iff in Hi. destruct Hi as [e [<- _]]. destruct (crossb q p e); auto. }
  rewrite L1, L2, L3. split; [reflexivity|]. split; [reflexivity|]. cbn [f_count]. change (Nat.odd 0) with false. rewrite xorb_false_l.
  unfold par at 1. rewrite map_map. fold (par (fun e => (if crossb q p e then 0 else -1) =? 0)%Z (next_edges (ccw_corners corners))).
  rewrite (par_ext _ (crossb q p)) by (intros e _; now destruct (crossb q p e)).
  rewrite <- (par_perm _ _ _ (edges_next (ccw_corners corners))). apply par_ccw, crossb_swap.
Qed.

(** ** The reference points *)
(** The reference of a round: the lower corner of the bounding box minus the draws so far. *)
Fixpoint reference (corners : list pt2) (draws : nat -> pt2) (n : nat) : pt2 :=
  match n with
  | O => (list_min (map fst corners) - fst (draws O), list_min (map snd corners) - snd (draws O))
  | S m => (fst (reference corners draws m) - fst (draws n), snd (reference corners draws m) - snd (draws n))
  end.
Lemma list_min_set : forall l m, l <> [] -> (forall x, In x l <-> In x m) -> list_min l = list_min m.
Proof.
  intros l m Hl H. assert (Hm : m <> []) by (destruct l as [|a l]; [congruence|]; intros ->; apply (H a); now left).
  apply Rle_antisym; apply RirProofs.list_min_le; apply H; now apply RirProofs.list_min_in.
Qed.
Lemma lower_2d : forall g corners mats walls, from_corners g corners mats = Some walls ->
  bbox_lower 2 walls = [list_min (map fst corners); list_min (map snd corners)].
Proof.
  intros g corners mats walls E. assert (Hn : (3 <= length corners)%nat).
  { unfold from_corners in E. destruct (Nat.ltb_spec (length corners) 3); [discriminate|assumption]. }
  apply from_corners_edges in E. unfold bbox_lower. rewrite E. cbn [map seq].
  assert (I : forall v, In v (concat (map pts (next_edges (ccw_corners corners)))) <-> exists c, In c corners /\ v = of2 c).
  { intros v. rewrite in_concat. split.
    - intros [x [Hx Hv]]. apply in_map_iff in Hx. destruct Hx as [e [<- He]]. apply (Permutation_in _ (Permutation_sym (edges_next _))) in He.
      apply edges_In in He. assert (S : forall c, In c (ccw_corners corners) -> In c corners).
      { intros c Hc. unfold ccw_corners in Hc. destruct (Rleb _ _); [now apply in_rev|exact Hc]. }
      destruct Hv as [<-|[<-|[]]]; eexists; split; try reflexivity; apply S; tauto.
    - intros [c [Hc ->]]. assert (Hc' : In c (ccw_corners corners)) by (unfold ccw_corners; destruct (Rleb _ _); [now apply -> in_rev|exact Hc]).
      destruct (edges_ex _ c Hc') as [[u [_ Hu]] _]. exists (pts (c, u)). split; [|now left].
      apply in_map. exact (Permutation_in _ (edges_next _) Hu). }
  assert (Ne : corners <> []) by (intros ->; cbn in Hn; lia).
  assert (K : forall d (f : pt2 -> R), (forall c, nth d (of2 c) 0 = f c) ->
     list_min (map (fun c => nth d c 0) (concat (map pts (next_edges (ccw_corners corners))))) = list_min (map f corners)).
  { intros d f Hf. symmetry. apply list_min_set; [destruct corners; [congruence|discriminate]|]. intros x. rewrite !in_map_iff. split.
    - intros [c [<- Hc]]. exists (of2 c). split; [apply Hf|]. apply I. eauto.
    - intros [v [<- Hv]]. apply I in Hv. destruct Hv as [c [Hc ->]]. exists c. split; [symmetry; apply Hf|exact Hc]. }
  rewrite (K 0%nat fst), (K 1%nat snd) by reflexivity. reflexivity.
Qed.
Lemma reference_below : forall corners draws n, (forall i, 0 < fst (draws i) /\ 0 < snd (draws i)) -> forall c, In c corners ->
  fst (reference corners draws n) < fst c /\ snd (reference corners draws n) < snd c.
Proof.
  intros corners draws n Hd c Hc. induction n as [|n [I1 I2]]; cbn [reference fst snd].
  - pose proof (RirProofs.list_min_le (map fst corners) (fst c) (in_map _ _ _ Hc)). pose proof (RirProofs.list_min_le (map snd corners) (snd c) (in_map _ _ _ Hc)). specialize (Hd 0%nat). lra.
  - specialize (Hd (S n)). lra.
Qed.
Definition ref_before (corners : list pt2) (draws : nat -> pt2) (n : nat) : pt2 :=
  match n with O => (list_min (map fst corners), list_min (map snd corners)) | S m => reference corners draws m end.
Lemma reference_step : forall corners draws n, vminus (of2 (ref_before corners draws n)) (of2 (draws n)) = of2 (reference corners draws n).
Proof. intros corners draws [|n]; reflexivity. Qed.
Lemma loop_2d : forall eps walls corners draws inc p n it k, (k <= n)%nat -> (n - k < it)%nat ->
  (forall m, (k <= m < n)%nat -> f_ambiguous (one_pass 2 eps walls (of2 (reference corners draws m)) p) = true) ->
  f_ambiguous (one_pass 2 eps walls (of2 (reference corners draws n)) p) = false ->
  inside_loop 2 eps walls (fun i => of2 (draws i)) inc it k (of2 (ref_before corners draws k)) p =
  let f := one_pass 2 eps walls (of2 (reference corners draws n)) p in if f_border f then inc else Nat.odd (f_count f).
Proof.
  intros eps walls corners draws inc p n it. induction it as [|it IH]; intros k Hk Hi Ha Hn; [lia|]. cbn [inside_loop]. rewrite reference_step.
  destruct (Nat.eq_dec k n) as [->|N]; [rewrite Hn; reflexivity|]. rewrite Ha by lia.
  change (of2 (reference corners draws k)) with (of2 (ref_before corners draws (S k))). apply IH; auto; try lia. intros m Hm. apply Ha. lia.
Qed.

(** C104.  A polygon of any shape: if the segment from the reference point of some round to p is
    told apart from every wall, and the rounds before were inconclusive, the answer is that of the
    even-odd rule; it depends neither on the random numbers nor on the order and direction of the corners. *)
Theorem C104_even_odd : forall eps g corners mats walls draws max n p include, 0 < eps ->
  from_corners g corners mats = Some walls -> (forall i, 0 < fst (draws i) /\ 0 < snd (draws i)) -> (n < max)%nat ->
  (forall m, (m < n)%nat -> f_ambiguous (one_pass 2 eps walls (of2 (reference corners draws m)) (of2 p)) = true) ->
  (forall e, In e (edges corners) -> clear eps (reference corners draws n) p e) ->
  is_inside 2 eps max walls (fun i => of2 (draws i)) (of2 p) include = Some (even_odd corners p).
Proof.
  intros eps g corners mats walls draws max n p include He Hw Hd Hn Ha Hc. unfold is_inside. cbn [length of2 Nat.eqb negb].
  rewrite (lower_2d _ _ _ _ Hw). change [list_min (map fst corners); list_min (map snd corners)] with (of2 (ref_before corners draws 0)).
  destruct (pass_clear eps g corners mats walls (reference corners draws n) p He Hw Hc) as (P1 & P2 & P3).
  change [fst p; snd p] with (of2 p). rewrite (loop_2d _ _ _ _ _ _ n) by (auto; lia || (intros; apply Ha; lia)). cbv zeta. rewrite P2, P3. f_equal.
  rewrite <- even_odd_step by (intros e I; apply (clear_apart eps); auto).
  rewrite (even_odd_separated corners (reference corners draws n) 1 0); [apply xorb_false_l|].
  intros v Hv. destruct (reference_below corners draws n Hd v Hv). lra.
Qed.

(** C104.  What the even-odd rule means: going from p to q along a segment changes it once for every
    wall crossed (so it is constant where no wall is crossed); *)
Theorem C104_moving : forall corners p q (f : (R * R) * (R * R) -> bool),
  (forall e, In e (edges corners) -> exists eps, 0 < eps /\ clear eps p q e) ->
  (forall e, In e (edges corners) -> (f e = true <-> crosses p q e)) ->
  xorb (even_odd corners p) (even_odd corners q) = Nat.odd (length (filter f (edges corners))).
Proof.
  intros corners p q f Hc Hf. rewrite even_odd_step.
  - rewrite odd_filter. apply par_ext. intros e He. apply eq_true_iff_eq. rewrite crossb_crosses. symmetry. now apply Hf.
  - intros e He. destruct (Hc e He) as [eps [H1 H2]]. now apply (clear_apart eps).
Qed.
(** it is false for points that a line separates from the room, whatever its shape; *)
Theorem C104_separated : forall corners p nx ny, (forall v, In v corners -> 0 < nx * (fst v - fst p) + ny * (snd v - snd p)) -> even_odd corners p = false.
Proof. exact even_odd_separated. Qed.
(** in a convex room it is true exactly for the points to the left of every wall. *)
Theorem C104_convex : forall corners p, corners <> [] -> strictly_convex corners ->
  (forall e, In e (edges corners) -> orient (fst e) (snd e) p <> 0) ->
  (even_odd corners p = true <-> forall e, In e (edges corners) -> 0 < orient (fst e) (snd e) p).
Proof.
  intros corners p Hl Hc Hn. split; [|now apply even_odd_convex].
  intros H e He. destruct (Rlt_dec 0 (orient (fst e) (snd e) p)) as [|N]; [assumption|]. exfalso.
  specialize (Hn e He). rewrite (even_odd_separated corners p (- (snd (snd e) - snd (fst e))) (fst (snd e) - fst (fst e))) in H; [discriminate|].
  intros v Hv. pose proof (convex_convex _ Hc e v He Hv) as C. unfold orient in *. lra.
Qed.

(** ** Points on a wall *)
Lemma look_border : forall codes f, (forall c, In c codes -> c = 0 \/ c = -1 \/ c = 1)%Z ->
  f_ambiguous (fold_left look codes f) = f_ambiguous f /\ (f_border f = true \/ In 1%Z codes -> f_border (fold_left look codes f) = true).
Proof.
  induction codes as [|c codes IH]; intros f H; [cbn; split; [reflexivity|tauto]|]. cbn [fold_left].
  destruct (IH (look f c)) as (I1 & I2); [intros; apply H; now right|]. rewrite I1. split.
  - destruct (H c (or_introl eq_refl)) as [->|[->| ->]]; cbn; now rewrite orb_false_r.
  - intros Hb. apply I2. destruct Hb as [Hb|[->|Hb]]; [left; cbn; now rewrite Hb|left; cbn; apply orb_true_r|now right].
Qed.
Lemma no_corner_code : forall eps q p a b, 0 < eps -> eps <= Rabs (orient q p a) -> eps <= Rabs (orient q p b) ->
  let c := fst (intersection_2d eps q p a b) in (c = 0 \/ c = -1 \/ c = 1)%Z.
Proof.
  intros eps q p a b He Ha Hb c.
  assert (N : forall x, eps <= Rabs x -> tri eps x <> 0%Z) by (intros x Hx F; apply tri_0 in F; auto; unfold Rabs in Hx; destruct (Rcase_abs x); lra).
  unfold c, intersection_2d. destruct (check_intersection_2d eps q p a b <? 0)%Z eqn:L.
  - cbn [fst]. pose proof (check_range eps q p a b) as K. cbv zeta in K. apply Z.ltb_lt in L. lia.
  - destruct (Rltb _ eps); cbn [fst]; [auto|]. unfold check_intersection_2d. rewrite !ccw3p_tri.
    apply N in Ha. apply N in Hb. apply Z.eqb_neq in Ha, Hb. rewrite Ha, Hb. cbn [orb].
    clear. destruct (_ =? _)%Z; auto. destruct (_ =? _)%Z; auto. destruct (_ || _); cbn; auto.
Qed.
(** C104.  A point on a wall, not near its ends: the answer is [include_borders], whenever the line
    from the reference point misses the corners and the reference point the line of that wall. *)
Theorem C104_border : forall eps g corners mats walls draws max n a b p include, 0 < eps ->
  from_corners g corners mats = Some walls -> (n < max)%nat ->
  (forall m, (m < n)%nat -> f_ambiguous (one_pass 2 eps walls (of2 (reference corners draws m)) (of2 p)) = true) ->
  In (a, b) (edges corners) -> on_edge a b p ->
  (forall c, In c corners -> eps <= Rabs (orient (reference corners draws n) p c)) -> eps <= Rabs (orient a b (reference corners draws n)) ->
  is_inside 2 eps max walls (fun i => of2 (draws i)) (of2 p) include = Some include.
Proof.
  intros eps g corners mats walls draws max n a b p include He Hw Hn Ha Hab Hp Hc Hr. unfold is_inside. cbn [length of2 Nat.eqb negb].
  rewrite (lower_2d _ _ _ _ Hw). change [list_min (map fst corners); list_min (map snd corners)] with (of2 (ref_before corners draws 0)).
  change [fst p; snd p] with (of2 p). set (q := reference corners draws n) in *.
  assert (F : f_ambiguous (one_pass 2 eps walls (of2 q) (of2 p)) = false /\ f_border (one_pass 2 eps walls (of2 q) (of2 p)) = true).
  { apply from_corners_edges in Hw. unfold one_pass. rewrite (codes_2d _ _ _ _ _ Hw).
    set (codes := map (fun e => fst (intersection_2d eps q p (fst e) (snd e))) (next_edges (ccw_corners corners))).
    destruct (look_border codes {| f_ambiguous := false; f_border := false; f_count := 0 |}) as [L1 L2].
    { intros c Hi. apply in_map_iff in Hi. destruct Hi as [e [<- Hi]]. apply (Permutation_in _ (Permutation_sym (edges_next _))) in Hi.
      apply edges_In in Hi. assert (S : forall c, In c (ccw_corners corners) -> In c corners).
      { intros c Hcc. unfold ccw_corners in Hcc. destruct (Rleb _ _); [now apply in_rev|exact Hcc]. }
      apply no_corner_code; auto; apply Hc, S; tauto. }
    split; [exact L1|]. apply L2. right.
    assert (G : forall u v, orient u v p = 0 -> eps <= Rabs (orient u v q) -> on_edge u v p -> eps <= Rabs (orient q p u) -> eps <= Rabs (orient q p v) -> fst (intersection_2d eps q p u v) = 1%Z).
    { intros u v E1 E2 [t [Ht ->]] E4 E5.
      assert (Hu : orient q (seg_at u v t) u = - t * orient u v q) by (unfold orient, seg_at; cbn; ring).
      assert (Hv : orient q (seg_at u v t) v = (1 - t) * orient u v q) by (unfold orient, seg_at; cbn; ring).
      assert (T : 0 < t < 1).
      { split; destruct Ht as [T1 T2].
        - destruct T1 as [T1|T1]; [exact T1|]. rewrite Hu, <- T1 in E4. replace (- 0 * orient u v q) with 0 in E4 by ring. rewrite Rabs_R0 in E4. lra.
        - destruct T2 as [T2|T2]; [exact T2|]. rewrite Hv, T2 in E5. replace ((1 - 1) * orient u v q) with 0 in E5 by ring. rewrite Rabs_R0 in E5. lra. }
      rewrite Hu in E4. rewrite Hv in E5.
      assert (Tu : tri eps (orient q (seg_at u v t) u) <> 0%Z /\ tri eps (orient q (seg_at u v t) v) <> 0%Z /\ tri eps (orient q (seg_at u v t) u) <> tri eps (orient q (seg_at u v t) v) /\
                   tri eps (orient u v q) <> 0%Z /\ eps <= Rabs (orient q (seg_at u v t) v - orient q (seg_at u v t) u)).
      { rewrite Hu, Hv. apply abs_ge in E2, E4, E5; auto. destruct E2 as [E2|E2].
        - assert (- t * orient u v q < 0) by nra. assert (0 < (1 - t) * orient u v q) by nra.
          rewrite (proj2 (tri_m1 eps (- t * orient u v q) He)), (proj2 (tri_pos eps ((1 - t) * orient u v q) He)), (proj2 (tri_pos eps (orient u v q) He)) by lra. repeat (split; [discriminate|]).
          rewrite Rabs_right; lra.
        - assert (0 < - t * orient u v q) by nra. assert ((1 - t) * orient u v q < 0) by nra.
          rewrite (proj2 (tri_pos eps (- t * orient u v q) He)), (proj2 (tri_m1 eps ((1 - t) * orient u v q) He)), (proj2 (tri_m1 eps (orient u v q) He)) by lra. repeat (split; [discriminate|]).
          rewrite Rabs_left; lra. }
      destruct Tu as (T1 & T2 & T3 & T4 & T5).
      assert (Ck : check_intersection_2d eps q (seg_at u v t) u v = 1%Z).
      { unfold check_intersection_2d. rewrite !ccw3p_tri. apply Z.eqb_neq in T1, T2, T3. rewrite T1, T2, T3. rewrite E1. rewrite (proj2 (tri_0 eps 0 He)) by lra.
        apply Z.eqb_neq in T4. rewrite T4. reflexivity. }
      unfold intersection_2d. rewrite Ck. cbn [Z.ltb Z.compare]. rewrite denom_orient. rewrite (proj2 (Rltb_false _ _)) by exact T5. reflexivity. }
    assert (O : orient a b p = 0) by (destruct Hp as [t [_ ->]]; apply seg_at_on_line).
    destruct (edges_In _ _ Hab) as [Ia Ib]. cbn [fst snd] in Ia, Ib.
    unfold codes. apply in_map_iff.
    assert (D : In (a, b) (edges (ccw_corners corners)) \/ In (b, a) (edges (ccw_corners corners))).
    { unfold ccw_corners. destruct (Rleb _ _); [|now left]. right. apply (Permutation_in _ (Permutation_sym (edges_rev corners))). apply in_map_iff. exists (a, b). auto. }
    destruct D as [D|D]; apply (Permutation_in _ (edges_next _)) in D; (eexists; split; [|exact D]); cbn [fst snd]; apply G; auto.
    - rewrite orient_swap12, O. ring.
    - rewrite orient_swap12, Rabs_Ropp. exact Hr.
    - destruct Hp as [t [Ht ->]]. exists (1 - t). split; [lra|]. unfold seg_at. cbn. f_equal; ring. }
  destruct F as [F1 F2]. rewrite (loop_2d _ _ _ _ _ _ n) by (auto; lia || (intros; apply Ha; lia)). cbv zeta. fold q. rewrite F2. reflexivity.
Qed.

(** ** Findings *)
Lemma look_ambiguous : forall codes f, (f_ambiguous f = true \/ In 2%Z codes) -> f_ambiguous (fold_left look codes f) = true.
Proof.
  induction codes as [|c codes IH]; intros f H; [destruct H as [H|[]]; exact H|]. cbn [fold_left]. apply IH.
  destruct H as [H|[->|H]]; [left; cbn; now rewrite H|left; cbn; apply orb_true_r|now right].
Qed.
Definition square : list (R * R) := [(0, 0); (1, 0); (1, 1); (0, 1)].
Definition plain (n : nat) : list (list R * list R) := repeat ([1 / 10], [0]) n.
Lemma rmin_le : forall a b, a <= b -> Rmin a b = a. Proof. intros. unfold Rmin. destruct (Rle_dec a b); lra. Qed.
Lemma rmin_ge : forall a b, b <= a -> Rmin a b = b. Proof. intros. unfold Rmin. destruct (Rle_dec a b); lra. Qed.
Ltac mins := unfold Rmin; repeat match goal with |- context [Rle_dec ?a ?b] => lazymatch a with context [Rle_dec] => fail | _ => destruct (Rle_dec a b); try lra end end; try lra.

(** When the draws keep putting the reference point on the line through p and a corner, a point in the
    middle of the room is reported outside, however many rounds are made. *)
Theorem C104_unlucky_refuted : exists corners p draws walls, from_corners ([], []) corners (plain 4) = Some walls /\
  (forall i, 0.015 <= fst (draws i) < 0.85 /\ 0.015 <= snd (draws i) < 0.85) /\ even_odd corners p = true /\
  forall max, is_inside 2 (1 / 100000) max walls (fun i => of2 (draws i)) (of2 p) true = Some false.
Proof.
  exists square, (1 / 2, 1 / 2), (fun _ => (1 / 10, 1 / 10)).
  eexists. split; [apply from_corners_walls; [cbn; lia|reflexivity|]; intros m Hm; apply repeat_spec in Hm; now subst|].
  match goal with |- context [is_inside _ _ _ ?w] => set (walls := w) end.
  assert (Hw : from_corners ([], []) square (plain 4) = Some walls) by (apply from_corners_walls; [cbn; lia|reflexivity|]; intros m Hm; apply repeat_spec in Hm; now subst).
  clearbody walls. split; [intros i; cbn; lra|]. split.
  { unfold even_odd, square, edges. cbn [last chain filter meets_ray fst snd].
    repeat match goal with |- context [Rleb ?a ?b] => first [rewrite (proj2 (Rleb_true a b)) by lra | rewrite (proj2 (Rleb_false a b)) by lra] end.
    cbn [xorb andb]. repeat match goal with |- context [Rltb ?a ?b] => first [rewrite (proj2 (Rltb_true a b)) by lra | rewrite (proj2 (Rltb_false a b)) by lra] end. reflexivity. }
  intros max. unfold is_inside. cbn [length of2 Nat.eqb negb]. f_equal. rewrite (lower_2d _ _ _ _ Hw).
  assert (Ccw : ccw_corners square = square).
  { unfold ccw_corners. rewrite (proj2 (Rleb_false _ _)); [reflexivity|]. rewrite area_shoelace_proof. unfold shoelace, square, edges. cbn. lra. }
  pose proof (from_corners_edges _ _ _ _ Hw) as He. rewrite Ccw in He.
  replace (list_min (map fst square)) with 0 by (unfold list_min, square; cbn [map fst snd hd tl fold_left]; mins).
  replace (list_min (map snd square)) with 0 by (unfold list_min, square; cbn [map fst snd hd tl fold_left]; mins).
  assert (G : forall it k s, 0 <= s -> inside_loop 2 (1 / 100000) walls (fun _ => of2 (1 / 10, 1 / 10)) true it k (of2 (- s, - s)) (of2 (1 / 2, 1 / 2)) = false).
  { induction it as [|it IH]; intros k s Hs; [reflexivity|]. cbn [inside_loop].
    replace (vminus (of2 (- s, - s)) (of2 (1 / 10, 1 / 10))) with (of2 (- (s + 1 / 10), - (s + 1 / 10))) by (unfold of2, vminus; cbn; repeat f_equal; lra).
    set (z := s + 1 / 10). assert (Hz : 1 / 10 <= z) by (unfold z; lra).
    assert (A : f_ambiguous (one_pass 2 (1 / 100000) walls (of2 (- z, - z)) (of2 (1 / 2, 1 / 2))) = true).
    { unfold one_pass. rewrite (codes_2d _ _ _ _ _ He). apply look_ambiguous. right. unfold next_edges, square. cbn [app chain map]. left. cbn [fst snd].
      assert (E0 : orient (- z, - z) (1 / 2, 1 / 2) (0, 0) = 0) by (unfold orient; cbn; ring).
      assert (E1 : orient (- z, - z) (1 / 2, 1 / 2) (1, 0) = - (1 / 2 + z)) by (unfold orient; cbn; field).
      assert (E2 : orient (0, 0) (1, 0) (- z, - z) = - z) by (unfold orient; cbn; ring).
      assert (E3 : orient (0, 0) (1, 0) (1 / 2, 1 / 2) = 1 / 2) by (unfold orient; cbn; field).
      assert (Ck : check_intersection_2d (1 / 100000) (- z, - z) (1 / 2, 1 / 2) (0, 0) (1, 0) = 2%Z).
      { unfold check_intersection_2d. rewrite !ccw3p_tri, E0, E1, E2, E3.
        rewrite (proj2 (tri_0 (1 / 100000) 0 ltac:(lra))), (proj2 (tri_m1 (1 / 100000) (- (1 / 2 + z)) ltac:(lra))), (proj2 (tri_m1 (1 / 100000) (- z) ltac:(lra))), (proj2 (tri_pos (1 / 100000) (1 / 2) ltac:(lra))) by lra. reflexivity. }
      unfold intersection_2d. rewrite Ck. cbn [Z.ltb Z.compare]. rewrite denom_orient, E0, E1. rewrite (proj2 (Rltb_false _ _)); [reflexivity|]. rewrite Rabs_left; lra. }
    rewrite A. apply IH. lra. }
  specialize (G max 0%nat 0 ltac:(lra)). unfold of2 in G. cbn [fst snd] in G. rewrite Ropp_0 in G. exact G.
Qed.
Definition triangle : list (R * R) := [(0, 0); (1, 1); (0, 1)].
(** A reference point within the tolerance of the line of a wall counts as a point on that wall: a
    point a hundred metres away is reported inside. *)
Theorem C104_far_refuted : exists corners p draws walls, from_corners ([], []) corners (plain 3) = Some walls /\
  (forall i, 0.015 <= fst (draws i) < 0.85 /\ 0.015 <= snd (draws i) < 0.85) /\ even_odd corners p = false /\
  (forall c, In c corners -> 90 < fst p - fst c) /\
  is_inside 2 (1 / 100000) 20 walls (fun i => of2 (draws i)) (of2 p) true = Some true.
Proof.
  set (q := (- (1 / 10), - (99991 / 1000000)) : R * R). set (p := (100, 999985 / 10000) : R * R).
  exists triangle, p, (fun _ => (1 / 10, 99991 / 1000000)).
  eexists. split; [apply from_corners_walls; [cbn; lia|reflexivity|]; intros m Hm; apply repeat_spec in Hm; now subst|].
  match goal with |- context [is_inside _ _ _ ?w] => set (walls := w) end.
  assert (Hw : from_corners ([], []) triangle (plain 3) = Some walls) by (apply from_corners_walls; [cbn; lia|reflexivity|]; intros m Hm; apply repeat_spec in Hm; now subst).
  clearbody walls. split; [intros i; cbn; lra|]. split.
  { apply (even_odd_separated _ _ (-1) 0). intros v [<-|[<-|[<-|[]]]]; unfold p; cbn; lra. }
  split. { intros c [<-|[<-|[<-|[]]]]; unfold p; cbn; lra. }
  unfold is_inside. cbn [length of2 Nat.eqb negb]. f_equal. rewrite (lower_2d _ _ _ _ Hw).
  assert (Ccw : ccw_corners triangle = triangle).
  { unfold ccw_corners. rewrite (proj2 (Rleb_false _ _)); [reflexivity|]. rewrite area_shoelace_proof. unfold shoelace, triangle, edges. cbn. lra. }
  pose proof (from_corners_edges _ _ _ _ Hw) as He. rewrite Ccw in He.
  assert (Mx : list_min (map fst triangle) = 0) by (unfold list_min, triangle; cbn [map fst snd hd tl fold_left]; mins).
  assert (My : list_min (map snd triangle) = 0) by (unfold list_min, triangle; cbn [map fst snd hd tl fold_left]; mins).
  assert (P : 0 < 1 / 100000) by lra.
  assert (T1 : tri (1 / 100000) (orient q p (0, 0)) = (-1)%Z) by (apply tri_m1; [exact P|unfold orient, q, p; cbn; lra]).
  assert (T2 : tri (1 / 100000) (orient q p (1, 1)) = 1%Z) by (apply tri_pos; [exact P|unfold orient, q, p; cbn; lra]).
  assert (T3 : tri (1 / 100000) (orient q p (0, 1)) = 1%Z) by (apply tri_pos; [exact P|unfold orient, q, p; cbn; lra]).
  assert (U1 : tri (1 / 100000) (orient (0, 0) (1, 1) q) = 0%Z) by (apply tri_0; [exact P|unfold orient, q, p; cbn; lra]).
  assert (U2 : tri (1 / 100000) (orient (0, 0) (1, 1) p) = (-1)%Z) by (apply tri_m1; [exact P|unfold orient, q, p; cbn; lra]).
  assert (V1 : tri (1 / 100000) (orient (0, 1) (0, 0) q) = (-1)%Z) by (apply tri_m1; [exact P|unfold orient, q, p; cbn; lra]).
  assert (V2 : tri (1 / 100000) (orient (0, 1) (0, 0) p) = 1%Z) by (apply tri_pos; [exact P|unfold orient, q, p; cbn; lra]).
  assert (C1 : fst (intersection_2d (1 / 100000) q p (0, 0) (1, 1)) = 1%Z).
  { unfold intersection_2d, check_intersection_2d. rewrite !ccw3p_tri, T1, T2, U1, U2. cbn [Z.eqb Pos.eqb orb Z.lor Z.ltb Z.compare Pos.lor].
    rewrite denom_orient. rewrite (proj2 (Rltb_false _ _)); [reflexivity|]. rewrite Rabs_right; unfold orient, q, p; cbn; lra. }
  assert (C2 : fst (intersection_2d (1 / 100000) q p (1, 1) (0, 1)) = (-1)%Z).
  { unfold intersection_2d, check_intersection_2d. rewrite !ccw3p_tri, T2, T3. reflexivity. }
  assert (C3 : fst (intersection_2d (1 / 100000) q p (0, 1) (0, 0)) = 0%Z).
  { unfold intersection_2d, check_intersection_2d. rewrite !ccw3p_tri, T3, T1, V1, V2. cbn [Z.eqb Pos.eqb orb Z.lor Z.ltb Z.compare Pos.lor].
    rewrite denom_orient. rewrite (proj2 (Rltb_false _ _)); [reflexivity|]. rewrite Rabs_left; unfold orient, q, p; cbn; lra. }
  assert (O : one_pass 2 (1 / 100000) walls (of2 q) (of2 p) = {| f_ambiguous := false; f_border := true; f_count := 2 |}).
  { unfold one_pass. rewrite (codes_2d _ _ _ _ _ He). unfold next_edges, triangle. cbn [app chain map fst snd]. rewrite C1, C2, C3. reflexivity. }
  change [list_min (map fst triangle); list_min (map snd triangle)] with (of2 (ref_before triangle (fun _ => (1 / 10, 99991 / 1000000)) 0)).
  change [fst p; snd p] with (of2 p).
  assert (Q : reference triangle (fun _ => (1 / 10, 99991 / 1000000)) 0 = q).
  { cbn [reference fst snd]. rewrite Mx, My. unfold q. f_equal; lra. }
  rewrite (loop_2d _ _ _ (fun _ => (1 / 10, 99991 / 1000000)) _ _ 0); [|lia|lia|intros; lia|]; rewrite Q, O; reflexivity.
Qed.

(** A point in one arm of an L-shaped room, seen from a reference point outside. *)
Definition ell : list (R * R) := [(0, 0); (4, 0); (4, 2); (2, 2); (2, 4); (0, 4)].
Example C104_ex : exists walls, from_corners ([], []) ell (plain 6) = Some walls /\
  is_inside 2 (1 / 100000) 20 walls (fun _ => of2 (1 / 2, 1 / 4)) (of2 (1, 3)) true = Some true.
Proof.
  assert (Hm : forall m, In m (plain 6) -> length (fst m) = length (snd m)) by (intros m H; apply repeat_spec in H; now subst).
  eexists. split; [apply from_corners_walls; [cbn; lia|reflexivity|exact Hm]|].
  rewrite (C104_even_odd (1 / 100000) ([], []) ell (plain 6) _ (fun _ => (1 / 2, 1 / 4)) 20 0 (1, 3) true ltac:(lra)).
  - f_equal. unfold even_odd, ell, edges. cbn [last chain filter meets_ray fst snd].
    repeat match goal with |- context [Rleb ?a ?b] => first [rewrite (proj2 (Rleb_true a b)) by lra | rewrite (proj2 (Rleb_false a b)) by lra] end.
    cbn [xorb andb]. repeat match goal with |- context [Rltb ?a ?b] => first [rewrite (proj2 (Rltb_true a b)) by lra | rewrite (proj2 (Rltb_false a b)) by lra] end. reflexivity.
  - apply from_corners_walls; [cbn; lia|reflexivity|exact Hm].
  - intros i. cbn. lra.
  - lia.
  - intros m H. lia.
  - cbn [reference]. replace (list_min (map fst ell)) with 0 by (unfold list_min, ell; cbn [map fst snd hd tl fold_left]; mins).
    replace (list_min (map snd ell)) with 0 by (unfold list_min, ell; cbn [map fst snd hd tl fold_left]; mins).
    assert (R : forall x eps, eps <= x \/ x <= - eps -> eps <= Rabs x) by (intros x eps H; unfold Rabs; destruct (Rcase_abs x); lra).
    intros e He. cbn in He. unfold clear, opposite, orient.
    destruct He as [<-|[<-|[<-|[<-|[<-|[<-|[]]]]]]]; cbn [fst snd];
      (split; [apply R; lra|]; split; [apply R; lra|]; intros O; first [exfalso; lra | split; apply R; lra]).
Qed.
Print Assumptions C104_even_odd.
