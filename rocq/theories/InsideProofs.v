(** The parity argument behind [is_inside]. *)
From Coq Require Import List ZArith Lia Reals Lra Bool Permutation.
From Verif Require Import Base Vec GeometryModel GeometrySpec GeometryProofs InsideSpec.
Import ListNotations.
Local Open Scope R_scope.

(** ** Signs *)
Definition sg (x : R) : comparison := if Rlt_dec x 0 then Lt else if Rlt_dec 0 x then Gt else Eq.
Lemma sg_lt : forall x, x < 0 -> sg x = Lt.
Proof. intros x H. unfold sg. destruct (Rlt_dec x 0); [reflexivity|contradiction]. Qed.
Lemma sg_gt : forall x, 0 < x -> sg x = Gt.
Proof. intros x H. unfold sg. destruct (Rlt_dec x 0); [lra|]. destruct (Rlt_dec 0 x); [reflexivity|contradiction]. Qed.
Lemma sg_eq : forall x, x = 0 -> sg x = Eq.
Proof. intros x H. unfold sg. destruct (Rlt_dec x 0); [lra|]. destruct (Rlt_dec 0 x); [lra|reflexivity]. Qed.
Lemma sg_cases : forall x, (sg x = Lt /\ x < 0) \/ (sg x = Eq /\ x = 0) \/ (sg x = Gt /\ 0 < x).
Proof.
  intros x. destruct (Rtotal_order x 0) as [H|[H|H]].
  - left. split; [now apply sg_lt|exact H].
  - right. left. split; [now apply sg_eq|exact H].
  - right. right. split; [now apply sg_gt|exact H].
Qed.
Definition cmul (a b : comparison) : comparison :=
  match a, b with Eq, _ | _, Eq => Eq | Lt, Lt | Gt, Gt => Gt | _, _ => Lt end.
Lemma sg_mul : forall x y, sg (x * y) = cmul (sg x) (sg y).
Proof.
  intros x y. destruct (sg_cases x) as [[-> Hx]|[[-> Hx]|[-> Hx]]]; destruct (sg_cases y) as [[-> Hy]|[[-> Hy]|[-> Hy]]]; cbn [cmul];
    first [apply sg_lt; nra | apply sg_gt; nra | apply sg_eq; nra].
Qed.
Definition ceqb (a b : comparison) : bool := match a, b with Eq, Eq | Lt, Lt | Gt, Gt => true | _, _ => false end.
(** can numbers of the signs x, y, z satisfy x - y = z? *)
Definition may (x y z : comparison) : bool :=
  match z with
  | Eq => ceqb x y
  | Gt => match x, y with Gt, _ => true | Eq, Lt => true | Lt, Lt => true | _, _ => false end
  | Lt => match x, y with Lt, _ => true | Eq, Gt => true | Gt, Gt => true | _, _ => false end
  end.
Lemma sg_may : forall x y z, x - y = z -> may (sg x) (sg y) (sg z) = true.
Proof.
  intros x y z H. destruct (sg_cases x) as [[-> Hx]|[[-> Hx]|[-> Hx]]]; destruct (sg_cases y) as [[-> Hy]|[[-> Hy]|[-> Hy]]];
    destruct (sg_cases z) as [[-> Hz]|[[-> Hz]|[-> Hz]]]; try reflexivity; lra.
Qed.

(** ** One edge *)
Definition low (s : comparison) : bool := match s with Gt => false | _ => true end.
(** the edge with heights xa, ya over the point meets the ray to the right *)
Definition rays (xa ya A : comparison) : bool :=
  (low xa && negb (low ya) && ceqb A Gt) || (low ya && negb (low xa) && ceqb A Lt).
(** a corner lies in the strip between the heights of the two points, on the right *)
Definition strip (x0 x1 s h : comparison) : bool := xorb (low x0) (low x1) && ceqb (cmul s h) Lt.
Definition cross_s (s1 s2 A B : comparison) : bool := ceqb (cmul s1 s2) Lt && ceqb (cmul A B) Lt.
Definition one_edge (x0 x1 y0 y1 A B C h s1 s2 : comparison) : bool :=
  implb (negb (ceqb s1 Eq) && negb (ceqb s2 Eq) && implb (negb (ceqb s1 s2)) (negb (ceqb A Eq) && negb (ceqb B Eq)) &&
         may x0 x1 h && may y0 y1 h && may y0 x0 C && may y1 x1 C &&
         may (cmul x1 A) (cmul x0 B) (cmul s1 C) && may (cmul y1 A) (cmul y0 B) (cmul s2 C) &&
         may (cmul x0 s2) (cmul y0 s1) (cmul h A) && may (cmul x1 s2) (cmul y1 s1) (cmul h B) && negb (ceqb h Eq && ceqb x0 Eq))
        (Bool.eqb (xorb (xorb (rays x0 y0 A) (rays x1 y1 B)) (cross_s s1 s2 A B)) (xorb (strip x0 x1 s1 h) (strip y0 y1 s2 h))).
Definition signs : list comparison := [Lt; Eq; Gt].
Lemma in_signs : forall s, In s signs.
Proof. intros []; cbn; auto. Qed.
Lemma one_edge_all :
  forallb (fun x0 => forallb (fun x1 => forallb (fun y0 => forallb (fun y1 => forallb (fun A => forallb (fun B => forallb (fun C =>
  forallb (fun h => forallb (fun s1 => forallb (fun s2 => one_edge x0 x1 y0 y1 A B C h s1 s2) signs) signs) signs) signs) signs) signs) signs) signs) signs) signs = true.
Proof. vm_compute. reflexivity. Qed.
Lemma all_signs : forall f, forallb f signs = true -> forall s, f s = true.
Proof. intros f H s. rewrite forallb_forall in H. apply H, in_signs. Qed.
Lemma one_edge_true : forall x0 x1 y0 y1 A B C h s1 s2, one_edge x0 x1 y0 y1 A B C h s1 s2 = true.
Proof.
  intros. pose proof (all_signs _ one_edge_all x0) as H. cbv beta in H.
  pose proof (all_signs _ H x1) as H1. cbv beta in H1. pose proof (all_signs _ H1 y0) as H2. cbv beta in H2.
  pose proof (all_signs _ H2 y1) as H3. cbv beta in H3. pose proof (all_signs _ H3 A) as H4. cbv beta in H4.
  pose proof (all_signs _ H4 B) as H5. cbv beta in H5. pose proof (all_signs _ H5 C) as H6. cbv beta in H6.
  pose proof (all_signs _ H6 h) as H7. cbv beta in H7. pose proof (all_signs _ H7 s1) as H8. cbv beta in H8.
  exact (all_signs _ H8 s2).
Qed.

Definition crossb (p q : pt2) (e : pt2 * pt2) : bool :=
  cross_s (sg (orient p q (fst e))) (sg (orient p q (snd e))) (sg (orient (fst e) (snd e) p)) (sg (orient (fst e) (snd e) q)).
Definition rayb (p : pt2) (e : pt2 * pt2) : bool :=
  rays (sg (Y (fst e) - Y p)) (sg (Y (snd e) - Y p)) (sg (orient (fst e) (snd e) p)).
Definition stripb (p q a : pt2) : bool := strip (sg (Y a - Y p)) (sg (Y a - Y q)) (sg (orient p q a)) (sg (Y q - Y p)).
Lemma ceqb_neq : forall a b, a <> b -> ceqb a b = false.
Proof. intros [] [] H; congruence || reflexivity. Qed.
Lemma sg_neq0 : forall x, x <> 0 -> sg x <> Eq.
Proof. intros x H E. destruct (sg_cases x) as [[S Hx]|[[S Hx]|[S Hx]]]; rewrite S in E; try discriminate. contradiction. Qed.
Lemma sg_opposite : forall x y, x <> 0 -> y <> 0 -> sg x <> sg y -> opposite x y.
Proof.
  intros x y Hx Hy H. destruct (sg_cases x) as [[S X1]|[[S X1]|[S X1]]]; destruct (sg_cases y) as [[T Y1]|[[T Y1]|[T Y1]]]; try contradiction;
    rewrite S, T in H; try congruence; [left|right]; lra.
Qed.
(** Moving a point from p to q changes whether the edge meets the ray if the edge is crossed,
    up to a term that depends on the two ends of the edge alike. *)
Lemma edge_step : forall p q a b, orient p q a <> 0 -> orient p q b <> 0 ->
  (opposite (orient p q a) (orient p q b) -> orient a b p <> 0 /\ orient a b q <> 0) ->
  xorb (xorb (rayb p (a, b)) (rayb q (a, b))) (crossb p q (a, b)) = xorb (stripb p q a) (stripb p q b).
Proof.
  intros p q a b Ha Hb Ho.
  pose proof (one_edge_true (sg (Y a - Y p)) (sg (Y a - Y q)) (sg (Y b - Y p)) (sg (Y b - Y q)) (sg (orient a b p)) (sg (orient a b q))
    (sg (Y b - Y a)) (sg (Y q - Y p)) (sg (orient p q a)) (sg (orient p q b))) as H.
  unfold one_edge in H. rewrite <- !sg_mul in H. rewrite !sg_may in H by (unfold orient, X, Y; ring).
  rewrite !(ceqb_neq (sg (orient p q _)) Eq) in H by (now apply sg_neq0).
  assert (N : ceqb (sg (Y q - Y p)) Eq && ceqb (sg (Y a - Y p)) Eq = false).
  { destruct (sg_cases (Y q - Y p)) as [[S1 X1]|[[S1 X1]|[S1 X1]]]; rewrite S1; try reflexivity.
    destruct (sg_cases (Y a - Y p)) as [[S2 X2]|[[S2 X2]|[S2 X2]]]; rewrite S2; try reflexivity.
    exfalso. apply Ha. unfold orient, Y in *. rewrite X1, X2. ring. }
  rewrite N in H. cbn [negb andb] in H.
  assert (I : implb (negb (ceqb (sg (orient p q a)) (sg (orient p q b)))) (negb (ceqb (sg (orient a b p)) Eq) && negb (ceqb (sg (orient a b q)) Eq)) = true).
  { destruct (ceqb (sg (orient p q a)) (sg (orient p q b))) eqn:E; [reflexivity|].
    assert (O : opposite (orient p q a) (orient p q b)). { apply sg_opposite; auto. intros F. rewrite F in E. destruct (sg (orient p q b)); discriminate. }
    destruct (Ho O) as [H1 H2]. rewrite !ceqb_neq by (now apply sg_neq0). reflexivity. }
  rewrite I in H. cbn [implb andb] in H. apply eqb_prop in H. exact H.
Qed.

(** ** Parity *)
Definition par {A} (f : A -> bool) (l : list A) : bool := fold_right xorb false (map f l).
Lemma odd_filter : forall {A} (f : A -> bool) l, Nat.odd (length (filter f l)) = par f l.
Proof.
  intros A f l. unfold par. induction l as [|a l IH]; [reflexivity|]. cbn [filter map fold_right]. rewrite <- IH.
  destruct (f a); cbn [length]; [|now destruct (Nat.odd _)]. rewrite Nat.odd_succ, <- Nat.negb_odd. now destruct (Nat.odd _).
Qed.
Lemma par_xor : forall {A} (f g : A -> bool) l, par (fun x => xorb (f x) (g x)) l = xorb (par f l) (par g l).
Proof.
  intros A f g l. unfold par. induction l as [|a l IH]; [reflexivity|]. cbn [map fold_right]. rewrite IH.
  destruct (f a), (g a), (fold_right xorb false (map f l)), (fold_right xorb false (map g l)); reflexivity.
Qed.
Lemma par_ext : forall {A} (f g : A -> bool) l, (forall x, In x l -> f x = g x) -> par f l = par g l.
Proof. intros A f g l H. unfold par. f_equal. now apply map_ext_in. Qed.
Lemma par_false : forall {A} (f : A -> bool) l, (forall x, In x l -> f x = false) -> par f l = false.
Proof.
  intros A f l H. rewrite (par_ext f (fun _ => false)) by exact H. unfold par. clear H. induction l as [|a l IH]; [reflexivity|]. cbn. now rewrite IH.
Qed.
Lemma par_perm : forall {A} (f : A -> bool) l l', Permutation l l' -> par f l = par f l'.
Proof.
  intros A f l l' H. unfold par. induction H; cbn; try congruence. destruct (f x), (f y), (fold_right xorb false (map f l)); reflexivity.
Qed.
Lemma par_chain : forall (g : pt2 -> bool) l a, par (fun e : pt2 * pt2 => xorb (g (fst e)) (g (snd e))) (chain a l) = xorb (g a) (g (last l a)).
Proof.
  intros g l. induction l as [|b l IH]; intros a; [unfold par; cbn; now destruct (g a)|]. cbn [chain]. rewrite last_cons. unfold par in *. cbn [map fold_right fst snd]. rewrite IH.
  destruct (g a), (g b), (g (last l b)); reflexivity.
Qed.
Lemma par_potential : forall (g : pt2 -> bool) l, par (fun e : pt2 * pt2 => xorb (g (fst e)) (g (snd e))) (edges l) = false.
Proof.
  intros g [|a t]; [reflexivity|]. unfold edges. rewrite par_chain. rewrite (last_indep (a :: t) (last (a :: t) a) a) by discriminate. apply xorb_nilpotent.
Qed.

Lemma low_spec : forall x y, low (sg (x - y)) = Rleb x y.
Proof.
  intros x y. destruct (sg_cases (x - y)) as [[-> H]|[[-> H]|[-> H]]]; cbn [low]; symmetry; [apply Rleb_true; lra|apply Rleb_true; lra|apply Rleb_false; lra].
Qed.
Lemma ceqb_Gt : forall x, ceqb (sg x) Gt = Rltb 0 x.
Proof. intros x. destruct (sg_cases x) as [[-> H]|[[-> H]|[-> H]]]; cbn [ceqb]; symmetry; [apply Rltb_false; lra|apply Rltb_false; lra|apply Rltb_true; lra]. Qed.
Lemma ceqb_Lt : forall x, ceqb (sg x) Lt = Rltb x 0.
Proof. intros x. destruct (sg_cases x) as [[-> H]|[[-> H]|[-> H]]]; cbn [ceqb]; symmetry; [apply Rltb_true; lra|apply Rltb_false; lra|apply Rltb_false; lra]. Qed.
Lemma Rltb_iff : forall a b c d, (a < b <-> c < d) -> Rltb a b = Rltb c d.
Proof.
  intros a b c d H. destruct (Rltb c d) eqn:E; [apply Rltb_true in E; apply Rltb_true; tauto|]. apply Rltb_false in E. apply Rltb_false. destruct (Rle_lt_dec b a); [assumption|]. apply H in r. lra.
Qed.
Lemma rayb_meets : forall p e, rayb p e = meets_ray p e.
Proof.
  intros p [a b]. unfold rayb, meets_ray, rays. cbn [fst snd]. rewrite !low_spec, ceqb_Gt, ceqb_Lt. unfold Y.
  destruct (Rleb (snd a) (snd p)) eqn:Ea; destruct (Rleb (snd b) (snd p)) eqn:Eb; cbn [negb andb orb xorb]; try reflexivity.
  - apply Rleb_true in Ea. apply Rleb_false in Eb. rewrite orb_false_r. apply Rltb_iff.
    replace (orient a b p) with ((snd b - snd a) * (fst a + (snd p - snd a) / (snd b - snd a) * (fst b - fst a) - fst p)) by (unfold orient; field; lra).
    split; intros H.
    + apply Rmult_lt_reg_l with (r := snd b - snd a) in H || idtac. nra.
    + apply Rmult_lt_0_compat; lra.
  - apply Rleb_false in Ea. apply Rleb_true in Eb. apply Rltb_iff.
    replace (orient a b p) with (- ((snd a - snd b) * (fst a + (snd p - snd a) / (snd b - snd a) * (fst b - fst a) - fst p))) by (unfold orient; field; lra).
    split; intros H.
    + nra.
    + assert (0 < (snd a - snd b) * (fst a + (snd p - snd a) / (snd b - snd a) * (fst b - fst a) - fst p)) by (apply Rmult_lt_0_compat; lra). lra.
Qed.
Lemma even_odd_par : forall l p, even_odd l p = par (rayb p) (edges l).
Proof. intros l p. unfold even_odd. rewrite odd_filter. apply par_ext. intros e _. symmetry. apply rayb_meets. Qed.

(** an edge that the segment tells apart *)
Definition apart (p q : pt2) (e : pt2 * pt2) : Prop :=
  orient p q (fst e) <> 0 /\ orient p q (snd e) <> 0 /\
  (opposite (orient p q (fst e)) (orient p q (snd e)) -> orient (fst e) (snd e) p <> 0 /\ orient (fst e) (snd e) q <> 0).
Lemma clear_apart : forall eps p q e, 0 < eps -> clear eps p q e -> apart p q e.
Proof.
  intros eps p q e He [H1 [H2 H3]]. assert (N : forall x, eps <= Rabs x -> x <> 0) by (intros x Hx ->; rewrite Rabs_R0 in Hx; lra).
  split; [auto|]. split; [auto|]. intros O. destruct (H3 O). auto.
Qed.
Lemma even_odd_step : forall l p q, (forall e, In e (edges l) -> apart p q e) ->
  xorb (even_odd l p) (even_odd l q) = par (crossb p q) (edges l).
Proof.
  intros l p q H. rewrite !even_odd_par. rewrite <- par_xor.
  assert (E : xorb (par (fun e => xorb (rayb p e) (rayb q e)) (edges l)) (par (crossb p q) (edges l)) = false).
  { rewrite <- par_xor. rewrite <- (par_potential (stripb p q) l). apply par_ext. intros [a b] He. destruct (H _ He) as [H1 [H2 H3]]. cbn [fst snd] in *. now apply edge_step. }
  now apply xorb_eq.
Qed.
Lemma sg_opp : forall x, ceqb (sg x) Lt = true <-> x < 0.
Proof. intros x. rewrite ceqb_Lt. apply Rltb_true. Qed.
Lemma mul_opposite : forall x y, x * y < 0 <-> opposite x y.
Proof. intros x y. unfold opposite. split; [|nra]. intros H. destruct (Rtotal_order x 0) as [E|[E|E]]; [left; nra|subst; nra|right; nra]. Qed.
Lemma crossb_crosses : forall p q e, crossb p q e = true <-> crosses p q e.
Proof. intros p q e. unfold crossb, cross_s, crosses. rewrite <- !sg_mul, andb_true_iff, !sg_opp, !mul_opposite. tauto. Qed.

(** Points separated from the corners by a line are outside. *)
Lemma meets_ray_z : forall p a b : pt2, Rleb (snd a) (snd p) <> Rleb (snd b) (snd p) ->
  exists t, 0 <= t <= 1 /\ fst a + (snd p - snd a) / (snd b - snd a) * (fst b - fst a) = fst (seg_at a b t) /\ snd (seg_at a b t) = snd p.
Proof.
  intros p a b H. exists ((snd p - snd a) / (snd b - snd a)).
  assert (D : (snd a <= snd p < snd b) \/ (snd b <= snd p < snd a)).
  { destruct (Rleb (snd a) (snd p)) eqn:E1; destruct (Rleb (snd b) (snd p)) eqn:E2; try congruence; rewrite ?Rleb_true, ?Rleb_false in *; lra. }
  split; [|split; [reflexivity|cbn; field; lra]].
  destruct D as [D|D].
  - split; [apply Rmult_le_pos; [lra|]; left; apply Rinv_0_lt_compat; lra|]. apply Rmult_le_reg_r with (snd b - snd a); [lra|]. unfold Rdiv. rewrite Rmult_assoc, Rinv_l by lra. lra.
  - replace ((snd p - snd a) / (snd b - snd a)) with ((snd a - snd p) / (snd a - snd b)) by (field; lra).
    split; [apply Rmult_le_pos; [lra|]; left; apply Rinv_0_lt_compat; lra|]. apply Rmult_le_reg_r with (snd a - snd b); [lra|]. unfold Rdiv. rewrite Rmult_assoc, Rinv_l by lra. lra.
Qed.
Lemma even_odd_separated : forall (l : list pt2) (p : pt2) nx ny, (forall v, In v l -> 0 < nx * (fst v - fst p) + ny * (snd v - snd p)) -> even_odd l p = false.
Proof.
  intros l p nx ny H. unfold even_odd. rewrite odd_filter.
  assert (Z : forall e, In e (edges l) -> Rleb (snd (fst e)) (snd p) <> Rleb (snd (snd e)) (snd p) ->
     0 < nx * (fst (fst e) + (snd p - snd (fst e)) / (snd (snd e) - snd (fst e)) * (fst (snd e) - fst (fst e)) - fst p)).
  { intros [a b] He D. destruct (edges_In _ _ He) as [Ia Ib]. apply H in Ia. apply H in Ib. cbn [fst snd] in *.
    destruct (meets_ray_z p a b D) as [t [Ht [E1 E2]]]. rewrite E1. cbn [seg_at fst snd] in *. rewrite <- E2 in Ia, Ib. rewrite <- E2 in E2.
    assert (0 < (1 - t) * (nx * (fst a - fst p) + ny * (snd a - (snd a + t * (snd b - snd a)))) + t * (nx * (fst b - fst p) + ny * (snd b - (snd a + t * (snd b - snd a))))).
    { destruct (Rle_lt_dec t (1 / 2)); [apply Rplus_lt_le_0_compat; [apply Rmult_lt_0_compat; lra|apply Rmult_le_pos; lra]|apply Rplus_le_lt_0_compat; [apply Rmult_le_pos; lra|apply Rmult_lt_0_compat; lra]]. }
    lra. }
  destruct (Rle_lt_dec nx 0) as [N|N].
  - apply par_false. intros [a b] He. specialize (Z _ He). cbn [fst snd] in Z. unfold meets_ray.
    destruct (xorb (Rleb (snd a) (snd p)) (Rleb (snd b) (snd p))) eqn:E; [|reflexivity]. cbn [andb]. apply Rltb_false.
    assert (D : Rleb (snd a) (snd p) <> Rleb (snd b) (snd p)) by (intros F; rewrite F, xorb_nilpotent in E; discriminate).
    specialize (Z D). nra.
  - rewrite <- (par_potential (fun v => Rleb (snd v) (snd p)) l). apply par_ext. intros [a b] He. specialize (Z _ He). cbn [fst snd] in *. unfold meets_ray.
    destruct (xorb (Rleb (snd a) (snd p)) (Rleb (snd b) (snd p))) eqn:E; [|reflexivity]. cbn [andb]. apply Rltb_true.
    assert (D : Rleb (snd a) (snd p) <> Rleb (snd b) (snd p)) by (intros F; rewrite F, xorb_nilpotent in E; discriminate).
    specialize (Z D). nra.
Qed.

(** ** Convex polygons *)
Lemma common_margin : forall {A} (f : A -> R) l, (forall x, In x l -> 0 < f x) -> exists m, 0 < m /\ forall x, In x l -> m <= f x.
Proof.
  intros A f l. induction l as [|a l IH]; intros H; [exists 1; split; [lra|intros x []]|].
  destruct IH as [m [Hm I]]; [intros; apply H; now right|]. specialize (H a (or_introl eq_refl)).
  exists (Rmin m (f a)). split; [now apply Rmin_glb_lt|]. intros x [<-|Hx]; [apply Rmin_r|]. apply Rle_trans with m; [apply Rmin_l|auto].
Qed.
Lemma map_snd_chain : forall {A} (l : list A) a, map snd (chain a l) = l.
Proof. intros A l. induction l as [|b l IH]; intros a; [reflexivity|]. cbn. now rewrite IH. Qed.
Lemma map_snd_edges : forall {A} (l : list A), map snd (edges l) = l.
Proof. intros A [|a l]; [reflexivity|]. unfold edges. apply map_snd_chain. Qed.
Lemma NoDup_edges : forall {A} (l : list A), NoDup l -> NoDup (edges l).
Proof. intros A l H. apply (NoDup_map_inv snd). now rewrite map_snd_edges. Qed.
Lemma fst_inj_edges : forall (l : list pt2), NoDup l -> forall a b d, In (a, b) (edges l) -> In (a, d) (edges l) -> b = d.
Proof.
  intros l N.
  assert (P : NoDup (map fst (edges l))).
  { apply (Permutation_NoDup (l := l)); [|exact N]. destruct l as [|a t]; [apply Permutation_refl|].
    assert (G : forall m x, map (@fst pt2 pt2) (chain x m) ++ [last m x] = x :: m).
    { induction m as [|b m IH]; intros x; [reflexivity|]. cbn [chain map fst]. rewrite last_cons. cbn [app]. f_equal. apply IH. }
    unfold edges. specialize (G (a :: t) (last (a :: t) a)). rewrite (last_indep (a :: t) (last (a :: t) a) a) in G by discriminate.
    apply (Permutation_cons_inv (a := last (a :: t) a)). rewrite <- G. apply Permutation_app_comm. }
  intros a b d H1 H2. clear N. induction (edges l) as [|[u v] m IH]; [destruct H1|]. cbn in P. inversion P as [|x y Q1 Q2]; subst.
  destruct H1 as [E1|H1]; destruct H2 as [E2|H2].
  - congruence.
  - injection E1 as -> ->. exfalso. apply Q1. apply in_map_iff. now exists (a, d).
  - injection E2 as -> ->. exfalso. apply Q1. apply in_map_iff. now exists (a, b).
  - auto.
Qed.
Lemma filter_none : forall {A} (f : A -> bool) l, (forall x, In x l -> f x = false) -> filter f l = [].
Proof. intros A f l H. induction l as [|a l IH]; [reflexivity|]. cbn [filter]. rewrite (H a (or_introl eq_refl)). apply IH. intros x Hx. apply H. now right. Qed.
Lemma filter_one : forall {A} (f : A -> bool) l x, NoDup l -> In x l -> f x = true -> (forall y, In y l -> f y = true -> y = x) -> length (filter f l) = 1%nat.
Proof.
  intros A f l x N Hx Fx U. induction l as [|a l IH]; [destruct Hx|]. inversion N as [|? ? N1 N2]; subst. cbn [filter].
  destruct Hx as [<-|Hx].
  - rewrite Fx. cbn [length]. f_equal. replace (filter f l) with (@nil A); [reflexivity|]. symmetry.
    apply filter_none. intros b Hb. destruct (f b) eqn:E; [|reflexivity]. exfalso. apply N1. rewrite <- (U b (or_intror Hb) E). exact Hb.
  - destruct (f a) eqn:E.
    + exfalso. apply N1. rewrite (U a (or_introl eq_refl) E). exact Hx.
    + apply IH; auto. intros y Hy. apply U. now right.
Qed.
Lemma Zsum_nonzero : forall {A} (f : A -> Z) l, Zsum (map f l) <> 0%Z -> exists x, In x l /\ f x <> 0%Z.
Proof.
  intros A f l. induction l as [|a l IH]; intros H; [now contradict H|]. destruct (Z.eq_dec (f a) 0) as [E|E].
  - destruct IH as [x [Hx Fx]]; [|exists x; split; [now right|exact Fx]]. cbn [map Zsum fold_right] in H. unfold Zsum. lia.
  - exists a. split; [now left|exact E].
Qed.
Lemma convex_convex : forall l, strictly_convex l -> convex_ccw l.
Proof.
  intros l [_ H] e v He Hv. destruct (edges_In l e He) as [I1 I2].
  assert (D : forall x y : pt2, {x = y} + {x <> y}). { intros [a b] [c d]. destruct (Req_EM_T a c); destruct (Req_EM_T b d); subst; try (left; reflexivity); right; congruence. }
  destruct (D v (fst e)) as [->|N1]; [unfold orient; lra|]. destruct (D v (snd e)) as [->|N2]; [unfold orient; lra|]. left. now apply H.
Qed.
Lemma even_odd_convex : forall l p, l <> [] -> strictly_convex l -> (forall e, In e (edges l) -> 0 < orient (fst e) (snd e) p) -> even_odd l p = true.
Proof.
  intros l p Hl Hc Hp.
  destruct (common_margin (fun e => orient (fst e) (snd e) p) (edges l) Hp) as [m [Hm Hme]].
  pose proof (inside_strict_proof m l p Hm Hl Hme) as W. rewrite inside_eq in W. destruct (existsb _ _); [discriminate|].
  destruct (Z.eqb_spec (Zsum (map (wcontrib m p) (edges l))) 0) as [?|Z]; [discriminate|].
  destruct (Zsum_nonzero _ _ Z) as [e0 [I0 F0]].
  (* an edge that contributes goes upwards *)
  assert (Up : Y (fst e0) <= Y p < Y (snd e0)).
  { unfold wcontrib in F0. destruct (Rleb (Y (fst e0)) (Y p)) eqn:E1.
    - apply Rleb_true in E1. destruct (Rltb (Y p) (Y (snd e0))) eqn:E2; [|congruence]. apply Rltb_true in E2. lra.
    - rewrite is_left_tri in F0 by exact Hm. rewrite (proj2 (tri_pos m _ Hm) (Hme _ I0)) in F0. exfalso. apply F0. destruct (Rleb (Y (snd e0)) (Y p)); reflexivity. }
  assert (Ray : forall e, In e (edges l) -> meets_ray p e = true -> Y (fst e) <= Y p < Y (snd e)).
  { intros e He M. rewrite <- rayb_meets in M. unfold rayb, rays in M. rewrite !low_spec, ceqb_Gt, ceqb_Lt in M. specialize (Hp e He).
    rewrite (proj2 (Rltb_false (orient (fst e) (snd e) p) 0)) in M by lra. rewrite andb_false_r, orb_false_r in M.
    apply andb_true_iff in M. destruct M as [M _]. apply andb_true_iff in M. destruct M as [M1 M2]. apply Rleb_true in M1. apply negb_true_iff, Rleb_false in M2. lra. }
  assert (M0 : meets_ray p e0 = true).
  { rewrite <- rayb_meets. unfold rayb, rays. rewrite !low_spec, ceqb_Gt. rewrite (proj2 (Rltb_true _ _) (Hp e0 I0)).
    rewrite (proj2 (Rleb_true _ _)) by lra. rewrite (proj2 (Rleb_false _ _)) by lra. reflexivity. }
  unfold even_odd. rewrite (filter_one _ _ e0); [reflexivity|apply NoDup_edges, Hc|exact I0|exact M0|].
  intros f If Mf. pose proof (Ray f If Mf) as Uf. clear Ray W Z F0 M0 Mf.
  destruct e0 as [a b]. destruct f as [c d]. cbn [fst snd] in *.
  destruct (edges_In _ _ I0) as [Ia Ib]. destruct (edges_In _ _ If) as [Ic Id]. cbn [fst snd] in *.
  pose proof (convex_convex l Hc) as Cv.
  pose proof (Cv _ _ I0 Ic) as O1. pose proof (Cv _ _ I0 Id) as O2. pose proof (Cv _ _ If Ia) as O3. pose proof (Cv _ _ If Ib) as O4. cbn [fst snd] in *.
  (* heights over p *)
  set (ya := Y a - Y p). set (yb := Y b - Y p). set (yc := Y c - Y p). set (yd := Y d - Y p).
  assert (Ha : ya <= 0) by (unfold ya; lra). assert (Hb : 0 < yb) by (unfold yb; lra). assert (Hcc : yc <= 0) by (unfold yc; lra). assert (Hd : 0 < yd) by (unfold yd; lra).
  (* orientation of the points where the edges meet the height of p *)
  assert (S1 : orient a b c * yd - orient a b d * yc = - ((yd - yc) * (yb - ya)) * ((X c * yd - X d * yc) / (yd - yc) - (X a * yb - X b * ya) / (yb - ya))).
  { unfold orient. fold (X a) (X b) (X c) (X d) (Y a) (Y b) (Y c) (Y d). unfold ya, yb, yc, yd in *. field. lra. }
  assert (S2 : orient c d a * yb - orient c d b * ya = ((yd - yc) * (yb - ya)) * ((X c * yd - X d * yc) / (yd - yc) - (X a * yb - X b * ya) / (yb - ya))).
  { unfold orient. fold (X a) (X b) (X c) (X d) (Y a) (Y b) (Y c) (Y d). unfold ya, yb, yc, yd in *. field. lra. }
  assert (E : orient a b c * yd - orient a b d * yc = 0 ).
  { assert (0 <= orient a b c * yd - orient a b d * yc) by nra. assert (0 <= orient c d a * yb - orient c d b * ya) by nra. lra. }
  assert (E1 : orient a b c = 0) by nra.
  assert (Ec : c = a).
  { assert (D : forall x y : pt2, {x = y} + {x <> y}). { intros [x1 x2] [y1 y2]. destruct (Req_EM_T x1 y1); destruct (Req_EM_T x2 y2); subst; try (left; reflexivity); right; congruence. }
    destruct (D c a) as [|N1]; [assumption|]. destruct (D c b) as [N2|N2]; [subst c; unfold yc, yb in *; lra|].
    pose proof (proj2 Hc _ _ I0 Ic N1 N2) as Q. cbn [fst snd] in Q. lra. }
  subst c. f_equal. symmetry. apply (fst_inj_edges l (proj1 Hc) a b d I0 If).
Qed.
