(* C75: rotations by Euler angles. *)
From Coq Require Import Reals List ZArith String Bool Lia Lra.
From Verif Require Import Base Vec GeometryModel SphereModel ArrayModel DirectModel.
From Verif Require Import BaseProofs.
Import ListNotations.
Local Open Scope R_scope.

Lemma some_eq : forall A (a b : A), Some a = Some b -> a = b.
Proof. congruence. Qed.
Lemma three : forall p : list R, List.length p = 3%nat -> p = [nth 0 p 0; nth 1 p 0; nth 2 p 0].
Proof. intros [|a [|b [|c [|]]]] H; try discriminate. reflexivity. Qed.
(* A matrix whose action is a proper rotation: square, rows orthonormal, and
   compatible with the cross product. *)
Definition square (m : list (list R)) : Prop := List.length m = 3%nat /\ forall r, In r m -> List.length r = 3%nat.
Definition act (m : list (list R)) (p : list R) : list R := map (fun r => dot r p) m.
Definition proper_rotation (m : list (list R)) : Prop := square m /\
  (forall p q, List.length p = 3%nat -> List.length q = 3%nat ->
     dot (act m p) (act m q) = dot p q /\ cross3 (act m p) (act m q) = act m (cross3 p q)) /\
  (forall p, List.length p = 3%nat -> act (transpose3 m) (act m p) = p /\ act m (act (transpose3 m) p) = p).

Lemma square3 : forall m, square m -> exists a b c d e f g h i, m = [[a; b; c]; [d; e; f]; [g; h; i]].
Proof.
  intros m [Hm Hr]. destruct m as [|r1 [|r2 [|r3 [|]]]]; try discriminate.
  pose proof (three r1 (Hr r1 ltac:(now left))) as E1.
  pose proof (three r2 (Hr r2 ltac:(right; now left))) as E2.
  pose proof (three r3 (Hr r3 ltac:(right; right; now left))) as E3. rewrite E1, E2, E3. repeat eexists.
Qed.
Lemma act_mul : forall a b p, square a -> square b -> List.length p = 3%nat -> act (matmul3 a b) p = act a (act b p).
Proof.
  intros a b p Ha Hb Hp. apply square3 in Ha as (a1 & a2 & a3 & a4 & a5 & a6 & a7 & a8 & a9 & ->).
  apply square3 in Hb as (b1 & b2 & b3 & b4 & b5 & b6 & b7 & b8 & b9 & ->). rewrite (three p Hp).
  unfold act, matmul3, transpose3, column, dot, map2. cbn. f_equal; [ring|]. f_equal; [ring|]. f_equal. ring.
Qed.
Lemma act_mul_t : forall a b p, square a -> square b -> List.length p = 3%nat ->
  act (transpose3 (matmul3 a b)) p = act (transpose3 b) (act (transpose3 a) p).
Proof.
  intros a b p Ha Hb Hp. apply square3 in Ha as (a1 & a2 & a3 & a4 & a5 & a6 & a7 & a8 & a9 & ->).
  apply square3 in Hb as (b1 & b2 & b3 & b4 & b5 & b6 & b7 & b8 & b9 & ->). rewrite (three p Hp).
  unfold act, matmul3, transpose3, column, dot, map2. cbn. f_equal; [ring|]. f_equal; [ring|]. f_equal. ring.
Qed.
Lemma square_mul : forall a b, square a -> square (matmul3 a b).
Proof.
  intros a b [Ha _]. unfold matmul3. split; [rewrite map_length; exact Ha|]. intros r Hr. apply in_map_iff in Hr as [x [<- _]].
  rewrite map_length. reflexivity.
Qed.
Lemma square_t : forall a, square a -> square (transpose3 a).
Proof.
  intros a [Ha _]. split; [reflexivity|]. intros r Hr. cbn in Hr. unfold column in Hr. destruct Hr as [<-|[<-|[<-|[]]]]; rewrite map_length; exact Ha.
Qed.
Lemma act_length : forall m p, square m -> List.length (act m p) = 3%nat.
Proof. intros m p [H _]. unfold act. now rewrite map_length. Qed.
Lemma cross_length : forall p q, List.length p = 3%nat -> List.length q = 3%nat -> List.length (cross3 p q) = 3%nat.
Proof. intros p q Hp Hq. rewrite (three p Hp), (three q Hq). reflexivity. Qed.
Lemma proper_mul : forall a b, proper_rotation a -> proper_rotation b -> proper_rotation (matmul3 a b).
Proof.
  intros a b [Sa [Pa Ia]] [Sb [Pb Ib]]. split; [now apply square_mul|]. split.
  - intros p q Hp Hq. rewrite !act_mul; auto using cross_length. destruct (Pa (act b p) (act b q)) as [A1 A2]; [now apply act_length|now apply act_length|].
    destruct (Pb p q Hp Hq) as [B1 B2]. rewrite A1, B1, A2, B2. split; [reflexivity|]. reflexivity.
  - intros p Hp. rewrite act_mul, act_mul_t, act_mul, act_mul_t; auto; try apply act_length; auto; try (apply square_mul; auto); try (apply square_t; auto; apply square_mul; auto).
    destruct (Ia (act b p) (act_length b p Sb)) as [I1 _]. rewrite I1.
    destruct (Ib (act (transpose3 a) p)) as [_ I2]; [apply act_length; now apply square_t|]. rewrite I2.
    split; [apply Ib; exact Hp|apply Ia; exact Hp].
Qed.
Lemma sc : forall a, cos a * cos a = 1 - sin a * sin a.
Proof. intros a. pose proof (sin2_cos2 a) as H. unfold Rsqr in H. lra. Qed.
Lemma proper_make : forall a x m, make_rot_matrix a x = Some m -> proper_rotation m.
Proof.
  intros a x m H. pose proof (sc a) as Hs. set (c := cos a) in *. set (s := sin a) in *.
  assert (Hsq : square m).
  { destruct x as [|[|[|]]]; try discriminate; apply some_eq in H; subst m; (split; [reflexivity|]); intros r Hr; cbn in Hr; destruct Hr as [<-|[<-|[<-|[]]]]; reflexivity. }
  split; [exact Hsq|].
  split.
  - intros p q Hp Hq. rewrite (three p Hp), (three q Hq). set (p0 := nth 0 p 0). set (p1 := nth 1 p 0). set (p2 := nth 2 p 0).
    set (q0 := nth 0 q 0). set (q1 := nth 1 q 0). set (q2 := nth 2 q 0). clearbody p0 p1 p2 q0 q1 q2.
    destruct x as [|[|[|]]]; try discriminate; apply some_eq in H; subst m; fold c s;
      (split; [unfold act, dot, map2; cbn; ring [Hs]|]); unfold act, cross3, dot, map2; cbn.
    all: f_equal; [|f_equal; [|f_equal]]; ring [Hs].
  - intros p Hp. rewrite (three p Hp). set (p0 := nth 0 p 0). set (p1 := nth 1 p 0). set (p2 := nth 2 p 0). clearbody p0 p1 p2.
    destruct x as [|[|[|]]]; try discriminate; apply some_eq in H; subst m; fold c s; unfold act, transpose3, column, dot, map2; cbn;
      split; (f_equal; [|f_equal; [|f_equal]]); ring [Hs].
Qed.

Lemma proper_eye : proper_rotation eye3.
Proof.
  split; [split; [reflexivity|]; intros r Hr; cbn in Hr; destruct Hr as [<-|[<-|[<-|[]]]]; reflexivity|]. split.
  - intros p q Hp Hq. rewrite (three p Hp), (three q Hq). unfold act, eye3, dot, map2. cbn. split; [ring|].
    f_equal; [|f_equal; [|f_equal]]; ring.
  - intros p Hp. rewrite (three p Hp). unfold act, transpose3, column, eye3, dot, map2. cbn. split; (f_equal; [|f_equal; [|f_equal]]); ring.
Qed.
Lemma act_eye : forall p, List.length p = 3%nat -> act eye3 p = p.
Proof. intros p Hp. rewrite (three p Hp). unfold act, eye3, dot, map2. cbn. f_equal; [|f_equal; [|f_equal]]; ring. Qed.
Lemma compute_proper : forall l m0 m, proper_rotation m0 -> compute_matrix l m0 = Some m -> proper_rotation m.
Proof.
  induction l as [|[a x] l IH]; intros m0 m H0 H; cbn in H; [apply some_eq in H; now subst|].
  destruct (make_rot_matrix a x) as [r|] eqn:E; [|discriminate]. cbn in H. apply (IH _ _ (proper_mul _ _ (proper_make _ _ _ E) H0) H).
Qed.
Lemma compute_total : forall l m0, (forall a x, In (a, x) l -> (x <= 2)%nat) -> exists m, compute_matrix l m0 = Some m.
Proof.
  induction l as [|[a x] l IH]; intros m0 H; cbn; [eauto|].
  assert (Hx : (x <= 2)%nat) by (apply (H a x); now left). destruct x as [|[|[|]]]; try lia; cbn; apply IH; intros; apply (H a0 x); now right.
Qed.
Lemma axis_map_le : forall x n, axis_map x = Some n -> (n <= 2)%nat.
Proof.
  intros [s|z] n; cbn; intros H.
  - destruct (string_dec s "x"); [apply some_eq in H; subst; lia|]. destruct (string_dec s "y"); [apply some_eq in H; subst; lia|].
    destruct (string_dec s "z"); [apply some_eq in H; subst; lia|discriminate].
  - destruct (Z.eq_dec z 0); [apply some_eq in H; subst; lia|]. destruct (Z.eq_dec z 1); [apply some_eq in H; subst; lia|].
    destruct (Z.eq_dec z 2); [apply some_eq in H; subst; lia|discriminate].
Qed.
Lemma rotate_act : forall m p, List.length p = 3%nat -> rotate m p = Some (act m p).
Proof. intros m p H. unfold rotate. rewrite H. reflexivity. Qed.

(* The constructor accepts up to three angles with as many valid axes, and
   nothing else. *)
Theorem C75_accepts : forall angles order degrees,
  (exists m, rotation3d angles order degrees = Some m) <->
  (List.length angles <= 3)%nat /\ List.length order = List.length angles /\
  forall x, In x order -> In x [Letter "x"%string; Letter "y"%string; Letter "z"%string; Number 0; Number 1; Number 2].
Proof.
  intros angles order degrees. unfold rotation3d. set (ang := if degrees then map radians angles else angles).
  assert (La : List.length ang = List.length angles) by (subst ang; destruct degrees; [apply map_length|reflexivity]).
  assert (Hax : forall x, (exists n, axis_map x = Some n) <-> In x [Letter "x"%string; Letter "y"%string; Letter "z"%string; Number 0; Number 1; Number 2]).
  { intros [s|z]; cbn.
    - split.
      + intros [n H]. destruct (string_dec s "x") as [->|]; [auto|]. destruct (string_dec s "y") as [->|]; [auto|]. destruct (string_dec s "z") as [->|]; [auto 6|discriminate].
      + intros [E|[E|[E|[E|[E|[E|[]]]]]]]; try discriminate E; injection E as <-; cbn; eauto.
    - split.
      + intros [n H]. destruct (Z.eq_dec z 0) as [->|]; [auto 8|]. destruct (Z.eq_dec z 1) as [->|]; [auto 8|]. destruct (Z.eq_dec z 2) as [->|]; [auto 10|discriminate].
      + intros [E|[E|[E|[E|[E|[E|[]]]]]]]; try discriminate E; injection E as <-; cbn; eauto. }
  split.
  - intros [m H]. destruct (Nat.leb_spec (List.length angles) 3) as [Hl|]; [|discriminate].
    destruct (mapM axis_map order) as [o|] eqn:E; [|discriminate]. cbn in H.
    destruct (Nat.eqb_spec (List.length ang) (List.length o)) as [Ho|]; [|discriminate].
    split; [exact Hl|]. split; [rewrite <- (mapM_length _ _ _ E); lia|].
    intros x Hx. apply Hax. destruct (axis_map x) as [n|] eqn:Ex; [eauto|]. exfalso.
    destruct (in_split _ _ Hx) as [l1 [l2 ->]]. clear - E Ex. revert o E. induction l1 as [|y l1 IH]; intros o E; cbn in E.
    + rewrite Ex in E. discriminate.
    + destruct (axis_map y); [|discriminate]. cbn in E. destruct (mapM axis_map (l1 ++ x :: l2)); [|discriminate]. apply (IH l eq_refl).
  - intros [Hl [Ho Hx]]. rewrite (proj2 (Nat.leb_le _ _)) by lia.
    assert (E : exists o, mapM axis_map order = Some o /\ List.length o = List.length order /\ forall n, In n o -> (n <= 2)%nat).
    { clear - Hx Hax. induction order as [|x order IH]; [exists []; cbn; intuition|].
      destruct (proj2 (Hax x) (Hx x (or_introl eq_refl))) as [n Hn]. destruct IH as [o [E [L1 L2]]]; [intros; apply Hx; now right|].
      exists (n :: o). cbn. rewrite Hn, E. cbn. split; [reflexivity|]. split; [lia|]. intros k [<-|Hk]; [now apply (axis_map_le x)|now apply L2]. }
    destruct E as [o [-> [Lo Ho2]]]. cbn. rewrite (proj2 (Nat.eqb_eq _ _)) by lia.
    apply compute_total. intros a x Hin. apply Ho2. now apply in_combine_r in Hin.
Qed.

(* Every rotation preserves inner products and orientation (cross products), and
   rotate_transpose undoes it, in both orders. *)
Theorem C75_rotation : forall angles order degrees m, rotation3d angles order degrees = Some m ->
  forall p q, List.length p = 3%nat -> List.length q = 3%nat ->
  exists p' q', rotate m p = Some p' /\ rotate m q = Some q' /\ List.length p' = 3%nat /\
    dot p' q' = dot p q /\ rotate m (cross3 p q) = Some (cross3 p' q') /\
    rotate_transpose m p' = Some p /\ exists p'', rotate_transpose m p = Some p'' /\ rotate m p'' = Some p.
Proof.
  intros angles order degrees m H p q Hp Hq. unfold rotation3d in H. destruct (Nat.leb (List.length angles) 3); [|discriminate].
  destruct (mapM axis_map order) as [o|]; [|discriminate]. cbn in H. destruct (Nat.eqb _ _); [|discriminate].
  pose proof (compute_proper _ _ _ proper_eye H) as [S0 [P0 I0]].
  exists (act m p), (act m q). rewrite !rotate_act by auto using cross_length.
  destruct (P0 p q Hp Hq) as [P1 P2]. destruct (I0 p Hp) as [I1 I2].
  split; [reflexivity|]. split; [reflexivity|]. split; [now apply act_length|]. split; [exact P1|]. split; [now rewrite P2|].
  unfold rotate_transpose. rewrite !rotate_act by auto using act_length. split; [now rewrite I1|].
  exists (act (transpose3 m) p). split; [reflexivity|]. rewrite rotate_act by (apply act_length, square_t; exact S0). now rewrite I2.
Qed.

(* What a single rotation is: by the angle a, counter-clockwise about the axis
   (Rodrigues' formula). *)
Definition basis3 (n : nat) : list R := match n with 0%nat => [1; 0; 0] | 1%nat => [0; 1; 0] | _ => [0; 0; 1] end.
Definition turn (e : list R) (a : R) (p : list R) : list R :=
  vadd (vadd (vscal (cos a) p) (vscal (sin a) (cross3 e p))) (vscal ((1 - cos a) * dot e p) e).
Lemma act_make : forall a n m p, make_rot_matrix a n = Some m -> List.length p = 3%nat -> act m p = turn (basis3 n) a p.
Proof.
  intros a n m p H Hp. rewrite (three p Hp). unfold turn. destruct n as [|[|[|]]]; try discriminate; apply some_eq in H; subst m;
    unfold act, vadd, vscal, dot, map2; cbn; (f_equal; [|f_equal; [|f_equal]]); ring.
Qed.
(* The angles are applied in the order given. *)
Theorem C75_order : forall angles order (degrees : bool) m p, rotation3d angles order degrees = Some m -> List.length p = 3%nat ->
  rotate m p = Some (fold_left (fun p ax => turn (basis3 (match axis_map (snd ax) with Some n => n | None => 0%nat end)) (fst ax) p)
                               (combine (if degrees then map radians angles else angles) order) p).
Proof.
  intros angles order degrees m p H Hp. unfold rotation3d in H. destruct (Nat.leb (List.length angles) 3); [|discriminate].
  set (ang := if degrees then map radians angles else angles) in *.
  destruct (mapM axis_map order) as [o|] eqn:E; [|discriminate]. cbn in H. destruct (Nat.eqb_spec (List.length ang) (List.length o)) as [Hl|]; [|discriminate].
  assert (G : forall ang order o m0 m, mapM axis_map order = Some o -> List.length ang = List.length o -> square m0 ->
     compute_matrix (combine ang o) m0 = Some m -> act m p = fold_left (fun p ax => turn (basis3 (match axis_map (snd ax) with Some n => n | None => 0%nat end)) (fst ax) p) (combine ang order) (act m0 p)).
  { clear - Hp. induction ang as [|a ang IH]; intros order o m0 m E Hl H0 H.
    - cbn in H. apply some_eq in H. now subst.
    - destruct o as [|n o]; [discriminate|]. destruct order as [|x order]; [discriminate|]. cbn in E.
      destruct (axis_map x) as [n'|] eqn:Ex; [|discriminate]. cbn in E. destruct (mapM axis_map order) as [o'|] eqn:E'; [|discriminate]. cbn in E.
      injection E as -> ->. cbn [combine compute_matrix] in H. destruct (make_rot_matrix a n) as [r|] eqn:Er; [|discriminate]. cbn [bind] in H.
      pose proof (proper_make _ _ _ Er) as [Sr _]. cbn [combine fold_left fst snd].
      rewrite (IH order o _ _ E' ltac:(cbn in Hl; lia) (square_mul r m0 Sr) H). rewrite Ex. f_equal.
      rewrite act_mul by assumption. apply act_make; [exact Er|]. now apply act_length. }
  rewrite rotate_act by exact Hp. f_equal. rewrite (G ang order o eye3 m E Hl (proj1 proper_eye) H). now rewrite act_eye.
Qed.

(* A quarter turn about z and then one about x, in degrees: x goes to z. *)
Example C75_case : exists m, rotation3d [90; 90] [Letter "z"%string; Number 0] true = Some m /\ rotate m [1; 0; 0] = Some [0; 0; 1].
Proof.
  destruct (proj2 (C75_accepts [90; 90] [Letter "z"%string; Number 0] true)) as [m Hm].
  { split; [cbn; lia|]. split; [reflexivity|]. cbn. intros x [<-|[<-|[]]]; auto 6. }
  exists m. split; [exact Hm|]. rewrite (C75_order _ _ _ _ [1; 0; 0] Hm eq_refl). f_equal.
  cbn [map combine fold_left fst snd axis_map]. cbn. unfold turn, radians.
  replace (90 * PI / 180) with (PI / 2) by lra. rewrite cos_PI2, sin_PI2. unfold vadd, vscal, dot, map2. cbn.
  f_equal; [ring|]. f_equal; [ring|]. f_equal. ring.
Qed.
Print Assumptions C75_accepts.
Print Assumptions C75_rotation.
Print Assumptions C75_order.
