(* C72: the array geometries. *)
From Coq Require Import Reals List ZArith Lia Lra.
From Verif Require Import Base BaseProofs Vec Sum Cpx RirModel SphereModel ArrayModel SphereProps.
Import ListNotations.
Local Open Scope R_scope.

(* Distance in the plane, spelled out. *)
Definition plane_dist (p q : list R) : R :=
  sqrt ((nth 0 p 0 - nth 0 q 0) * (nth 0 p 0 - nth 0 q 0) + (nth 1 p 0 - nth 1 q 0) * (nth 1 p 0 - nth 1 q 0)).
(* [c] is the mean of the points. *)
Definition centroid (l : list (list R)) (cx cy : R) : Prop :=
  Rsum (map (fun p => nth 0 p 0) l) = INR (length l) * cx /\ Rsum (map (fun p => nth 1 p 0) l) = INR (length l) * cy.

Lemma bsum_INR : forall n, bsum n INR = INR n * (INR n - 1) / 2.
Proof. induction n as [|n IH]; [cbn; lra|]. cbn [bsum]. rewrite IH, S_INR. lra. Qed.
Lemma Rsum_tab : forall n (f : nat -> list R) k, Rsum (map (fun p => nth k p 0) (map f (seq 0 n))) = bsum n (fun i => nth k (f i) 0).
Proof. intros n f k. rewrite map_map, bsum_Rsum. reflexivity. Qed.
Lemma nth_tab : forall n (f : nat -> list R) i, (i < n)%nat -> nth i (map f (seq 0 n)) [] = f i.
Proof. intros n f i Hi. rewrite nth_indep with (d' := f 0%nat) by (rewrite map_length, seq_length; exact Hi).
  rewrite map_nth, seq_nth by exact Hi. reflexivity. Qed.
Lemma linear_nth : forall cx cy M phi d i, (i < M)%nat ->
  nth i (linear_2D_array [cx; cy] M phi d) [] =
  [cx + d * (INR i - (INR M - 1) / 2) * cos phi; cy + d * (INR i - (INR M - 1) / 2) * sin phi].
Proof. intros. unfold linear_2D_array. rewrite nth_tab by assumption. reflexivity. Qed.
Lemma linear_length : forall c M phi d, length (linear_2D_array c M phi d) = M.
Proof. intros. unfold linear_2D_array. now rewrite map_length, seq_length. Qed.
Lemma linear_sum : forall cx cy M phi d k, (k < 2)%nat ->
  Rsum (map (fun p => nth k p 0) (linear_2D_array [cx; cy] M phi d)) = INR M * nth k [cx; cy] 0.
Proof.
  intros cx cy M phi d k Hk. unfold linear_2D_array. rewrite Rsum_tab.
  transitivity (bsum M (fun i => nth k [cx; cy] 0 + d * nth k [cos phi; sin phi] 0 * (INR i - (INR M - 1) / 2))).
  { apply bsum_ext. intros i _. destruct k as [|[|]]; [| |lia]; cbn; lra. }
  rewrite bsum_plus, bsum_const, bsum_scal, bsum_minus, bsum_INR, bsum_const. lra.
Qed.
Lemma sqrt_sq_abs : forall x, sqrt (x * x) = Rabs x.
Proof. intros x. change (x * x) with (Rsqr x). apply sqrt_Rsqr_abs. Qed.
Lemma sc1 : forall a, cos a * cos a + sin a * sin a = 1.
Proof. intros a. pose proof (sin2_cos2 a) as H. unfold Rsqr in H. lra. Qed.

(* The linear array: M points, centred on the given centre, consecutive ones
   one step d along the direction phi from each other, so that any two are
   |i - j| |d| apart. *)
Theorem C72_linear : forall cx cy M phi d,
  let A := linear_2D_array [cx; cy] M phi d in
  length A = M /\ centroid A cx cy /\
  (forall i, (S i < M)%nat -> nth 0 (nth (S i) A []) 0 - nth 0 (nth i A []) 0 = d * cos phi /\
                              nth 1 (nth (S i) A []) 0 - nth 1 (nth i A []) 0 = d * sin phi) /\
  (forall i j, (i < M)%nat -> (j < M)%nat -> plane_dist (nth i A []) (nth j A []) = Rabs d * Rabs (INR i - INR j)).
Proof.
  intros cx cy M phi d A. split; [apply linear_length|]. split.
  { subst A. split; rewrite linear_length, linear_sum by lia; reflexivity. }
  split.
  - intros i Hi. subst A. rewrite !linear_nth by lia. cbn [nth]. rewrite S_INR. split; ring.
  - intros i j Hi Hj. subst A. rewrite !linear_nth by lia. unfold plane_dist. cbn [nth].
    rewrite <- Rabs_mult, <- sqrt_sq_abs. f_equal. pose proof (sc1 phi) as H.
    transitivity (d * (INR i - INR j) * (d * (INR i - INR j)) * (cos phi * cos phi + sin phi * sin phi)); [ring|rewrite H; ring].
Qed.

Lemma circular_nth : forall cx cy M phi0 r i, (i < M)%nat ->
  nth i (circular_2D_array [cx; cy] M phi0 r) [] =
  [cx + r * cos (INR i * 2 * PI / INR M + phi0); cy + r * sin (INR i * 2 * PI / INR M + phi0)].
Proof. intros. unfold circular_2D_array. rewrite nth_tab by assumption. reflexivity. Qed.
Lemma chord : forall a b, (cos a - cos b) * (cos a - cos b) + (sin a - sin b) * (sin a - sin b) = 4 * (sin ((a - b) / 2) * sin ((a - b) / 2)).
Proof.
  intros a b. pose proof (sc1 a) as Ha. pose proof (sc1 b) as Hb.
  assert (Hc : cos (a - b) = 1 - 2 * (sin ((a - b) / 2) * sin ((a - b) / 2))).
  { replace (cos (a - b)) with (cos (2 * ((a - b) / 2))) by (f_equal; lra). rewrite cos_2a_sin. ring. }
  rewrite cos_minus in Hc. lra.
Qed.

(* The circular array: M points at the radius from the centre, the first one at
   angle phi0, any two neighbours (the last and the first included) the same
   chord 2 |r| sin(pi/M) apart, and their mean is the centre as soon as there
   are two of them. *)
Theorem C72_circular : forall cx cy M phi0 r,
  let A := circular_2D_array [cx; cy] M phi0 r in
  length A = M /\
  (forall i, (i < M)%nat -> plane_dist (nth i A []) [cx; cy] = Rabs r) /\
  ((0 < M)%nat -> nth 0 A [] = [cx + r * cos phi0; cy + r * sin phi0]) /\
  (forall i, (i < M)%nat -> plane_dist (nth ((i + 1) mod M) A []) (nth i A []) = 2 * Rabs r * sin (PI / INR M)) /\
  ((2 <= M)%nat -> centroid A cx cy).
Proof.
  intros cx cy M phi0 r A. assert (Hlen : length A = M) by (subst A; unfold circular_2D_array; now rewrite map_length, seq_length).
  split; [exact Hlen|]. split; [|split; [|split]].
  - intros i Hi. subst A. rewrite circular_nth by assumption. unfold plane_dist. cbn [nth]. rewrite <- sqrt_sq_abs. f_equal.
    pose proof (sc1 (INR i * 2 * PI / INR M + phi0)) as H.
    match goal with |- context [cos ?a] => set (t := a) in * end.
    transitivity (r * r * (cos t * cos t + sin t * sin t)); [ring|rewrite H; ring].
  - intros H0. subst A. rewrite circular_nth by assumption. cbn [INR]. replace (0 * 2 * PI / INR M + phi0) with phi0; [reflexivity|].
    field. apply not_0_INR. lia.
  - intros i Hi. assert (HM : INR M <> 0) by (apply not_0_INR; lia). assert (HMp : 1 <= INR M) by (replace 1 with (INR 1) by reflexivity; apply le_INR; lia).
    subst A. rewrite !circular_nth by (try apply Nat.mod_upper_bound; lia). unfold plane_dist. cbn [nth].
    assert (Hmod : exists k : Z, INR ((i + 1) mod M) = INR i + 1 - IZR k * INR M).
    { exists (Z.of_nat ((i + 1) / M)). rewrite <- INR_IZR_INZ, <- mult_INR.
      pose proof (Nat.div_mod (i + 1) M ltac:(lia)) as E. apply (f_equal INR) in E.
      rewrite (plus_INR i 1), plus_INR, mult_INR in E. rewrite mult_INR. change (INR 1) with 1 in E. lra. }
    destruct Hmod as [k Hk]. rewrite Hk.
    set (t := INR i * 2 * PI / INR M + phi0).
    assert (Et : (INR i + 1 - IZR k * INR M) * 2 * PI / INR M + phi0 = (t + 2 * PI / INR M) + 2 * IZR (- k) * PI).
    { rewrite opp_IZR. subst t. field. exact HM. }
    rewrite Et. pose proof (cis_period (t + 2 * PI / INR M) (- k)) as Hp. injection Hp as Hp1 Hp2. rewrite Hp1, Hp2.
    transitivity (sqrt (r * r * (4 * (sin (PI / INR M) * sin (PI / INR M))))).
    + f_equal. pose proof (chord (t + 2 * PI / INR M) t) as Hc.
      replace ((t + 2 * PI / INR M - t) / 2) with (PI / INR M) in Hc by (field; exact HM). rewrite <- Hc. ring.
    + assert (Hs : 0 <= sin (PI / INR M)).
      { apply sin_ge_0; pose proof PI_RGT_0.
        - apply Rmult_le_pos; [lra|]. apply Rlt_le, Rinv_0_lt_compat. lra.
        - apply (Rmult_le_reg_r (INR M)); [lra|]. unfold Rdiv. rewrite Rmult_assoc, Rinv_l, Rmult_1_r by exact HM. nra. }
      replace (r * r * (4 * (sin (PI / INR M) * sin (PI / INR M)))) with ((r * (2 * sin (PI / INR M))) * (r * (2 * sin (PI / INR M)))) by ring.
      rewrite sqrt_sq_abs, Rabs_mult, (Rabs_pos_eq (2 * sin (PI / INR M))) by lra. ring.
  - intros H2. assert (HM : INR M <> 0) by (apply not_0_INR; lia).
    pose proof (omega_sum M 1 ltac:(lia)) as Hs.
    assert (Em : (1 mod Z.of_nat M =? 0)%Z = false) by (rewrite Z.mod_small by lia; reflexivity). rewrite Em in Hs.
    assert (Hz : csum M (fun i => (cos (INR i * 2 * PI / INR M + phi0), sin (INR i * 2 * PI / INR M + phi0))) = C0).
    { transitivity (csum M (fun i => Cmul (omega M (1 * Z.of_nat i)) (cis phi0))).
      - apply csum_ext. intros i _. unfold omega. rewrite <- cis_add. unfold cis.
        replace (2 * PI * IZR (1 * Z.of_nat i) / INR M) with (INR i * 2 * PI / INR M); [reflexivity|].
        rewrite Z.mul_1_l, <- INR_IZR_INZ. field. exact HM.
      - rewrite csum_scal_r, Hs. apply C_eq; cbn; ring. }
    injection Hz as Hz1 Hz2. cbn [fst snd] in *. unfold centroid. rewrite Hlen. subst A. unfold circular_2D_array. rewrite !Rsum_tab.
    split; cbn [nth vadd vscal map map2].
    + rewrite bsum_plus, bsum_const, bsum_scal, Hz1. lra.
    + rewrite bsum_plus, bsum_const, bsum_scal, Hz2. lra.
Qed.

Lemma nth_blocks : forall (B : list R -> list (list R)) N l i j, (forall c, In c l -> length (B c) = N) -> (i < length l)%nat -> (j < N)%nat ->
  nth (i * N + j) (concat (map B l)) [] = nth j (B (nth i l [])) [].
Proof.
  intros B N l. induction l as [|c l IH]; intros i j Hl Hi Hj; [cbn in Hi; lia|].
  cbn [map concat]. destruct i as [|i].
  - cbn [nth Nat.mul Nat.add]. rewrite app_nth1 by (rewrite Hl by (now left); exact Hj). reflexivity.
  - rewrite app_nth2; rewrite Hl by (now left); [|nia].
    replace (S i * N + j - N)%nat with (i * N + j)%nat by nia. cbn [nth]. apply IH; [intros c' Hc'; apply Hl; now right| |exact Hj].
    cbn [length] in Hi. lia.
Qed.
Lemma length_blocks : forall (B : list R -> list (list R)) N l, (forall c, In c l -> length (B c) = N) -> length (concat (map B l)) = (length l * N)%nat.
Proof. intros B N l Hl. induction l as [|c l IH]; [reflexivity|]. cbn [map concat length]. rewrite app_length, Hl by (now left).
  rewrite IH by (intros; apply Hl; now right). lia. Qed.
Lemma Rsum_blocks : forall (B : list R -> list (list R)) (g h : list R -> R) l, (forall c, In c l -> Rsum (map g (B c)) = h c) ->
  Rsum (map g (concat (map B l))) = Rsum (map h l).
Proof. intros B g h l Hl. induction l as [|c l IH]; [reflexivity|]. cbn [map concat]. rewrite map_app, Rsum_app, Hl by (now left).
  rewrite IH by (intros; apply Hl; now right). reflexivity. Qed.
Lemma linear_in : forall cx cy M phi d c, In c (linear_2D_array [cx; cy] M phi d) -> c = [nth 0 c 0; nth 1 c 0].
Proof. intros cx cy M phi d c Hc. unfold linear_2D_array in Hc. apply in_map_iff in Hc as [m [<- _]]. reflexivity. Qed.

(* The square array: M rows of N points, point j of row i at index i N + j; a
   regular grid of pitch |d| (so neighbours in a row and in a column are |d|
   apart), rows along phi and columns along phi + pi/2, centred. *)
Theorem C72_square : forall cx cy M N phi d,
  let A := square_2D_array [cx; cy] M N phi d in
  length A = (M * N)%nat /\ centroid A cx cy /\
  forall i j k l, (i < M)%nat -> (j < N)%nat -> (k < M)%nat -> (l < N)%nat ->
    nth 0 (nth (i * N + j) A []) 0 - nth 0 (nth (k * N + l) A []) 0
      = d * ((INR j - INR l) * cos phi - (INR i - INR k) * sin phi) /\
    nth 1 (nth (i * N + j) A []) 0 - nth 1 (nth (k * N + l) A []) 0
      = d * ((INR j - INR l) * sin phi + (INR i - INR k) * cos phi) /\
    plane_dist (nth (i * N + j) A []) (nth (k * N + l) A [])
      = Rabs d * sqrt ((INR i - INR k) * (INR i - INR k) + (INR j - INR l) * (INR j - INR l)).
Proof.
  intros cx cy M N phi d A.
  assert (Hb : forall c, In c (linear_2D_array [cx; cy] M (phi + PI / 2) d) -> length (linear_2D_array c N phi d) = N)
    by (intros; apply linear_length).
  assert (Hlen : length A = (M * N)%nat).
  { subst A. unfold square_2D_array. rewrite (length_blocks _ N) by exact Hb. now rewrite linear_length. }
  split; [exact Hlen|]. split.
  - assert (Hk : forall k, (k < 2)%nat -> Rsum (map (fun p => nth k p 0) A) = INR (M * N) * nth k [cx; cy] 0).
    { intros k Hk. subst A. unfold square_2D_array.
      rewrite (Rsum_blocks _ _ (fun c => INR N * nth k c 0)).
      - rewrite Rsum_map_scal, linear_sum by exact Hk. rewrite mult_INR. ring.
      - intros c Hc. rewrite (linear_in _ _ _ _ _ _ Hc) at 1. rewrite linear_sum by exact Hk.
        destruct k as [|[|]]; [reflexivity|reflexivity|lia]. }
    split; rewrite Hlen; rewrite (Hk _) by lia; reflexivity.
  - assert (Hnth : forall i j, (i < M)%nat -> (j < N)%nat -> nth (i * N + j) A [] =
      [cx + d * (INR i - (INR M - 1) / 2) * - sin phi + d * (INR j - (INR N - 1) / 2) * cos phi;
       cy + d * (INR i - (INR M - 1) / 2) * cos phi + d * (INR j - (INR N - 1) / 2) * sin phi]).
    { intros i j Hi Hj. subst A. unfold square_2D_array. rewrite (nth_blocks _ N) by (try rewrite linear_length; auto).
      rewrite linear_nth by exact Hi.
      replace (cos (phi + PI / 2)) with (- sin phi) by (rewrite cos_plus, cos_PI2, sin_PI2; ring).
      replace (sin (phi + PI / 2)) with (cos phi) by (rewrite sin_plus, cos_PI2, sin_PI2; ring).
      rewrite linear_nth by exact Hj. reflexivity. }
    intros i j k l Hi Hj Hk Hl. rewrite !Hnth by assumption. cbn [nth]. split; [ring|]. split; [ring|].
    unfold plane_dist. cbn [nth]. pose proof (sc1 phi) as H.
    transitivity (sqrt (d * d * ((INR i - INR k) * (INR i - INR k) + (INR j - INR l) * (INR j - INR l)))).
    + f_equal. transitivity (d * d * ((INR i - INR k) * (INR i - INR k) + (INR j - INR l) * (INR j - INR l)) * (cos phi * cos phi + sin phi * sin phi));
        [ring|rewrite H; ring].
    + rewrite sqrt_mult_alt by nra. rewrite sqrt_sq_abs. reflexivity.
Qed.

(* The spiral: M points within the radius; point m is at radius r m / M, so the
   first one is the centre and (for a positive radius) no two coincide. *)
Theorem C72_spiral : forall cx cy M r divi angle,
  let A := spiral_2D_array [cx; cy] M r divi angle in
  length A = M /\
  forall m, (m < M)%nat -> plane_dist (nth m A []) [cx; cy] = Rabs r * INR m / INR M /\
    (0 < r -> plane_dist (nth m A []) [cx; cy] < r).
Proof.
  intros cx cy M r divi angle A. split; [subst A; unfold spiral_2D_array; now rewrite map_length, seq_length|].
  intros m Hm. assert (HMp : 0 < INR M) by (apply lt_0_INR; lia).
  assert (E : plane_dist (nth m A []) [cx; cy] = Rabs r * INR m / INR M).
  { subst A. unfold spiral_2D_array. rewrite nth_tab by exact Hm. cbv zeta.
    match goal with |- context [cos ?a] => set (t := a) end.
    unfold plane_dist. cbn [nth vadd map2].
    transitivity (sqrt ((r * INR m / INR M) * (r * INR m / INR M))).
    - f_equal. pose proof (sc1 t) as H. transitivity ((r * INR m / INR M) * (r * INR m / INR M) * (cos t * cos t + sin t * sin t)); [ring|rewrite H; ring].
    - rewrite sqrt_sq_abs. unfold Rdiv. rewrite !Rabs_mult. rewrite (Rabs_pos_eq (INR m)) by apply pos_INR.
      rewrite (Rabs_pos_eq (/ INR M)); [reflexivity|]. left. now apply Rinv_0_lt_compat. }
  split; [exact E|]. intros Hr. rewrite E, Rabs_pos_eq by lra.
  apply (Rmult_lt_reg_r (INR M)); [exact HMp|]. unfold Rdiv. rewrite Rmult_assoc, Rinv_l, Rmult_1_r by lra.
  apply Rmult_lt_compat_l; [exact Hr|]. now apply lt_INR.
Qed.

(* The Poisson array: whatever the random steps, as many points as steps, the
   differences of consecutive points are the steps, and the mean of the points
   is the requested centre. *)
Lemma cumsum_length : forall steps acc, length (cumsum_from acc steps) = length steps.
Proof. induction steps as [|s r IH]; intros; [reflexivity|]. cbn. now rewrite IH. Qed.
Lemma cumsum_flat : forall steps a b, (forall s, In s steps -> length s = 2%nat) -> forall p, In p (cumsum_from [a; b] steps) -> length p = 2%nat.
Proof.
  induction steps as [|s r IH]; intros a b Hs p Hp; [destruct Hp|]. cbn [cumsum_from] in Hp.
  assert (Hs0 : length s = 2%nat) by (apply Hs; now left). destruct s as [|x [|y [|]]]; try discriminate.
  cbn [vadd map2] in Hp. destruct Hp as [<-|Hp]; [reflexivity|]. apply (IH (a + x) (b + y)); [intros; apply Hs; now right|exact Hp].
Qed.
Lemma cumsum_step : forall steps a b i, (forall s, In s steps -> length s = 2%nat) -> (S i < length steps)%nat ->
  vminus (nth (S i) (cumsum_from [a; b] steps) []) (nth i (cumsum_from [a; b] steps) []) = nth (S i) steps [].
Proof.
  induction steps as [|s r IH]; intros a b i Hs Hi; [cbn in Hi; lia|].
  assert (Hs0 : length s = 2%nat) by (apply Hs; now left). destruct s as [|x [|y [|]]]; try discriminate.
  cbn [cumsum_from vadd map2]. destruct i as [|i].
  - destruct r as [|s1 r]; [cbn in Hi; lia|]. assert (Hs1 : length s1 = 2%nat) by (apply Hs; right; now left).
    destruct s1 as [|x1 [|y1 [|]]]; try discriminate. cbn. f_equal; [|f_equal]; ring.
  - cbn [nth]. apply IH; [intros; apply Hs; now right|]. cbn [length] in Hi. lia.
Qed.
Theorem C72_poisson : forall cx cy steps, (forall s, In s steps -> length s = 2%nat) ->
  exists A, poisson_2D_array [cx; cy] steps = Some A /\ length A = length steps /\ centroid A cx cy /\
    forall i, (S i < length steps)%nat -> vminus (nth (S i) A []) (nth i A []) = nth (S i) steps [].
Proof.
  intros cx cy steps Hs. unfold poisson_2D_array. set (Rc := cumsum_from [0; 0] steps).
  assert (HlenR : length Rc = length steps) by apply cumsum_length.
  assert (Hflat : forall p, In p Rc -> length p = 2%nat) by (apply cumsum_flat; exact Hs).
  destruct steps as [|s0 r0].
  { exists []. split; [reflexivity|]. split; [reflexivity|]. split; [split; cbn; lra|]. intros i Hi. cbn in Hi. lia. }
  destruct Rc as [|p0 Rr] eqn:ER; [discriminate|].
  set (n := INR (length (p0 :: Rr))). set (mx := Rsum (map (fun p => nth 0 p 0) (p0 :: Rr)) / n). set (my := Rsum (map (fun p => nth 1 p 0) (p0 :: Rr)) / n).
  assert (Hn : n <> 0) by (subst n; apply not_0_INR; cbn; lia).
  change (column_mean 2 (p0 :: Rr)) with (Some [mx; my]). cbv iota.
  eexists. split; [reflexivity|]. split; [now rewrite map_length|]. split.
  - assert (Hk : forall k, (k < 2)%nat -> forall l, (forall p, In p l -> length p = 2%nat) ->
       Rsum (map (fun p => nth k p 0) (map (fun p => vadd (vminus p [mx; my]) [cx; cy]) l)) =
       Rsum (map (fun p => nth k p 0) l) - INR (length l) * nth k [mx; my] 0 + INR (length l) * nth k [cx; cy] 0).
    { intros k Hk l. induction l as [|p l IH]; intros Hl; [cbn; lra|].
      assert (Hp : length p = 2%nat) by (apply Hl; now left).
      cbn [map Rsum fold_right length]. change (fold_right Rplus 0) with Rsum. rewrite IH by (intros; apply Hl; now right). rewrite S_INR.
      rewrite nth_vadd, nth_vminus; [ring|rewrite Hp; reflexivity|].
      rewrite vminus_length, Hp; [reflexivity|rewrite Hp; reflexivity]. }
    unfold centroid. rewrite map_length, !Hk by (auto; lia). cbn [nth]. fold n. subst mx my.
    split; field; exact Hn.
  - intros i Hi.
    assert (Hi' : (S i < length (p0 :: Rr))%nat) by lia.
    assert (Hmap : forall j, (j < length (p0 :: Rr))%nat -> nth j (map (fun p => vadd (vminus p [mx; my]) [cx; cy]) (p0 :: Rr)) [] =
              vadd (vminus (nth j (p0 :: Rr) []) [mx; my]) [cx; cy]).
    { intros j Hj. rewrite nth_indep with (d' := vadd (vminus [] [mx; my]) [cx; cy]) by (rewrite map_length; exact Hj). exact (map_nth (fun p => vadd (vminus p [mx; my]) [cx; cy]) (p0 :: Rr) [] j). }
    rewrite !Hmap by lia. rewrite <- (cumsum_step (s0 :: r0) 0 0 i Hs Hi). fold Rc. rewrite ER.
    assert (H1 : length (nth (S i) (p0 :: Rr) []) = 2%nat) by (apply Hflat; apply nth_In; exact Hi').
    assert (H2 : length (nth i (p0 :: Rr) []) = 2%nat) by (apply Hflat; apply nth_In; lia).
    destruct (nth (S i) (p0 :: Rr) []) as [|x1 [|y1 [|]]]; try discriminate.
    destruct (nth i (p0 :: Rr) []) as [|x2 [|y2 [|]]]; try discriminate.
    cbn. f_equal; [|f_equal]; ring.
Qed.

(* circular_microphone_array_xyplane "with directivities pointing outwards":
   true when the rotation phi0 is zero (in 2-D and in 3-D): the orientation of
   every microphone is the unit vector from the centre to it. *)
Theorem C72_outward : forall center M r, length center = 2%nat \/ length center = 3%nat -> (0 < M)%nat -> exists P O,
  circular_xyplane center M 0 r = Some (P, O) /\ length P = M /\ length O = M /\
  forall i, (i < M)%nat -> length (nth i O []) = 3%nat /\ nth 2 (nth i O []) 0 = 0 /\
    (forall k, (k < length center)%nat -> nth k (nth i P []) 0 - nth k center 0 = r * nth k (nth i O []) 0).
Proof.
  intros center M r Hc HM.
  assert (Hori : forall co, co = Some 90 \/ co = None -> forall az, direction_vector az co true = Some [cos (radians az); sin (radians az); 0]).
  { intros co Hco az. unfold direction_vector.
    assert (E : match co with Some c => radians c | None => PI / 2 end = PI / 2).
    { destruct Hco as [->| ->]; [unfold radians; field|reflexivity]. }
    rewrite E. pose proof PI_RGT_0. destruct (Rle_dec (PI / 2) PI); [|lra]. destruct (Rle_dec 0 (PI / 2)); [|lra].
    cbn [andb]. rewrite sin_PI2, cos_PI2, !Rmult_1_r. reflexivity. }
  assert (HMn : INR M <> 0) by (apply not_0_INR; lia).
  set (O := map (fun i => [cos (radians (INR i * 360 / INR M + 0)); sin (radians (INR i * 360 / INR M + 0)); 0]) (seq 0 M)).
  assert (Hm : forall co, co = Some 90 \/ co = None -> mapM (fun i => direction_vector (INR i * 360 / INR M + 0) co true) (seq 0 M) = Some O).
  { intros co Hco. subst O. induction (seq 0 M) as [|x l IH]; [reflexivity|]. cbn [mapM map]. rewrite (Hori co Hco), IH. reflexivity. }
  assert (Hang : forall i, radians (INR i * 360 / INR M + 0) = INR i * 2 * PI / INR M + 0) by (intros i; unfold radians; field; exact HMn).
  unfold circular_xyplane. destruct Hc as [Hc|Hc]; rewrite Hc; cbn [Nat.eqb].
  - rewrite (Hm None) by now right. cbn [bind]. eexists; exists O. split; [reflexivity|].
    destruct center as [|cx [|cy [|]]]; try discriminate. cbn [firstn].
    split; [unfold circular_2D_array; now rewrite map_length, seq_length|]. split; [subst O; now rewrite map_length, seq_length|].
    intros i Hi. subst O. rewrite nth_tab by exact Hi. rewrite circular_nth by exact Hi. cbn [length]. split; [reflexivity|]. split; [reflexivity|].
    intros k Hk. rewrite Hang. destruct k as [|[|]]; [cbn; ring|cbn; ring|lia].
  - rewrite (Hm (Some 90)) by now left. cbn [bind]. eexists; exists O. split; [reflexivity|].
    destruct center as [|cx [|cy [|cz [|]]]]; try discriminate. cbn [firstn nth].
    split; [unfold circular_2D_array; now rewrite !map_length, seq_length|]. split; [subst O; now rewrite map_length, seq_length|].
    intros i Hi. subst O. rewrite nth_tab by exact Hi.
    rewrite nth_indep with (d' := [] ++ [cz]) by (unfold circular_2D_array; rewrite !map_length, seq_length; exact Hi).
    rewrite (map_nth (fun p => p ++ [cz])), circular_nth by exact Hi. cbn [length]. split; [reflexivity|]. split; [reflexivity|].
    intros k Hk. rewrite Hang. destruct k as [|[|[|]]]; [cbn; ring|cbn; ring|cbn; ring|lia].
Qed.

(* With a rotation, documented in degrees, the positions take it as radians
   while the orientations take it as degrees: already for one degree the first
   microphone's directivity does not point away from the centre, and its
   position is not at that angle. *)
Theorem C72_degrees_refuted : exists phi0 P O,
  circular_xyplane [0; 0] 4 phi0 1 = Some (P, O) /\
  ~ (forall k, (k < 2)%nat -> nth k (nth 0 P []) 0 - nth k [0; 0] 0 = 1 * nth k (nth 0 O []) 0) /\
  nth 0 P [] <> [cos (radians phi0); sin (radians phi0)].
Proof.
  exists 1. unfold circular_xyplane. cbn [length Nat.eqb seq mapM].
  unfold direction_vector. pose proof PI_RGT_0. destruct (Rle_dec (PI / 2) PI); [|lra]. destruct (Rle_dec 0 (PI / 2)); [|lra].
  cbn [andb bind]. eexists; eexists. split; [reflexivity|].
  assert (Hc : cos 1 < cos (radians 1)).
  { pose proof PI_4. pose proof PI2_1. apply cos_decreasing_1; unfold radians; lra. }
  cbn [firstn]. rewrite circular_nth by lia.
  replace (INR 0 * 2 * PI / INR 4 + 1) with 1 by (cbn [INR]; field).
  replace (INR 0 * 360 / INR 4 + 1) with 1 by (cbn [INR]; field).
  split.
  - intros H0. specialize (H0 0%nat ltac:(lia)). cbn [nth] in H0. rewrite sin_PI2 in H0. lra.
  - intros H0. injection H0 as H0 _. lra.
Qed.

(* Concrete cases. *)
Example linear_three : linear_2D_array [1; 2] 3 0 (1 / 2) = [[1 / 2; 2]; [1; 2]; [3 / 2; 2]].
Proof. unfold linear_2D_array. cbn [seq map vadd vscal map2 unit_vec2D INR]. rewrite cos_0, sin_0.
  repeat (apply f_equal2; [repeat (apply f_equal2; [lra|]); reflexivity|]). reflexivity. Qed.
Example square_count : length (square_2D_array [0; 0] 3 4 (PI / 7) 2) = 12%nat.
Proof. apply (C72_square 0 0 3 4 (PI / 7) 2). Qed.
Example circular_pair : plane_dist (nth 1 (circular_2D_array [0; 0] 2 0 3) []) (nth 0 (circular_2D_array [0; 0] 2 0 3) []) = 6.
Proof.
  destruct (C72_circular 0 0 2 0 3) as [_ [_ [_ [H _]]]]. specialize (H 0%nat ltac:(lia)). cbn [Nat.add Nat.modulo Nat.divmod fst Nat.sub snd] in H.
  rewrite H, (Rabs_pos_eq 3) by lra. cbn [INR]. replace (PI / (1 + 1)) with (PI / 2) by lra. rewrite sin_PI2. ring.
Qed.

Print Assumptions C72_linear.
Print Assumptions C72_circular.
Print Assumptions C72_square.
Print Assumptions C72_spiral.
Print Assumptions C72_poisson.
Print Assumptions C72_outward.
Print Assumptions C72_degrees_refuted.
