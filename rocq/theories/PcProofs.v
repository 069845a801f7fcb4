(** Point clouds: distances and motions. *)
From Coq Require Import List ZArith Lia Reals Lra Bool String.
From Verif Require Import Base Vec Sum BaseProofs SourceModel SphereModel SphereProps WienerProofs PcModel.
Import ListNotations.
Local Open Scope R_scope.

Definition shaped (c : cloud) : Prop := Forall (fun p => List.length p = c_dim c) (c_pts c).
(** [f] keeps the distances between points of dimension [d]. *)
Definition iso (d : nat) (f : vec -> vec) : Prop := forall p q, List.length p = d -> List.length q = d -> List.length (f p) = d /\ vsq (vminus (f p) (f q)) = vsq (vminus p q).
Lemma iso_comp : forall d f g, iso d f -> iso d g -> iso d (fun v => g (f v)).
Proof. intros d f g Hf Hg p q Hp Hq. destruct (Hf p q Hp Hq) as [L1 E1]. destruct (Hf q p Hq Hp) as [L2 _]. destruct (Hg (f p) (f q) L1 L2) as [L3 E3]. split; auto. congruence. Qed.
Lemma iso_id : forall d, iso d (fun v => v).
Proof. intros d p q Hp Hq. auto. Qed.
Lemma iso_shift : forall d x, List.length x = d -> iso d (fun v => vminus v x).
Proof.
  intros d x Hx p q Hp Hq. split; [rewrite vminus_length; congruence|]. f_equal. apply vec_ext; [now rewrite !vminus_length by (rewrite ?vminus_length; congruence)|]. intros i. rewrite !nth_vminus by (rewrite ?vminus_length; congruence). ring.
Qed.
Lemma iso_rotate_xy : forall d t, (2 <= d)%nat -> iso d (rotate_xy (cos t) (sin t)).
Proof.
  intros d t Hd p q Hp Hq. destruct p as [|x [|y p]]; cbn in Hp; try lia. destruct q as [|x' [|y' q]]; cbn in Hq; try lia. cbn [rotate_xy]. split; [cbn; lia|]. unfold vsq, vminus. cbn [map2]. rewrite !dot_cons.
  pose proof (sin2_cos2 t) as H. unfold Rsqr in H. set (s := sin t) in *. set (c := cos t) in *. set (r := dot _ _).
  replace ((c * x + s * y - (c * x' + s * y')) * (c * x + s * y - (c * x' + s * y')) + ((- s * x + c * y - (- s * x' + c * y')) * (- s * x + c * y - (- s * x' + c * y')) + r)) with ((s * s + c * c) * ((x - x') * (x - x') + (y - y') * (y - y')) + r) by ring. rewrite H. ring.
Qed.
Lemma iso_rotate_yz : forall t, iso 3 (rotate_yz (cos t) (sin t)).
Proof.
  intros t p q Hp Hq. destruct p as [|x [|y [|z [|]]]]; try discriminate. destruct q as [|x' [|y' [|z' [|]]]]; try discriminate. cbn [rotate_yz]. split; [reflexivity|]. unfold vsq, vminus. cbn [map2]. rewrite !dot_cons.
  pose proof (sin2_cos2 t) as H. unfold Rsqr in H. set (s := sin t) in *. set (c := cos t) in *. set (r := dot _ _).
  replace ((c * y + s * z - (c * y' + s * z')) * (c * y + s * z - (c * y' + s * z')) + ((- s * y + c * z - (- s * y' + c * z')) * (- s * y + c * z - (- s * y' + c * z')) + r)) with ((s * s + c * c) * ((y - y') * (y - y') + (z - z') * (z - z')) + r) by ring. rewrite H. ring.
Qed.
Lemma flip2 : forall x y, flip 1 [x; y] = [x; - y].
Proof. intros. cbn. f_equal. f_equal. ring. Qed.
Lemma flip3 : forall x y z, flip 2 [x; y; z] = [x; y; - z].
Proof. intros. cbn. do 3 f_equal. ring. Qed.
Lemma iso_flip2 : iso 2 (flip 1).
Proof. intros p q Hp Hq. destruct p as [|x [|y [|]]]; try discriminate. destruct q as [|x' [|y' [|]]]; try discriminate. rewrite !flip2. split; [reflexivity|]. unfold vsq, vminus, dot, Rsum. cbn. ring. Qed.
Lemma iso_flip3 : iso 3 (flip 2).
Proof. intros p q Hp Hq. destruct p as [|x [|y [|z [|]]]]; try discriminate. destruct q as [|x' [|y' [|z' [|]]]]; try discriminate. rewrite !flip3. split; [reflexivity|]. unfold vsq, vminus, dot, Rsum. cbn. ring. Qed.
Lemma map_id_eq : forall {A} (l : list A), map (fun v => v) l = l.
Proof. intros A l. apply map_id. Qed.

(** EDM *)
Lemma edm_entry : forall a b, List.length a = List.length b -> dot b b - 2 * dot a b + dot a a = vsq (vminus a b).
Proof. intros a b H. rewrite vsq_vminus by auto. unfold vsq. ring. Qed.
Lemma edm_iso : forall c f, shaped c -> iso (c_dim c) f -> pc_edm (with_pts c (map f (c_pts c))) = pc_edm c.
Proof.
  intros c f Hs Hf. unfold shaped in Hs. rewrite Forall_forall in Hs. unfold pc_edm. cbn [with_pts c_pts]. rewrite map_map. apply map_ext_in. intros a Ha. rewrite map_map. apply map_ext_in. intros b Hb.
  destruct (Hf a b (Hs a Ha) (Hs b Hb)) as [La E]. destruct (Hf b a (Hs b Hb) (Hs a Ha)) as [Lb _]. rewrite (edm_entry (f a)) by congruence. rewrite E. rewrite edm_entry by (rewrite !Hs; auto). reflexivity.
Qed.
Lemma shaped_iso : forall c f, shaped c -> iso (c_dim c) f -> shaped (with_pts c (map f (c_pts c))).
Proof. intros c f Hs Hf. unfold shaped in *. cbn [with_pts c_pts c_dim]. rewrite Forall_map. eapply Forall_impl; [|exact Hs]. intros p Hp. now apply (Hf p p). Qed.
Lemma column_map : forall c f i, column (with_pts c (map f (c_pts c))) i = option_map f (column c i).
Proof. intros c f i. unfold column. cbn [with_pts c_pts]. rewrite map_length. destruct (wrap _ i) as [k|]; [|reflexivity]. cbn [bind]. apply nth_error_map. Qed.
Lemma key_with : forall c p k, key2ind (with_pts c p) k = key2ind c k.
Proof. reflexivity. Qed.
Lemma get_map : forall c f k, pc_get (with_pts c (map f (c_pts c))) k = option_map f (pc_get c k).
Proof. intros c f k. unfold pc_get. rewrite key_with. destruct (key2ind c k) as [i|]; [|reflexivity]. cbn [bind]. apply column_map. Qed.
Lemma column_shape : forall c i p, shaped c -> column c i = Some p -> List.length p = c_dim c.
Proof. intros c i p Hs H. unfold column in H. destruct (wrap _ i) as [k|]; [|discriminate]. cbn [bind] in H. apply nth_error_In in H. unfold shaped in Hs. rewrite Forall_forall in Hs. auto. Qed.
Lemma get_shape : forall c k p, shaped c -> pc_get c k = Some p -> List.length p = c_dim c.
Proof. intros c k p Hs H. unfold pc_get in H. destruct (key2ind c k) as [i|]; [|discriminate]. cbn [bind] in H. now apply (column_shape c i). Qed.

(** turning a point onto the axis *)
Lemma turn : forall u v, cos (atan2 v u) * u + sin (atan2 v u) * v = sqrt (u * u + v * v) /\ - sin (atan2 v u) * u + cos (atan2 v u) * v = 0.
Proof.
  intros u v. destruct (atan2_spec v u) as [H1 H2]. set (r := sqrt (u * u + v * v)) in *. set (c := cos (atan2 v u)) in *. set (s := sin (atan2 v u)) in *. assert (H : s * s + c * c = 1) by (unfold s, c; pose proof (sin2_cos2 (atan2 v u)) as Q; exact Q).
  rewrite <- H1, <- H2. split; [|ring]. transitivity (r * (s * s + c * c)); [ring|]. rewrite H. ring.
Qed.
(** [normalize] is one map of the points *)
Definition default_refs (refs : option (list key)) : list key := match refs with Some r => r | None => map At [0; 1; 2; 3]%Z end.
Lemma mapM_nth_error : forall {A B} (f : A -> option B) l l', mapM f l = Some l' -> forall i b, nth_error l' i = Some b -> exists a, nth_error l i = Some a /\ f a = Some b.
Proof.
  intros A B f. induction l as [|a l IH]; intros l' H i b Hi; cbn [mapM] in H; [apply some_inj in H; subst; destruct i; discriminate|].
  destruct (f a) as [y|] eqn:E; [|discriminate]. cbn [bind] in H. destruct (mapM f l) as [t|] eqn:E2; [|discriminate]. cbn [bind] in H. apply some_inj in H. subst l'. destruct i as [|i]; cbn in *; [apply some_inj in Hi; subst; eauto|eauto].
Qed.
Lemma normalize_2 : forall c refs c', c_dim c = 2%nat -> shaped c -> pc_normalize c refs = Some c' ->
  exists F k0 k1 k2 p0 p1 p2, c' = with_pts c (map F (c_pts c)) /\ iso 2 F /\ nth_error (default_refs refs) 0 = Some k0 /\ nth_error (default_refs refs) 1 = Some k1 /\ nth_error (default_refs refs) 2 = Some k2 /\
    pc_get c k0 = Some p0 /\ pc_get c k1 = Some p1 /\ pc_get c k2 = Some p2 /\ F p0 = [0; 0] /\ (exists x, 0 <= x /\ F p1 = [x; 0]) /\ (exists x y, 0 <= y /\ F p2 = [x; y]).
Proof.
  intros c refs c' Hd Hs H. unfold pc_normalize in H. fold (default_refs refs) in H. destruct (mapM (key2ind c) (default_refs refs)) as [is|] eqn:EM; [|discriminate]. cbn [bind] in H. rewrite Hd in H. cbn [Nat.eqb andb orb] in H.
  destruct (Nat.ltb_spec (List.length is) 3) as [|Hl]; [discriminate|]. cbn [orb] in H. destruct (nth_error is 0) as [r0|] eqn:E0; [|discriminate]. cbn [bind] in H. destruct (column c r0) as [x0|] eqn:C0; [|discriminate]. cbn [bind] in H.
  destruct (nth_error is 1) as [r1|] eqn:E1; [|discriminate]. cbn [bind] in H. rewrite column_map in H. destruct (column c r1) as [x1|] eqn:C1; [|discriminate]. cbn [option_map bind] in H.
  destruct (nth_error is 2) as [r2|] eqn:E2; [|discriminate]. cbn [bind] in H. cbn [with_pts c_pts] in H. rewrite map_map in H. rewrite column_map in H. destruct (column c r2) as [x2|] eqn:C2; [|discriminate]. cbn [option_map bind] in H.
  destruct (mapM_nth_error _ _ _ EM _ _ E0) as (k0 & K0 & G0). destruct (mapM_nth_error _ _ _ EM _ _ E1) as (k1 & K1 & G1). destruct (mapM_nth_error _ _ _ EM _ _ E2) as (k2 & K2 & G2).
  pose proof (column_shape _ _ _ Hs C0) as L0. pose proof (column_shape _ _ _ Hs C1) as L1. pose proof (column_shape _ _ _ Hs C2) as L2. rewrite Hd in *.
  set (th := atan2 (nth 1 (vminus x1 x0) 0) (nth 0 (vminus x1 x0) 0)) in *. set (R1 := fun x => rotate_xy (cos th) (sin th) (vminus x x0)) in *.
  assert (I1 : iso 2 R1). { apply (iso_comp 2 (fun v => vminus v x0)); [now apply iso_shift|apply iso_rotate_xy; lia]. }
  assert (Z1 : R1 x0 = [0; 0]). { unfold R1. destruct x0 as [|a [|b [|]]]; try discriminate. cbn. f_equal; [ring|]. f_equal. ring. }
  assert (X1 : exists x, 0 <= x /\ R1 x1 = [x; 0]).
  { unfold R1. destruct x0 as [|a [|b [|]]]; try discriminate. destruct x1 as [|a' [|b' [|]]]; try discriminate. cbn [vminus map2 nth rotate_xy] in *. destruct (turn (a' - a) (b' - b)) as [T1 T2]. fold th in T1, T2. exists (sqrt ((a' - a) * (a' - a) + (b' - b) * (b' - b))). split; [apply sqrt_pos|]. rewrite T1, T2. reflexivity. }
  change (rotate_xy (cos th) (sin th) (vminus x2 x0)) with (R1 x2) in H. assert (LR : List.length (R1 x2) = 2%nat) by (apply (I1 x2 x2); auto). destruct (R1 x2) as [|u [|w [|]]] eqn:ER; try discriminate. cbn [nth] in H.
  assert (GK : forall k i x, key2ind c k = Some i -> column c i = Some x -> pc_get c k = Some x) by (intros k i x Hk Hx; unfold pc_get; rewrite Hk; exact Hx).
  destruct (Rlt_dec w 0) as [Hw|Hw]; apply some_inj in H; subst c'.
  - exists (fun x => flip 1 (R1 x)), k0, k1, k2, x0, x1, x2. split; [now rewrite map_map|]. split; [apply iso_comp; [exact I1|apply iso_flip2]|]. do 6 (split; [eauto; fail|]).
    split; [rewrite Z1, flip2; f_equal; f_equal; ring|]. split.
    + destruct X1 as (x & Hx & E). exists x. split; auto. rewrite E, flip2. f_equal. f_equal. ring.
    + exists u, (- w). split; [lra|]. now rewrite ER, flip2.
  - exists R1, k0, k1, k2, x0, x1, x2. split; [reflexivity|]. split; [exact I1|]. do 6 (split; [eauto; fail|]). split; [exact Z1|]. split; [exact X1|]. exists u, w. split; [lra|exact ER].
Qed.
Lemma normalize_3 : forall c refs c', c_dim c = 3%nat -> shaped c -> pc_normalize c refs = Some c' ->
  exists F k0 k1 k2 k3 p0 p1 p2 p3, c' = with_pts c (map F (c_pts c)) /\ iso 3 F /\ nth_error (default_refs refs) 0 = Some k0 /\ nth_error (default_refs refs) 1 = Some k1 /\ nth_error (default_refs refs) 2 = Some k2 /\ nth_error (default_refs refs) 3 = Some k3 /\
    pc_get c k0 = Some p0 /\ pc_get c k1 = Some p1 /\ pc_get c k2 = Some p2 /\ pc_get c k3 = Some p3 /\ F p0 = [0; 0; 0] /\ (nth 2 p1 0 = nth 2 p0 0 -> exists x, 0 <= x /\ F p1 = [x; 0; 0]) /\ (exists x y, 0 <= y /\ F p2 = [x; y; 0]) /\
    (exists x y z, 0 <= z /\ F p3 = [x; y; z]).
Proof.
  intros c refs c' Hd Hs H. unfold pc_normalize in H. fold (default_refs refs) in H. destruct (mapM (key2ind c) (default_refs refs)) as [is|] eqn:EM; [|discriminate]. cbn [bind] in H. rewrite Hd in H. cbn [Nat.eqb andb orb] in H.
  destruct (Nat.ltb_spec (List.length is) 4) as [|Hl]; [discriminate|]. destruct (nth_error is 0) as [r0|] eqn:E0; [|discriminate]. cbn [bind] in H. destruct (column c r0) as [x0|] eqn:C0; [|discriminate]. cbn [bind] in H.
  destruct (nth_error is 1) as [r1|] eqn:E1; [|discriminate]. cbn [bind] in H. rewrite column_map in H. destruct (column c r1) as [x1|] eqn:C1; [|discriminate]. cbn [option_map bind] in H.
  destruct (nth_error is 2) as [r2|] eqn:E2; [|discriminate]. cbn [bind] in H. cbn [with_pts c_pts] in H. rewrite map_map in H. rewrite column_map in H. destruct (column c r2) as [x2|] eqn:C2; [|discriminate]. cbn [option_map bind] in H.
  destruct (nth_error is 3) as [r3|] eqn:E3; [|discriminate]. cbn [bind] in H. cbn [with_pts c_pts] in H. rewrite map_map in H. rewrite column_map in H. destruct (column c r3) as [x3|] eqn:C3; [|discriminate]. cbn [option_map bind] in H.
  destruct (mapM_nth_error _ _ _ EM _ _ E0) as (k0 & K0 & G0). destruct (mapM_nth_error _ _ _ EM _ _ E1) as (k1 & K1 & G1). destruct (mapM_nth_error _ _ _ EM _ _ E2) as (k2 & K2 & G2). destruct (mapM_nth_error _ _ _ EM _ _ E3) as (k3 & K3 & G3).
  pose proof (column_shape _ _ _ Hs C0) as L0. pose proof (column_shape _ _ _ Hs C1) as L1. pose proof (column_shape _ _ _ Hs C2) as L2. pose proof (column_shape _ _ _ Hs C3) as L3. rewrite Hd in *.
  set (th := atan2 (nth 1 (vminus x1 x0) 0) (nth 0 (vminus x1 x0) 0)) in *. set (R1 := fun x => rotate_xy (cos th) (sin th) (vminus x x0)) in *.
  assert (I1 : iso 3 R1). { apply (iso_comp 3 (fun v => vminus v x0)); [now apply iso_shift|apply iso_rotate_xy; lia]. }
  change (rotate_xy (cos th) (sin th) (vminus x2 x0)) with (R1 x2) in H. change (rotate_xy (cos th) (sin th) (vminus x3 x0)) with (R1 x3) in H.
  set (th2 := atan2 (nth 2 (R1 x2) 0) (nth 1 (R1 x2) 0)) in *. set (R2 := fun x => rotate_yz (cos th2) (sin th2) (R1 x)) in *.
  change (map (fun x => rotate_yz (cos th2) (sin th2) (rotate_xy (cos th) (sin th) (vminus x x0))) (c_pts c)) with (map R2 (c_pts c)) in H. change (rotate_yz (cos th2) (sin th2) (R1 x3)) with (R2 x3) in H.
  assert (I2 : iso 3 R2) by (apply (iso_comp 3 R1); [exact I1|apply iso_rotate_yz]).
  assert (Z1 : R1 x0 = [0; 0; 0]). { unfold R1. destruct x0 as [|a [|b [|d [|]]]]; try discriminate. cbn. f_equal; [ring|]. f_equal; [ring|]. f_equal. ring. }
  assert (Z2 : R2 x0 = [0; 0; 0]). { unfold R2. rewrite Z1. cbn. f_equal. f_equal; [ring|]. f_equal. ring. }
  assert (X1 : nth 2 x1 0 = nth 2 x0 0 -> exists x, 0 <= x /\ R2 x1 = [x; 0; 0]).
  { intros Ez. unfold R2, R1. destruct x0 as [|a [|b [|d [|]]]]; try discriminate. destruct x1 as [|a' [|b' [|d' [|]]]]; try discriminate. cbn [vminus map2 nth rotate_xy] in *. destruct (turn (a' - a) (b' - b)) as [T1 T2]. fold th in T1, T2. exists (sqrt ((a' - a) * (a' - a) + (b' - b) * (b' - b))). split; [apply sqrt_pos|]. rewrite T1, T2, Ez. cbn [rotate_yz]. f_equal. f_equal; [ring|]. f_equal. ring. }
  assert (X2 : exists x y, 0 <= y /\ R2 x2 = [x; y; 0]).
  { assert (LR : List.length (R1 x2) = 3%nat) by (apply (I1 x2 x2); auto). unfold R2. destruct (R1 x2) as [|u [|w [|z [|]]]] eqn:ER; try discriminate. cbn [nth rotate_yz] in *. destruct (turn w z) as [T1 T2]. fold th2 in T1, T2. exists u, (sqrt (w * w + z * z)). split; [apply sqrt_pos|]. rewrite T1, T2. reflexivity. }
  assert (LR : List.length (R2 x3) = 3%nat) by (apply (I2 x3 x3); auto). destruct (R2 x3) as [|u [|w [|z [|]]]] eqn:ER; try discriminate. cbn [nth] in H.
  assert (GK : forall k i x, key2ind c k = Some i -> column c i = Some x -> pc_get c k = Some x) by (intros k i x Hk Hx; unfold pc_get; rewrite Hk; exact Hx).
  destruct (Rlt_dec z 0) as [Hw|Hw]; apply some_inj in H; subst c'.
  - exists (fun x => flip 2 (R2 x)), k0, k1, k2, k3, x0, x1, x2, x3. split; [now rewrite map_map|]. split; [apply iso_comp; [exact I2|apply iso_flip3]|]. do 8 (split; [eauto; fail|]).
    split; [rewrite Z2, flip3; do 3 f_equal; ring|]. split; [|split].
    + intros Ez. destruct (X1 Ez) as (x & Hx & E). exists x. split; auto. rewrite E, flip3. do 3 f_equal. ring.
    + destruct X2 as (x & y & Hy & E). exists x, y. split; auto. rewrite E, flip3. do 3 f_equal. ring.
    + exists u, w, (- z). split; [lra|]. now rewrite ER, flip3.
  - exists R2, k0, k1, k2, k3, x0, x1, x2, x3. split; [reflexivity|]. split; [exact I2|]. do 8 (split; [eauto; fail|]). split; [exact Z2|]. split; [exact X1|]. split; [exact X2|]. exists u, w, z. split; [lra|exact ER].
Qed.
