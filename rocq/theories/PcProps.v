(** Property C121. *)
From Coq Require Import List ZArith Lia Reals Lra Bool String.
From Coq Require DecimalString DecimalNat.
From Verif Require Import Base Vec Sum BaseProofs SourceModel SphereModel SphereProps WienerProofs PcModel PcProofs.
Import ListNotations.
Local Open Scope R_scope.

(** The distance matrix holds the squared distances. *)
Theorem C121_edm : forall c i j, shaped c -> (i < List.length (c_pts c))%nat -> (j < List.length (c_pts c))%nat ->
  nth j (nth i (pc_edm c) []) 0 = vdist (nth i (c_pts c) []) (nth j (c_pts c) []) * vdist (nth i (c_pts c) []) (nth j (c_pts c) []).
Proof.
  intros c i j Hs Hi Hj. unfold shaped in Hs. rewrite Forall_forall in Hs. unfold pc_edm.
  set (row := fun a : vec => map (fun b => dot b b - 2 * dot a b + dot a a) (c_pts c)).
  rewrite (nth_indep _ [] (row [])) by (now rewrite map_length). rewrite (map_nth row). unfold row.
  set (e := fun b => dot b b - 2 * dot (nth i (c_pts c) []) b + dot (nth i (c_pts c) []) (nth i (c_pts c) [])).
  rewrite (nth_indep _ 0 (e [])) by (now rewrite map_length). rewrite (map_nth e). unfold e. rewrite vdist_sq. apply edm_entry. rewrite !Hs; auto using nth_In.
Qed.

(** References *)
Lemma str_of_inj : forall i j, str_of i = str_of j -> i = j.
Proof.
  intros i j H. unfold str_of in H. assert (H2 : Some (Nat.to_uint i) = Some (Nat.to_uint j)) by (rewrite <- !DecimalString.NilEmpty.usu; now rewrite H). apply some_inj in H2. rewrite <- (DecimalNat.Unsigned.of_to i), <- (DecimalNat.Unsigned.of_to j). now rewrite H2.
Qed.
Lemma index_of_spec : forall s l i, index_of s l = Some i <-> nth_error l i = Some s /\ forall j, (j < i)%nat -> nth_error l j <> Some s.
Proof.
  intros s. induction l as [|x l IH]; intros i; cbn [index_of].
  - split; [discriminate|]. intros [H _]. destruct i; discriminate.
  - destruct (String.eqb_spec s x) as [->|Hn].
    + split.
      * intros H. apply some_inj in H. subst i. split; [reflexivity|]. intros j Hj. lia.
      * intros [H Hm]. destruct i as [|i]; [reflexivity|]. exfalso. apply (Hm 0%nat); [lia|reflexivity].
    + destruct i as [|i].
      * split; [destruct (index_of s l); discriminate|]. intros [H _]. cbn in H. apply some_inj in H. congruence.
      * cbn [nth_error]. specialize (IH i). split.
        -- intros H. destruct (index_of s l) as [k|]; [|discriminate]. cbn in H. apply some_inj in H. injection H as ->. destruct (proj1 IH eq_refl) as [H1 H2]. split; auto. intros [|j] Hj; cbn; [congruence|apply H2; lia].
        -- intros [H1 H2]. rewrite (proj2 IH); [reflexivity|]. split; auto. intros j Hj. apply (H2 (S j)). lia.
Qed.
Theorem C121_label : forall c s i, List.length (c_labels c) = List.length (c_pts c) -> nth_error (c_labels c) i = Some s -> (forall j, (j < i)%nat -> nth_error (c_labels c) j <> Some s) -> pc_get c (Label s) = nth_error (c_pts c) i.
Proof.
  intros c s i Hl H1 H2. unfold pc_get. cbn [key2ind]. rewrite (proj2 (index_of_spec s (c_labels c) i)) by auto. cbn [option_map bind]. unfold column, wrap. assert (Hi : (i < List.length (c_pts c))%nat) by (rewrite <- Hl; apply nth_error_Some; congruence).
  destruct (Z.ltb_spec (Z.of_nat i) 0); [lia|]. destruct (Z.leb_spec 0 (Z.of_nat i)); [|lia]. destruct (Z.ltb_spec (Z.of_nat i) (Z.of_nat (List.length (c_pts c)))); [|lia]. cbn [andb bind]. now rewrite Nat2Z.id.
Qed.
Theorem C121_unknown_label : forall c s, ~ In s (c_labels c) -> pc_get c (Label s) = None.
Proof. intros c s H. unfold pc_get. cbn [key2ind]. destruct (index_of s (c_labels c)) as [i|] eqn:E; [|reflexivity]. apply index_of_spec in E. destruct E as [E _]. apply nth_error_In in E. contradiction. Qed.
(** Without labels, the points are called "0", "1", ... *)
Theorem C121_default_labels : forall m dim d pts i, (i < List.length pts)%nat -> exists c, pc_new m dim (Some (d, pts)) None = Some c /\ c_dim c = d /\ c_pts c = pts /\ pc_get c (Label (str_of i)) = nth_error pts i /\ pc_get c (At (Z.of_nat i)) = nth_error pts i /\ pc_get c (At (Z.of_nat i - Z.of_nat (List.length pts))) = nth_error pts i.
Proof.
  intros m dim d pts i Hi. eexists. split; [reflexivity|]. split; [reflexivity|]. split; [reflexivity|]. split; [|split].
  - apply C121_label; cbn [c_labels c_pts].
    + now rewrite map_length, seq_length.
    + rewrite nth_error_map, (nth_error_nth' _ 0%nat) by (now rewrite seq_length). rewrite seq_nth by auto. reflexivity.
    + intros j Hj. rewrite nth_error_map, (nth_error_nth' _ 0%nat) by (rewrite seq_length; lia). rewrite seq_nth by lia. cbn. intros H. apply some_inj in H. apply str_of_inj in H. lia.
  - unfold pc_get. cbn [key2ind bind]. unfold column, wrap. cbn [c_pts]. destruct (Z.ltb_spec (Z.of_nat i) 0); [lia|]. destruct (Z.leb_spec 0 (Z.of_nat i)); [|lia]. destruct (Z.ltb_spec (Z.of_nat i) (Z.of_nat (List.length pts))); [|lia]. cbn [andb bind]. now rewrite Nat2Z.id.
  - unfold pc_get. cbn [key2ind bind]. unfold column, wrap. cbn [c_pts]. destruct (Z.ltb_spec (Z.of_nat i - Z.of_nat (List.length pts)) 0); [|lia]. replace (Z.of_nat (List.length pts) + (Z.of_nat i - Z.of_nat (List.length pts)))%Z with (Z.of_nat i) by lia. destruct (Z.leb_spec 0 (Z.of_nat i)); [|lia]. destruct (Z.ltb_spec (Z.of_nat i) (Z.of_nat (List.length pts))); [|lia]. cbn [andb bind]. now rewrite Nat2Z.id.
Qed.
Theorem C121_one_label_per_point : forall m dim d pts l, (exists c, pc_new m dim (Some (d, pts)) (Some l) = Some c) <-> List.length l = List.length pts.
Proof. intros. unfold pc_new. destruct (Nat.eqb_spec (List.length l) (List.length pts)) as [E|E]; split; intros H; eauto; [destruct H; discriminate|contradiction]. Qed.

(** normalize *)
Lemma set_eq : forall c f, c_dim (with_pts c (map f (c_pts c))) = c_dim c /\ c_labels (with_pts c (map f (c_pts c))) = c_labels c.
Proof. split; reflexivity. Qed.
Theorem C121_normalize_2d : forall c refs c', c_dim c = 2%nat -> shaped c -> pc_normalize c refs = Some c' ->
  c_dim c' = 2%nat /\ c_labels c' = c_labels c /\ shaped c' /\ pc_edm c' = pc_edm c /\
  exists k0 k1 k2, (forall r, refs = Some r -> nth_error r 0 = Some k0 /\ nth_error r 1 = Some k1 /\ nth_error r 2 = Some k2) /\ (refs = None -> k0 = At 0 /\ k1 = At 1 /\ k2 = At 2) /\
    pc_get c' k0 = Some [0; 0] /\ (exists x, 0 <= x /\ pc_get c' k1 = Some [x; 0]) /\ (exists x y, 0 <= y /\ pc_get c' k2 = Some [x; y]).
Proof.
  intros c refs c' Hd Hs H. destruct (normalize_2 c refs c' Hd Hs H) as (F & k0 & k1 & k2 & p0 & p1 & p2 & -> & HF & N0 & N1 & N2 & G0 & G1 & G2 & Z0 & (x & Hx & E1) & (x' & y & Hy & E2)).
  rewrite <- Hd in HF. split; [exact Hd|]. split; [reflexivity|]. split; [now apply shaped_iso|]. split; [now apply edm_iso|]. exists k0, k1, k2. split; [intros r ->; auto|]. split.
  { intros ->. cbn in N0, N1, N2. apply some_inj in N0, N1, N2. auto. }
  rewrite !get_map, G0, G1, G2. cbn [option_map]. split; [now rewrite Z0|]. split; [exists x; split; [auto|now rewrite E1]|exists x', y; split; [auto|now rewrite E2]].
Qed.
Theorem C121_normalize_3d : forall c refs c', c_dim c = 3%nat -> shaped c -> pc_normalize c refs = Some c' ->
  c_dim c' = 3%nat /\ c_labels c' = c_labels c /\ shaped c' /\ pc_edm c' = pc_edm c /\
  exists k0 k1 k2 k3, (forall r, refs = Some r -> nth_error r 0 = Some k0 /\ nth_error r 1 = Some k1 /\ nth_error r 2 = Some k2 /\ nth_error r 3 = Some k3) /\ (refs = None -> k0 = At 0 /\ k1 = At 1 /\ k2 = At 2 /\ k3 = At 3) /\
    pc_get c' k0 = Some [0; 0; 0] /\ (exists x y, 0 <= y /\ pc_get c' k2 = Some [x; y; 0]) /\ (exists x y z, 0 <= z /\ pc_get c' k3 = Some [x; y; z]) /\
    forall p0 p1, pc_get c k0 = Some p0 -> pc_get c k1 = Some p1 -> nth 2 p1 0 = nth 2 p0 0 -> exists x, 0 <= x /\ pc_get c' k1 = Some [x; 0; 0].
Proof.
  intros c refs c' Hd Hs H. destruct (normalize_3 c refs c' Hd Hs H) as (F & k0 & k1 & k2 & k3 & p0 & p1 & p2 & p3 & -> & HF & N0 & N1 & N2 & N3 & G0 & G1 & G2 & G3 & Z0 & X1 & (x & y & Hy & E2) & (x' & y' & z & Hz & E3)).
  rewrite <- Hd in HF. split; [exact Hd|]. split; [reflexivity|]. split; [now apply shaped_iso|]. split; [now apply edm_iso|]. exists k0, k1, k2, k3. split; [intros r ->; auto|]. split.
  { intros ->. cbn in N0, N1, N2, N3. apply some_inj in N0, N1, N2, N3. auto. }
  rewrite !get_map, G0, G1, G2, G3. cbn [option_map]. split; [now rewrite Z0|]. split; [exists x, y; split; [auto|now rewrite E2]|]. split; [exists x', y', z; split; [auto|now rewrite E3]|].
  intros q0 q1 Q0 Q1 E. apply some_inj in Q0, Q1. subst q0 q1. destruct (X1 E) as (w & Hw & E1). exists w. split; auto. now rewrite E1.
Qed.
(** It works with three references in the plane, four in space; a reference may be used twice. *)
Theorem C121_normalize_defined : forall c refs, (c_dim c = 2%nat \/ c_dim c = 3%nat) -> (forall k, In k (default_refs refs) -> exists p, pc_get c k = Some p) -> ((c_dim c + 1 <= List.length (default_refs refs))%nat <-> exists c', pc_normalize c refs = Some c').
Proof.
  intros c refs Hd Hk. unfold pc_normalize. fold (default_refs refs). set (l := default_refs refs) in *. clearbody l.
  assert (EM : exists is, mapM (key2ind c) l = Some is /\ List.length is = List.length l /\ Forall (fun i => exists p, column c i = Some p) is).
  { induction l as [|k l IH]; [exists []; repeat split; constructor|]. destruct IH as (is & E & Hl & HF); [intros; apply Hk; now right|]. destruct (Hk k (or_introl eq_refl)) as [p Hp]. unfold pc_get in Hp. destruct (key2ind c k) as [i|] eqn:Ek; [|discriminate]. cbn [bind] in Hp. exists (i :: is). cbn [mapM]. rewrite Ek. cbn [bind]. rewrite E. cbn [bind List.length]. rewrite Hl. repeat split. constructor; eauto. }
  destruct EM as (is & -> & Hl & HF). cbn [bind]. rewrite <- Hl. rewrite Forall_forall in HF.
  assert (HC : forall i n, nth_error is n = Some i -> exists p, column c i = Some p) by (intros i n Hi; apply HF; now apply nth_error_In in Hi).
  assert (HN : forall n, (n < List.length is)%nat -> exists i p, nth_error is n = Some i /\ column c i = Some p). { intros n Hn. destruct (nth_error is n) as [i|] eqn:E; [|apply nth_error_None in E; lia]. destruct (HC i n E) as [p Hp]. eauto. }
  destruct Hd as [Hd|Hd]; rewrite Hd; cbn [Nat.eqb andb orb].
  - destruct (Nat.ltb_spec (List.length is) 3) as [Hlt|Hge]; cbn [orb]; [split; [lia|intros [c' E]; discriminate]|]. split; [intros _|lia].
    destruct (HN 0%nat) as (i0 & q0 & -> & C0); [lia|]. cbn [bind]. rewrite C0. cbn [bind]. destruct (HN 1%nat) as (i1 & q1 & -> & C1); [lia|]. cbn [bind]. rewrite column_map, C1. cbn [bind option_map c_pts with_pts]. destruct (HN 2%nat) as (i2 & q2 & -> & C2); [lia|]. cbn [bind]. rewrite map_map, column_map, C2. cbn [bind option_map]. eauto.
  - destruct (Nat.ltb_spec (List.length is) 4) as [Hlt|Hge]; [split; [lia|intros [c' E]; discriminate]|]. split; [intros _|lia].
    destruct (HN 0%nat) as (i0 & q0 & -> & C0); [lia|]. cbn [bind]. rewrite C0. cbn [bind]. destruct (HN 1%nat) as (i1 & q1 & -> & C1); [lia|]. cbn [bind]. rewrite column_map, C1. cbn [bind option_map c_pts with_pts]. destruct (HN 2%nat) as (i2 & q2 & -> & C2); [lia|]. cbn [bind]. rewrite map_map, column_map, C2. cbn [bind option_map c_pts with_pts]. destruct (HN 3%nat) as (i3 & q3 & -> & C3); [lia|]. cbn [bind]. rewrite map_map, column_map, C3. cbn [bind option_map]. eauto.
Qed.
Lemma atan2_x_axis : forall x, 0 < x -> atan2 0 x = 0.
Proof. intros x Hx. pose proof PI_RGT_0. pose proof (atan2_unique x 0 Hx ltac:(lra)) as E. rewrite sin_0, cos_0, Rmult_0_r, Rmult_1_r in E. exact E. Qed.
Definition ex_cloud : cloud := {| c_dim := 3; c_pts := [[0; 0; 0]; [1; 0; 1]; [0; 1; 0]; [0; 0; 1]]; c_labels := ["o"; "a"; "b"; "c"]%string |}.
Lemma ex_cloud_shaped : shaped ex_cloud.
Proof. repeat constructor. Qed.
(** In space the second reference does not come to lie on the x-axis unless it is as high as the first. *)
Theorem C121_normalize_axis_refuted : exists c c' p, c_dim c = 3%nat /\ shaped c /\ pc_normalize c None = Some c' /\ pc_get c' (At 1) = Some p /\ nth 2 p 0 <> 0.
Proof.
  exists ex_cloud. unfold pc_normalize. cbn -[Rplus Rmult Rminus Ropp atan2 cos sin Rlt_dec IZR].
  change (Pos.to_nat 1) with 1%nat. change (Pos.to_nat 2) with 2%nat. change (Pos.to_nat 3) with 3%nat. cbn -[Rplus Rmult Rminus Ropp atan2 cos sin Rlt_dec IZR].
  replace (atan2 (0 - 0) (1 - 0)) with 0 by (rewrite !Rminus_0_r; symmetry; apply atan2_x_axis; lra). rewrite cos_0, sin_0.
  set (w := atan2 _ _). assert (Ew : w = 0) by (unfold w; replace (0 - 0) with 0 by ring; replace (- (0) * 0 + 1 * (1 - 0)) with 1 by ring; apply atan2_x_axis; lra). rewrite Ew, cos_0, sin_0. clear w Ew.
  destruct (Rlt_dec _ 0) as [Hl|Hl]; [exfalso; lra|]. eexists. eexists. split; [reflexivity|]. split; [apply ex_cloud_shaped|]. split; [reflexivity|]. split; [reflexivity|]. cbn. lra.
Qed.
(** center *)
Lemma self_zero : forall x, vminus x x = repeat 0 (List.length x).
Proof. intros x. rewrite vminus_self. induction x as [|a x IH]; cbn; congruence. Qed.
Theorem C121_center : forall c k p, shaped c -> pc_get c k = Some p ->
  exists c', pc_center c k = Some c' /\ c_dim c' = c_dim c /\ c_labels c' = c_labels c /\ pc_edm c' = pc_edm c /\ pc_get c' k = Some (repeat 0 (c_dim c)) /\ (forall k2 q, pc_get c k2 = Some q -> pc_get c' k2 = Some (vminus q p)).
Proof.
  intros c k p Hs H. pose proof (get_shape c k p Hs H) as Lp. unfold pc_center, pc_get in *. destruct (key2ind c k) as [i|] eqn:Ek; [|discriminate]. cbn [bind] in *. rewrite H. cbn [bind]. eexists. split; [reflexivity|]. split; [reflexivity|]. split; [reflexivity|].
  split; [apply (edm_iso c (fun q => vminus q p)); [auto|now apply iso_shift]|]. split.
  - rewrite key_with, Ek. cbn [bind]. rewrite (column_map c (fun q => vminus q p)), H. cbn [option_map]. now rewrite self_zero, Lp.
  - intros k2 q Hq. rewrite key_with. destruct (key2ind c k2) as [i2|]; [|discriminate]. cbn [bind] in *. rewrite (column_map c (fun q => vminus q p)), Hq. reflexivity.
Qed.
Theorem C121_center_unknown : forall c k, pc_get c k = None -> pc_center c k = None.
Proof. intros c k H. unfold pc_center, pc_get in *. destruct (key2ind c k); [|reflexivity]. cbn [bind] in *. now rewrite H. Qed.

(** align *)
Definition z_axis (k : key) (a : axis) : Prop := match k with Label _ => a = Name "z" | At _ => a = Num 2 \/ a = Num (-1) end.
Lemma swap_same : forall v, swap_rows 2 2 v = v.
Proof.
  intros v. unfold swap_rows. assert (H : forall u : vec, map (fun i => if Nat.eqb i 2 then nth 2 u 0 else nth i u 0) (seq 0 (List.length u)) = u).
  { intros u. apply vec_ext; [now rewrite map_length, seq_length|]. intros i. destruct (Nat.lt_ge_cases i (List.length u)) as [Hi|Hi]; [|now rewrite !nth_overflow by (rewrite ?map_length, ?seq_length; lia)].
    rewrite (nth_indep _ 0 ((fun i => if Nat.eqb i 2 then nth 2 u 0 else nth i u 0) 0%nat)) by (now rewrite map_length, seq_length). rewrite (map_nth (fun i => if Nat.eqb i 2 then nth 2 u 0 else nth i u 0)). rewrite seq_nth by auto. cbn [Nat.add]. destruct (Nat.eqb_spec i 2) as [->|]; reflexivity. }
  rewrite !H. reflexivity.
Qed.
Theorem C121_align : forall c k a p, shaped c -> pc_get c k = Some p -> (c_dim c = 2%nat /\ (exists i, k = At i \/ (exists s, k = Label s /\ In a [Name "x"; Name "y"; Name "z"])) \/ c_dim c = 3%nat /\ z_axis k a) ->
  exists c', pc_align c k a = Some c' /\ c_dim c' = c_dim c /\ c_labels c' = c_labels c /\ pc_edm c' = pc_edm c /\
    pc_get c' k = Some (sqrt (nth 0 p 0 * nth 0 p 0 + nth 1 p 0 * nth 1 p 0) :: 0 :: skipn 2 p) /\
    (forall k2 q, pc_get c k2 = Some q -> exists q', pc_get c' k2 = Some q' /\ vnorm q' = vnorm q /\ skipn 2 q' = skipn 2 q).
Proof.
  intros c k a p Hs H Hc. pose proof (get_shape c k p Hs H) as Lp.
  set (th := atan2 (nth 1 p 0) (nth 0 p 0)). set (F := rotate_xy (cos th) (sin th)).
  assert (Hd : (2 <= c_dim c)%nat) by (destruct Hc as [[-> _]|[-> _]]; lia).
  assert (E : pc_align c k a = Some (with_pts c (map F (c_pts c)))).
  { unfold pc_align. unfold pc_get in H. destruct (key2ind c k) as [i|] eqn:Ek; [|discriminate]. cbn [bind] in H |- *.
    destruct (Nat.ltb_spec (c_dim c) 2) as [|_]; [lia|]. destruct Hc as [[Hd2 Hk]|[Hd3 Hz]].
    - rewrite Hd2. cbn [Nat.eqb]. assert (X : exists a', match k, a with Label _, Name s => option_map (fun n => Num (Z.of_nat n)) (index_of s ["x"; "y"; "z"]%string) | Label _, Num _ => None | At _, a => Some a end = Some a').
      { destruct Hk as (j & [->|(s & -> & Ha)]); [eauto|]. destruct Ha as [<-|[<-|[<-|[]]]]; cbn; eauto. }
      destruct X as [a' ->]. cbn [bind]. rewrite map_id_eq. change (column (with_pts c (c_pts c)) i) with (column c i). rewrite H. cbn [bind with_pts c_pts]. reflexivity.
    - rewrite Hd3. cbn [Nat.eqb]. assert (X : (let* a := match k, a with Label _, Name s => option_map (fun n => Num (Z.of_nat n)) (index_of s ["x"; "y"; "z"]%string) | Label _, Num _ => None | At _, a => Some a end in match a with Num z => let* r := wrap 3 z in Some (swap_rows r 2) | Name _ => None end) = Some (swap_rows 2 2)).
      { destruct k as [s|j]; cbn in Hz; [subst a; reflexivity|]. destruct Hz as [->| ->]; reflexivity. }
      destruct (match k, a with Label _, Name s => option_map (fun n => Num (Z.of_nat n)) (index_of s ["x"; "y"; "z"]%string) | Label _, Num _ => None | At _, a => Some a end) as [a'|]; [|discriminate]. cbn [bind] in X |- *. rewrite X. cbn [bind].
      assert (Em : map (swap_rows 2 2) (c_pts c) = c_pts c) by (rewrite <- (map_id (c_pts c)) at 2; apply map_ext; apply swap_same). rewrite Em. change (column (with_pts c (c_pts c)) i) with (column c i). rewrite H. cbn [bind with_pts c_pts]. apply f_equal. apply (f_equal (with_pts c)). apply map_ext. intros v. rewrite swap_same. reflexivity. }
  assert (HF : iso (c_dim c) F) by (now apply iso_rotate_xy). exists (with_pts c (map F (c_pts c))). split; [exact E|]. split; [reflexivity|]. split; [reflexivity|]. split; [now apply edm_iso|]. split.
  - rewrite get_map, H. cbn [option_map]. f_equal. unfold F. destruct p as [|x [|y p]]; cbn in Lp; try lia. cbn [rotate_xy nth skipn] in *. destruct (turn x y) as [T1 T2]. fold th in T1, T2. now rewrite T1, T2.
  - intros k2 q Hq. pose proof (get_shape c k2 q Hs Hq) as Lq. exists (F q). rewrite get_map, Hq. split; [reflexivity|]. unfold F. destruct q as [|x [|y q]]; cbn in Lq; try lia. cbn [rotate_xy skipn]. split; [|reflexivity]. unfold vnorm. f_equal. unfold vsq. rewrite !dot_cons. pose proof (sin2_cos2 th) as Q. unfold Rsqr in Q. set (s := sin th) in *. set (co := cos th) in *. set (r := dot q q). replace ((co * x + s * y) * (co * x + s * y) + ((- s * x + co * y) * (- s * x + co * y) + r)) with ((s * s + co * co) * (x * x + y * y) + r) by ring. rewrite Q. ring.
Qed.

(** Around the x-axis or the y-axis, the rows are not exchanged but overwritten. *)
Lemma sw_x : forall x y z, swap_rows 0 2 [x; y; z] = [z; y; z].
Proof. reflexivity. Qed.
Lemma sw_y : forall x y z, swap_rows 1 2 [x; y; z] = [x; z; z].
Proof. reflexivity. Qed.
Theorem C121_align_overwrites : forall c i, c_dim c = 3%nat -> shaped c -> 
  (forall c', pc_align c (At i) (Num 0) = Some c' -> Forall (fun p => nth 0 p 0 = nth 2 p 0) (c_pts c')) /\
  (forall c', pc_align c (At i) (Num 1) = Some c' -> Forall (fun p => nth 1 p 0 = nth 2 p 0) (c_pts c')).
Proof.
  intros c i Hd Hs. unfold shaped in Hs. rewrite Hd in Hs. rewrite Forall_forall in Hs. split; intros c' H; unfold pc_align in H; cbn [key2ind bind] in H; rewrite Hd in H; cbn [Nat.ltb Nat.leb Nat.eqb] in H.
  - change (wrap 3 0) with (Some 0%nat) in H. cbn [bind] in H. destruct (column _ i) as [p|]; [|discriminate]. cbn [bind] in H. apply some_inj in H. subst c'. cbn [with_pts c_pts]. rewrite map_map. apply Forall_forall. intros v Hv. apply in_map_iff in Hv. destruct Hv as (u & <- & Hu). specialize (Hs u Hu). destruct u as [|x [|y [|z [|]]]]; try discriminate. rewrite sw_x. cbn [rotate_xy]. rewrite sw_x. reflexivity.
  - change (wrap 3 1) with (Some 1%nat) in H. cbn [bind] in H. destruct (column _ i) as [p|]; [|discriminate]. cbn [bind] in H. apply some_inj in H. subst c'. cbn [with_pts c_pts]. rewrite map_map. apply Forall_forall. intros v Hv. apply in_map_iff in Hv. destruct Hv as (u & <- & Hu). specialize (Hs u Hu). destruct u as [|x [|y [|z [|]]]]; try discriminate. rewrite sw_y. cbn [rotate_xy]. rewrite sw_y. reflexivity.
Qed.
(** So the distances between the points are not kept. *)
Theorem C121_align_axis_refuted : exists c c', c_dim c = 3%nat /\ shaped c /\ pc_align c (At 1) (Num 0) = Some c' /\ nth 1 (nth 0 (pc_edm c) []) 0 = 14 /\ nth 1 (nth 0 (pc_edm c') []) 0 = 18.
Proof.
  exists {| c_dim := 3; c_pts := [[0; 0; 0]; [1; 2; 3]]; c_labels := ["o"; "a"]%string |}. eexists. split; [reflexivity|]. split; [repeat constructor|]. split; [reflexivity|]. unfold pc_edm. cbn [c_pts map nth with_pts].
  split; [unfold dot, Rsum; cbn; ring|]. change (Z.to_nat (if (0 <? 0)%Z then (Z.of_nat 3 + 0)%Z else 0%Z)) with 0%nat. change (swap_rows 0 2 [0; 0; 0]) with [0; 0; 0]. change (swap_rows 0 2 [1; 2; 3]) with [3; 2; 3]. cbn [nth rotate_xy]. set (th := atan2 2 3). rewrite !sw_x.
  destruct (turn 3 2) as [_ T]. fold th in T.
  rewrite T. unfold dot, Rsum. cbn. ring.
Qed.
(** An axis number cannot be combined with a label, nor, in space, an axis name with a point number. *)
Theorem C121_align_axis_kind : (forall c s a, pc_align c (Label s) (Num a) = None) /\ (forall c i s, c_dim c = 3%nat -> pc_align c (At i) (Name s) = None).
Proof.
  split; intros; unfold pc_align.
  - destruct (key2ind c (Label s)); reflexivity.
  - cbn [key2ind bind]. rewrite H. reflexivity.
Qed.

(** correct *)
Definition refers (c : cloud) (k : key) (j : nat) : bool := match key2ind c k with Some i => match wrap (List.length (c_pts c)) i with Some n => Nat.eqb j n | None => false end | None => false end.
Theorem C121_correct : forall corr c c', pc_correct c corr = Some c' -> c_dim c' = c_dim c /\ c_labels c' = c_labels c /\ List.length (c_pts c') = List.length (c_pts c) /\
  forall j, (j < List.length (c_pts c))%nat -> nth j (c_pts c') [] = fold_left vadd (map snd (filter (fun kv => refers c (fst kv) j) corr)) (nth j (c_pts c) []).
Proof.
  induction corr as [|[k v] corr IH]; intros c c' H; unfold pc_correct in H; cbn [foldM fst snd] in H.
  - apply some_inj in H. subst c'. repeat split; auto.
  - destruct (key2ind c k) as [i|] eqn:Ek; [|discriminate]. cbn [bind] in H. destruct (wrap (List.length (c_pts c)) i) as [n|] eqn:Ew; [|discriminate]. cbn [bind] in H. destruct (Nat.eqb_spec (List.length v) (c_dim c)) as [El|]; [|discriminate]. cbn [bind] in H.
    set (c1 := with_pts c _) in H. assert (L1 : List.length (c_pts c1) = List.length (c_pts c)) by (unfold c1; cbn [with_pts c_pts]; now rewrite map_length, seq_length). destruct (IH c1 c' H) as (D & Lb & Ln & HN). repeat split; [exact D|exact Lb|congruence|].
    intros j Hj. rewrite HN by congruence. cbn [filter fst]. assert (ER : forall q, refers c1 q j = refers c q j) by (intros q; unfold refers; rewrite L1; reflexivity).
    rewrite (filter_ext _ (fun kv : key * vec => refers c (fst kv) j)) by (intros kv; apply ER). assert (E1 : nth j (c_pts c1) [] = if Nat.eqb j n then vadd (nth j (c_pts c) []) v else nth j (c_pts c) []).
    { unfold c1. cbn [with_pts c_pts]. set (g := fun j0 : nat => let p := nth j0 (c_pts c) [] in if Nat.eqb j0 n then vadd p v else p). rewrite (nth_indep _ [] (g 0%nat)) by (now rewrite map_length, seq_length). rewrite (map_nth g), seq_nth by auto. reflexivity. }
    rewrite E1. unfold refers at 2. rewrite Ek, Ew. destruct (Nat.eqb j n); reflexivity.
Qed.
(** doa *)
Theorem C121_doa : forall c r s pr ps, c_dim c = 3%nat -> shaped c -> pc_get c r = Some pr -> pc_get c s = Some ps ->
  exists az el, pc_doa c r s = Some (az, el) /\ - PI < az <= PI /\ - (PI / 2) <= el <= PI / 2 /\ vminus ps pr = vscal (vdist ps pr) [cos el * cos az; cos el * sin az; sin el].
Proof.
  intros c r s pr ps Hd Hs Hr Hsr. pose proof (get_shape _ _ _ Hs Hr) as Lr. pose proof (get_shape _ _ _ Hs Hsr) as Ls. rewrite Hd in Lr, Ls. unfold pc_doa, pc_get in *. destruct (key2ind c s) as [i|]; [|discriminate]. destruct (key2ind c r) as [j|]; [|discriminate]. cbn [bind] in *. rewrite Hsr. cbn [bind]. rewrite Hr. cbn [bind]. rewrite Hd. cbn [Nat.ltb Nat.leb].
  assert (L : List.length (vminus ps pr) = 3%nat) by (rewrite vminus_length; congruence). assert (EV : vdist ps pr = vnorm (vminus ps pr)) by reflexivity. rewrite EV. destruct (vminus ps pr) as [|x [|y [|z [|]]]]; try discriminate. cbn [nth]. set (rho := sqrt (x * x + y * y)). set (az := atan2 y x). set (el := atan2 z rho). exists az, el. split; [reflexivity|]. split; [apply atan2_range|].
  assert (Hrho : 0 <= rho) by apply sqrt_pos. assert (Hrr : rho * rho = x * x + y * y) by (apply sqrt_def; nra).
  destruct (atan2_spec y x) as [A1 A2]. fold rho az in A1, A2. destruct (atan2_spec z rho) as [B1 B2]. fold el in B1, B2. set (n := sqrt (rho * rho + z * z)) in *. assert (En : vnorm [x; y; z] = n). { unfold vnorm, n, vsq, dot, Rsum. f_equal. cbn. rewrite Hrr. ring. } rewrite En. assert (Hn : 0 <= n) by apply sqrt_pos. clearbody n. split.
  - destruct (atan2_range z rho) as [R1 R2]. fold el in R1, R2. destruct (Req_dec n 0) as [Hz|Hz].
    + assert (rho = 0) by (rewrite <- B1, Hz; ring). assert (z = 0) by (rewrite <- B2, Hz; ring). assert (Hel : el = 0). { unfold el. rewrite H, H0. unfold atan2. repeat destruct (Rlt_dec _ _); lra. } rewrite Hel. pose proof PI_RGT_0. lra.
    + assert (0 <= cos el) by (apply (Rmult_le_reg_l n); [lra|]; rewrite Rmult_0_r, B1; lra). destruct (Rlt_dec el (- (PI / 2))) as [Hl|Hl].
      * exfalso. assert (0 < cos (el + PI)) by (apply cos_gt_0; lra). rewrite neg_cos in H0. lra.
      * destruct (Rlt_dec (PI / 2) el) as [Hg|Hg]; [|lra]. exfalso. assert (cos el < 0) by (apply cos_lt_0; lra). lra.
  - cbn [vscal map]. f_equal; [|f_equal; [|f_equal]]; rewrite <- ?Rmult_assoc, ?B1, ?A1, ?A2, ?B2; reflexivity.
Qed.

(** flatten.  The left singular vectors of the points [X] (columns, in dimension [d]). *)
Definition left_svd (d : nat) (X U : list vec) : Prop :=
  List.length U = Nat.min d (List.length X) /\ Forall (fun u => List.length u = d) U /\
  (List.length U = d -> forall x y, List.length x = d -> List.length y = d -> bsum d (fun i => dot (nth i U []) x * dot (nth i U []) y) = dot x y) /\
  exists s : nat -> R, (forall i, 0 <= s (S i) <= s i) /\ forall i j, (i < List.length U)%nat -> (j < List.length U)%nat -> Rsum (map (fun p => dot (nth i U []) p * dot (nth j U []) p) X) = if Nat.eqb i j then s i * s i else 0.
Lemma Rsum_bsum_swap : forall {A} (X : list A) n (f : A -> nat -> R), Rsum (map (fun p => bsum n (f p)) X) = bsum n (fun i => Rsum (map (fun p => f p i) X)).
Proof. intros A X n f. induction X as [|a X IH]; [unfold Rsum; cbn; now rewrite bsum_zero|]. cbn [map]. unfold Rsum in *. cbn [fold_right]. rewrite IH. rewrite <- bsum_plus. reflexivity. Qed.
Lemma smallest_spread : forall d X U w, (0 < d)%nat -> List.length U = d -> left_svd d X U -> Forall (fun p => List.length p = d) X -> List.length w = d -> vsq w = 1 ->
  Rsum (map (fun p => dot (nth (d - 1) U []) p * dot (nth (d - 1) U []) p) X) <= Rsum (map (fun p => dot w p * dot w p) X).
Proof.
  intros d X U w Hd HU (_ & _ & HC & s & Hs & HG) HX Hw H1. specialize (HC HU). rewrite HU in HG. rewrite Forall_forall in HX. rewrite HG by lia. rewrite Nat.eqb_refl.
  set (a := fun i => dot (nth i U []) w).
  assert (E : Rsum (map (fun p => dot w p * dot w p) X) = bsum d (fun i => a i * a i * (s i * s i))).
  { transitivity (Rsum (map (fun p => bsum d (fun i => bsum d (fun j => a i * a j * (dot (nth i U []) p * dot (nth j U []) p)))) X)).
    - apply Rsum_map_ext. intros p Hp. rewrite <- (HC w p) by auto. rewrite bsum_mul. apply bsum_ext. intros i Hi. apply bsum_ext. intros j Hj. unfold a. ring.
    - rewrite Rsum_bsum_swap. apply bsum_ext. intros i Hi. rewrite (Rsum_bsum_swap X d (fun p j => a i * a j * (dot (nth i U []) p * dot (nth j U []) p))). rewrite (bsum_delta d i).
      + rewrite Rsum_map_scal, HG, Nat.eqb_refl by auto. reflexivity.
      + exact Hi.
      + intros j Hj Hn. rewrite Rsum_map_scal, HG by auto. destruct (Nat.eqb_spec i j); [congruence|ring]. }
  rewrite E. assert (Hmono : forall i k, s (i + k)%nat <= s i) by (intros i; induction k as [|k IH]; [rewrite Nat.add_0_r; lra|rewrite Nat.add_succ_r; destruct (Hs (i + k)%nat); lra]). assert (Hpos : forall i, 0 <= s i) by (intros i; destruct (Hs i); lra).
  apply Rle_trans with (bsum d (fun i => a i * a i * (s (d - 1)%nat * s (d - 1)%nat))).
  - rewrite bsum_scal_r. unfold a. rewrite HC by auto. change (dot w w) with (vsq w). rewrite H1. lra.
  - apply bsum_le. intros i Hi. apply Rmult_le_compat_l; [nra|]. replace (d - 1)%nat with (i + (d - 1 - i))%nat by lia. pose proof (Hmono i (d - 1 - i)%nat). pose proof (Hpos (i + (d - 1 - i))%nat). pose proof (Hpos i). nra.
Qed.
Lemma mapM_get : forall c l, (let* ind := mapM (key2ind c) l in mapM (column c) ind) = mapM (pc_get c) l.
Proof.
  intros c. induction l as [|k l IH]; [reflexivity|]. cbn [mapM]. unfold pc_get at 1. destruct (key2ind c k) as [i|]; cbn [bind]; [|reflexivity]. destruct (mapM (key2ind c) l) as [is|] eqn:E; cbn [bind mapM] in *.
  - destruct (column c i); cbn [bind]; [|reflexivity]. now rewrite IH.
  - rewrite <- IH. destruct (column c i); reflexivity.
Qed.
Lemma dot_map_nth : forall U x d, List.length U = d -> bsum d (fun i => dot (nth i U []) x * dot (nth i U []) x) = vsq (map (fun u => dot u x) U).
Proof.
  intros U x d <-. induction U as [|u U IH] using rev_ind; [reflexivity|]. rewrite app_length. cbn [List.length]. rewrite Nat.add_1_r. cbn [bsum]. rewrite app_nth2, Nat.sub_diag by lia. cbn [nth]. rewrite (bsum_ext _ _ (fun i => dot (nth i U []) x * dot (nth i U []) x)) by (intros i Hi; rewrite app_nth1 by auto; reflexivity). rewrite IH.
  rewrite map_app. unfold vsq. cbn [map]. clear. induction (map (fun u0 => dot u0 x) U) as [|a l IH]; cbn [app]; [rewrite dot_cons; unfold dot, Rsum; cbn; ring|]. rewrite !dot_cons. rewrite <- IH. ring.
Qed.
Lemma vmean_length : forall d l, List.length (vmean d l) = d.
Proof. intros. unfold vmean. now rewrite map_length, seq_length. Qed.
Section Flat.
Variables (d : nat) (m : vec) (U : list vec).
Hypotheses (Hm : List.length m = d) (HU : List.length U = d) (HL : Forall (fun u => List.length u = d) U)
  (HC : forall x y, List.length x = d -> List.length y = d -> bsum d (fun i => dot (nth i U []) x * dot (nth i U []) y) = dot x y).
Lemma flat_coord : forall p i, List.length p = d -> (i < d)%nat -> nth i (vadd (map (fun u => dot u (vminus p m)) U) m) 0 = dot (nth i U []) (vminus p m) + nth i m 0.
Proof.
  intros p i Hp Hi. rewrite nth_vadd by (rewrite map_length; congruence). f_equal. rewrite (nth_indep _ 0 (dot [] (vminus p m))) by (rewrite map_length; lia). apply (map_nth (fun u => dot u (vminus p m))).
Qed.
Lemma flat_iso : iso d (fun p => vadd (map (fun u => dot u (vminus p m)) U) m).
Proof.
  intros p q Hp Hq. assert (Lpm : forall v, List.length v = d -> List.length (vminus v m) = d) by (intros v Hv; rewrite vminus_length; congruence). split; [rewrite vadd_length; rewrite map_length; congruence|].
  assert (E : vminus (vadd (map (fun u => dot u (vminus p m)) U) m) (vadd (map (fun u => dot u (vminus q m)) U) m) = map (fun u => dot u (vminus p q)) U).
  { apply vec_ext; [rewrite vminus_length; rewrite !vadd_length; rewrite !map_length; congruence|]. intros i. rewrite nth_vminus by (rewrite !vadd_length; rewrite !map_length; congruence).
    destruct (Nat.lt_ge_cases i d) as [Hi|Hi]; [|rewrite !nth_overflow by (rewrite ?vadd_length; rewrite ?map_length; congruence || lia); ring].
    rewrite !flat_coord by auto. rewrite (nth_indep (map _ U) 0 (dot [] (vminus p q))) by (rewrite map_length; lia). rewrite (map_nth (fun u => dot u (vminus p q))). rewrite Forall_forall in HL. rewrite !dot_vminus_r by (rewrite ?HL by (apply nth_In; lia); congruence). ring. }
  rewrite E. rewrite <- (dot_map_nth U (vminus p q) d HU). apply HC; rewrite vminus_length; congruence.
Qed.
End Flat.
Lemma mapM_map : forall {A B C} (f : A -> option B) (g : B -> C) (h : A -> option C) l l', (forall a, h a = option_map g (f a)) -> mapM f l = Some l' -> mapM h l = Some (map g l').
Proof.
  intros A B C f g h l l' Hh. revert l'. induction l as [|a l IH]; intros l' H; cbn [mapM] in *; [apply some_inj in H; now subst|]. rewrite Hh. destruct (f a) as [b|]; [|discriminate]. cbn [bind option_map] in *. destruct (mapM f l) as [t|]; [|discriminate]. cbn [bind] in H. apply some_inj in H. subst l'. rewrite (IH t) by reflexivity. reflexivity.
Qed.
Lemma mapM_shape : forall c ind group, shaped c -> mapM (pc_get c) ind = Some group -> Forall (fun p => List.length p = c_dim c) group.
Proof.
  intros c. induction ind as [|k ind IH]; intros group Hs H; cbn [mapM] in H; [apply some_inj in H; subst; constructor|]. destruct (pc_get c k) as [p|] eqn:E; [|discriminate]. cbn [bind] in H. destruct (mapM (pc_get c) ind) as [t|]; [|discriminate]. cbn [bind] in H. apply some_inj in H. subst group. constructor; [now apply (get_shape c k)|auto].
Qed.
(** The cloud moves rigidly, and over all directions the group is thinnest along the last axis. *)
Theorem C121_flatten : forall svd c ind group, shaped c -> (0 < c_dim c)%nat -> mapM (pc_get c) ind = Some group -> (c_dim c <= List.length group)%nat ->
  let m := vmean (c_dim c) group in let X := map (fun p => vminus p m) group in
  left_svd (c_dim c) X (svd X) ->
  exists c' group', pc_flatten svd c ind = Some c' /\ c_dim c' = c_dim c /\ c_labels c' = c_labels c /\ pc_edm c' = pc_edm c /\ mapM (pc_get c') ind = Some group' /\
    forall w, List.length w = c_dim c -> vsq w = 1 ->
      Rsum (map (fun q => (nth (c_dim c - 1) q 0 - nth (c_dim c - 1) m 0) * (nth (c_dim c - 1) q 0 - nth (c_dim c - 1) m 0)) group') <= Rsum (map (fun p => dot w (vminus p m) * dot w (vminus p m)) group).
Proof.
  intros svd c ind group Hs Hd Hg Hl m X HS. assert (Lm : List.length m = c_dim c) by apply vmean_length.
  pose proof HS as (LU & FU & CU & _). assert (LX : List.length X = List.length group) by (unfold X; apply map_length). rewrite LX, Nat.min_l in LU by lia. specialize (CU LU).
  set (F := fun p => vadd (map (fun u => dot u (vminus p m)) (svd X)) m). exists (with_pts c (map F (c_pts c))), (map F group).
  assert (E : pc_flatten svd c ind = Some (with_pts c (map F (c_pts c)))).
  { unfold pc_flatten. rewrite <- mapM_get in Hg. destruct (mapM (key2ind c) ind) as [is|]; [|discriminate]. cbn [bind] in *. rewrite Hg. cbn [bind]. destruct (Nat.eqb_spec (List.length group) 0) as [|_]; [lia|]. fold m. fold X. destruct (Nat.eqb_spec (List.length (svd X)) (c_dim c)) as [_|]; [reflexivity|congruence]. }
  split; [exact E|]. split; [reflexivity|]. split; [reflexivity|]. split; [apply edm_iso; [auto|]; now apply flat_iso|]. split; [apply (mapM_map (pc_get c) F); [intros; apply get_map|exact Hg]|].
  intros w Hw H1. pose proof (mapM_shape c ind group Hs Hg) as HG. rewrite map_map. pose proof HG as HG2. rewrite Forall_forall in HG2.
  rewrite (Rsum_map_ext _ (fun p => dot (nth (c_dim c - 1) (svd X) []) (vminus p m) * dot (nth (c_dim c - 1) (svd X) []) (vminus p m))).
  - pose proof (smallest_spread (c_dim c) X (svd X) w Hd LU HS) as Q. assert (EX : forall f : vec -> R, Rsum (map f X) = Rsum (map (fun p => f (vminus p m)) group)) by (intros f; unfold X; now rewrite map_map). rewrite !EX in Q. apply Q; auto. apply Forall_forall. unfold X. intros p Hp. apply in_map_iff in Hp. destruct Hp as (q & <- & Hq). rewrite vminus_length; rewrite HG2 by auto; congruence.
  - intros p Hp. unfold F. rewrite (flat_coord (c_dim c)) by (auto; lia). ring.
Qed.
(** A group with fewer points than dimensions (but more than one) is refused; a single point collapses
    the cloud onto a line. *)
Theorem C121_flatten_small : forall svd c ind group, mapM (pc_get c) ind = Some group ->
  let m := vmean (c_dim c) group in let X := map (fun p => vminus p m) group in left_svd (c_dim c) X (svd X) ->
  ((List.length group = 0 \/ 2 <= List.length group < c_dim c)%nat -> pc_flatten svd c ind = None) /\
  ((List.length group = 1 /\ 2 <= c_dim c)%nat -> exists c', pc_flatten svd c ind = Some c' /\ forall p, In p (c_pts c') -> exists t, p = map (fun x => t + x) m).
Proof.
  intros svd c ind group Hg m X (LU & _). assert (LX : List.length X = List.length group) by (unfold X; apply map_length). rewrite LX in LU. unfold pc_flatten. rewrite <- mapM_get in Hg. destruct (mapM (key2ind c) ind) as [is|]; [|discriminate]. cbn [bind] in *. rewrite Hg. cbn [bind]. fold m. fold X. split.
  - intros [H|H]; [rewrite H; reflexivity|]. destruct (Nat.eqb_spec (List.length group) 0) as [|_]; [lia|]. destruct (Nat.eqb_spec (List.length (svd X)) (c_dim c)); [lia|]. destruct (Nat.eqb_spec (List.length (svd X)) 1); [lia|reflexivity].
  - intros [H1 H2]. destruct (Nat.eqb_spec (List.length group) 0) as [|_]; [lia|]. destruct (Nat.eqb_spec (List.length (svd X)) (c_dim c)); [lia|]. destruct (Nat.eqb_spec (List.length (svd X)) 1); [|lia]. eexists. split; [reflexivity|]. cbn [with_pts c_pts]. intros p Hp. apply in_map_iff in Hp. destruct Hp as (q & <- & _). eauto.
Qed.

(** Concrete cases. *)
Definition ex_flat : cloud := {| c_dim := 2; c_pts := [[2; 0]; [-2; 0]; [0; 1]; [0; -1]]; c_labels := ["0"; "1"; "2"; "3"]%string |}.
Example ex_flatten : exists c', pc_flatten (fun _ => [[1; 0]; [0; 1]]) ex_flat (map At [0; 1; 2; 3]%Z) = Some c' /\ pc_edm c' = pc_edm ex_flat.
Proof.
  destruct (C121_flatten (fun _ => [[1; 0]; [0; 1]]) ex_flat (map At [0; 1; 2; 3]%Z) [[2; 0]; [-2; 0]; [0; 1]; [0; -1]]) as (c' & g & E & _ & _ & ED & _).
  - repeat constructor.
  - cbn. lia.
  - reflexivity.
  - cbn. lia.
  - assert (Em : vmean 2 [[2; 0]; [-2; 0]; [0; 1]; [0; -1]] = [0; 0]) by (unfold vmean, Rsum; cbn; f_equal; [field|f_equal; field]). cbn [ex_flat c_dim]. rewrite Em. split; [reflexivity|]. split; [repeat constructor|]. split.
    + intros _ x y Hx Hy. destruct x as [|a [|b [|]]]; try discriminate. destruct y as [|a' [|b' [|]]]; try discriminate. unfold dot, Rsum. cbn. ring.
    + exists (fun i => match i with 0%nat => sqrt 8 | 1%nat => sqrt 2 | _ => 0 end). split.
      * intros [|[|i]]; (split; [apply sqrt_pos || lra|]); [apply sqrt_le_1; lra|apply sqrt_pos|lra].
      * intros [|[|i]] [|[|j]] Hi Hj; cbn in Hi, Hj; try lia; unfold dot, Rsum; cbn; rewrite ?sqrt_def by lra; ring.
  - exists c'. auto.
Qed.
Example ex_normalize : exists c', pc_normalize ex_cloud (Some [Label "o"; Label "b"; At 1; At (-1)]%string) = Some c' /\ pc_edm c' = pc_edm ex_cloud /\ pc_get c' (Label "o") = Some [0; 0; 0] /\ exists x, 0 <= x /\ pc_get c' (Label "b") = Some [x; 0; 0].
Proof.
  destruct (proj1 (C121_normalize_defined ex_cloud (Some [Label "o"; Label "b"; At 1; At (-1)]%string) (or_intror eq_refl) ltac:(intros k Hk; cbn in Hk; destruct Hk as [<-|[<-|[<-|[<-|[]]]]]; cbv; eauto)) ltac:(cbn; lia)) as [c' E].
  exists c'. split; [exact E|]. destruct (C121_normalize_3d ex_cloud _ c' eq_refl ex_cloud_shaped E) as (_ & _ & _ & ED & k0 & k1 & k2 & k3 & HR & _ & Z0 & _ & _ & X1). split; [exact ED|]. destruct (HR _ eq_refl) as (N0 & N1 & _). cbn in N0, N1. apply some_inj in N0, N1. subst k0 k1. split; [exact Z0|]. apply (X1 [0; 0; 0] [0; 1; 0]); reflexivity.
Qed.
Example ex_center : exists c', pc_center ex_cloud (Label "a") = Some c' /\ pc_get c' (Label "a") = Some [0; 0; 0].
Proof. destruct (C121_center ex_cloud (Label "a") [1; 0; 1] ex_cloud_shaped eq_refl) as (c' & E & _ & _ & _ & G & _). exists c'. auto. Qed.
Example ex_align : exists c', pc_align ex_cloud (Label "b") (Name "z") = Some c' /\ exists x, pc_get c' (Label "b") = Some [x; 0; 0].
Proof. destruct (C121_align ex_cloud (Label "b") (Name "z") [0; 1; 0] ex_cloud_shaped eq_refl) as (c' & E & _ & _ & _ & G & _); [right; split; reflexivity|]. exists c'. split; [exact E|]. eexists. exact G. Qed.
Example ex_doa : exists az el, pc_doa ex_cloud (Label "o") (Label "a") = Some (az, el) /\ vminus [1; 0; 1] [0; 0; 0] = vscal (vdist [1; 0; 1] [0; 0; 0]) [cos el * cos az; cos el * sin az; sin el].
Proof. destruct (C121_doa ex_cloud (Label "o") (Label "a") [0; 0; 0] [1; 0; 1] eq_refl ex_cloud_shaped eq_refl eq_refl) as (az & el & E & _ & _ & V). exists az, el. auto. Qed.
Example ex_correct : exists c', pc_correct ex_flat [(Label "1", [1; 2]); (At (-3), [3; 4])] = Some c' /\ nth 1 (c_pts c') [] = vadd (vadd [-2; 0] [1; 2]) [3; 4].
Proof. eexists. split; [reflexivity|]. reflexivity. Qed.

Print Assumptions C121_edm.
Print Assumptions C121_label.
Print Assumptions C121_unknown_label.
Print Assumptions C121_default_labels.
Print Assumptions C121_one_label_per_point.
Print Assumptions C121_normalize_2d.
Print Assumptions C121_normalize_3d.
Print Assumptions C121_normalize_defined.
Print Assumptions C121_normalize_axis_refuted.
Print Assumptions C121_center.
Print Assumptions C121_center_unknown.
Print Assumptions C121_align.
Print Assumptions C121_align_overwrites.
Print Assumptions C121_align_axis_refuted.
Print Assumptions C121_align_axis_kind.
Print Assumptions C121_correct.
Print Assumptions C121_doa.
Print Assumptions C121_flatten.
Print Assumptions C121_flatten_small.
