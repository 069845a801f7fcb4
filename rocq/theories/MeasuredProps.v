(** C136: measured directivities. *)
From Coq Require Import Reals List ZArith Lia Lra Bool String Permutation.
From Verif Require Import Base BaseProofs Vec Sum SphereModel SphereProps DirectModel RotationProps GridModel GridProps MeasuredModel.
Import ListNotations.
Local Open Scope R_scope.

(** ** Specification *)
(** the search returns a nearest point *)
Definition nearest_ok (nearest : list vec -> vec -> nat) : Prop :=
  forall pts q, pts <> [] -> (nearest pts q < List.length pts)%nat /\ forall j, (j < List.length pts)%nat -> vdist q (nth (nearest pts q) pts []) <= vdist q (nth j pts []).
Definition unit3 (g : vec) : Prop := List.length g = 3%nat /\ dot g g = 1.
(** direction [i] of the grid has the smallest angle to [d] *)
Definition closest (grid : list vec) (d : vec) (i : nat) : Prop := (i < List.length grid)%nat /\ forall j, (j < List.length grid)%nat -> dot d (nth j grid []) <= dot d (nth i grid []).

(** ** Directions *)
Lemma l3 (u : vec) : List.length u = 3%nat -> exists x y z, u = [x; y; z].
Proof. destruct u as [|x [|y [|z [|]]]]; try discriminate. eauto. Qed.
Lemma vdist_dot d p : List.length d = 3%nat -> unit3 p -> vdist d p * vdist d p = dot d d - 2 * dot d p + 1.
Proof.
  intros Hd [Hp Up]. destruct (l3 d Hd) as (x & y & z & ->). destruct (l3 p Hp) as (x' & y' & z' & ->). unfold vdist, vnorm, vsq. rewrite sqrt_sqrt; unfold dot, Rsum in *; cbn in *; [lra|]. pose proof (Rle_0_sqr (x - x')). pose proof (Rle_0_sqr (y - y')). pose proof (Rle_0_sqr (z - z')). unfold Rsqr in *. lra.
Qed.
Lemma dist_le_dot d p q : List.length d = 3%nat -> unit3 p -> unit3 q -> vdist d p <= vdist d q -> dot d q <= dot d p.
Proof. intros Hd Hp Hq H. pose proof (vdist_dot d p Hd Hp). pose proof (vdist_dot d q Hd Hq). assert (0 <= vdist d p) by (unfold vdist, vnorm; apply sqrt_pos). assert (vdist d p * vdist d p <= vdist d q * vdist d q) by nra. lra. Qed.
Lemma unit_same p q : unit3 p -> unit3 q -> 1 <= dot p q -> p = q.
Proof.
  intros [Hp Up] [Hq Uq] H. destruct (l3 p Hp) as (x & y & z & ->). destruct (l3 q Hq) as (x' & y' & z' & ->). unfold dot, Rsum in *. cbn in *. assert (E : (x - x') * (x - x') + (y - y') * (y - y') + (z - z') * (z - z') <= 0) by lra.
  pose proof (Rle_0_sqr (x - x')). pose proof (Rle_0_sqr (y - y')). pose proof (Rle_0_sqr (z - z')). unfold Rsqr in *. assert (x - x' = 0) by (apply Rsqr_0_uniq; unfold Rsqr; lra). assert (y - y' = 0) by (apply Rsqr_0_uniq; unfold Rsqr; lra). assert (z - z' = 0) by (apply Rsqr_0_uniq; unfold Rsqr; lra). f_equal; [lra|f_equal; [lra|f_equal; lra]].
Qed.
Lemma rotation_proper angles order degrees rot : rotation3d angles order degrees = Some rot -> proper_rotation rot.
Proof.
  intros H. unfold rotation3d in H. destruct (Nat.leb (List.length angles) 3); [|discriminate]. destruct (mapM axis_map order) as [o|]; [|discriminate]. cbn in H. destruct (Nat.eqb _ _); [|discriminate]. exact (compute_proper _ _ _ proper_eye H).
Qed.
Lemma normal_unit p : unit3 p -> exists ac, grid_sphere_point p = Some (p, ac).
Proof.
  intros [Hp Up]. assert (N : vnorm p = 1) by (unfold vnorm, vsq; rewrite Up; apply sqrt_1). unfold grid_sphere_point. rewrite N. destruct (Req_EM_T 1 0); [lra|]. assert (E : map (fun a => a / 1) p = p) by (rewrite <- (map_id p) at 2; apply map_ext; intros; field). rewrite E. destruct (cart2spher p) as [[az co] r]. eauto.
Qed.
Lemma oriented m rot : proper_rotation rot -> Forall unit3 (m_grid m) -> set_orientation m rot = Some {| m_grid := m_grid m; m_irs := m_irs m; m_areas := m_areas m; m_rot := rot; m_pts := map (act rot) (m_grid m) |}.
Proof.
  intros (S & PR & _) HG. unfold set_orientation. assert (E : mapM (fun g => let* p := rotate rot g in let* u := grid_sphere_point p in Some (fst u)) (m_grid m) = Some (map (act rot) (m_grid m))).
  { induction HG as [|g l [Hg Ug] HG IH]; [reflexivity|]. cbn [mapM map]. rewrite rotate_act by auto. cbn [bind]. destruct (normal_unit (act rot g)) as [ac Eu]; [split; [now apply act_length|destruct (PR g g Hg Hg) as [-> _]; exact Ug]|]. rewrite Eu. cbn [bind fst]. rewrite IH. reflexivity. }
  rewrite E. reflexivity.
Qed.
Lemma oriented_closest nearest rot grid d : nearest_ok nearest -> proper_rotation rot -> Forall unit3 grid -> grid <> [] -> List.length d = 3%nat ->
  closest grid (act (transpose3 rot) d) (nearest (map (act rot) grid) d).
Proof.
  intros HN (S & PR & PI0) HG NE Hd. rewrite Forall_forall in HG. destruct (HN (map (act rot) grid) d) as [N1 N2]; [destruct grid; [contradiction|discriminate]|]. rewrite map_length in N1, N2. set (i := nearest _ d) in *. split; [exact N1|]. intros j Hj.
  assert (D : forall k, (k < List.length grid)%nat -> nth k (map (act rot) grid) [] = act rot (nth k grid []) /\ unit3 (act rot (nth k grid [])) /\ dot d (act rot (nth k grid [])) = dot (act (transpose3 rot) d) (nth k grid [])).
  { intros k Hk. rewrite (nth_indep _ [] (act rot [])) by (now rewrite map_length). rewrite map_nth. destruct (HG (nth k grid []) ltac:(now apply nth_In)) as [L U]. split; [reflexivity|]. split; [split; [now apply act_length|destruct (PR _ _ L L) as [-> _]; exact U]|].
    destruct (PI0 d Hd) as [_ I2]. rewrite <- I2 at 1. apply PR; auto. }
  destruct (D i N1) as (E1 & U1 & D1). destruct (D j Hj) as (E2 & U2 & D2). specialize (N2 j Hj). rewrite E1, E2 in N2. rewrite <- D1, <- D2. now apply dist_le_dot.
Qed.
(** The response to a direction is the one measured in the direction of the grid with the smallest angle to it, the grid
    turned by the orientation. *)
Theorem C136_nearest : forall nearest m angles order degrees rot, nearest_ok nearest -> rotation3d angles order degrees = Some rot -> Forall unit3 (m_grid m) -> m_grid m <> [] -> List.length (m_irs m) = List.length (m_grid m) ->
  exists m', set_orientation m rot = Some m' /\ forall d, List.length d = 3%nat -> exists d' i, rotate_transpose rot d = Some d' /\ closest (m_grid m) d' i /\ md_response nearest m' d = Some (nth i (m_irs m) []).
Proof.
  intros nearest m angles order degrees rot HN HR HG NE HL. pose proof (rotation_proper _ _ _ _ HR) as HP. rewrite (oriented m rot HP HG). eexists. split; [reflexivity|]. intros d Hd. exists (act (transpose3 rot) d), (nearest (map (act rot) (m_grid m)) d).
  pose proof (oriented_closest nearest rot (m_grid m) d HN HP HG NE Hd) as HC. split; [unfold rotate_transpose; now rewrite rotate_act by auto|]. split; [exact HC|]. unfold md_response. cbn [m_irs m_pts]. apply nth_error_nth'. destruct HC. lia.
Qed.
Print Assumptions C136_nearest.
(** In a measured direction, turned by the orientation, the response is the one measured there; the length of the vector
    does not matter. *)
Theorem C136_exact : forall nearest m angles order degrees rot, nearest_ok nearest -> rotation3d angles order degrees = Some rot -> Forall unit3 (m_grid m) -> List.length (m_irs m) = List.length (m_grid m) -> NoDup (m_grid m) ->
  exists m', set_orientation m rot = Some m' /\ forall i r, (i < List.length (m_grid m))%nat -> 0 < r -> exists d, rotate rot (vscal r (nth i (m_grid m) [])) = Some d /\ md_response nearest m' d = Some (nth i (m_irs m) []).
Proof.
  intros nearest m angles order degrees rot HN HR HG HL ND. pose proof (rotation_proper _ _ _ _ HR) as HP. rewrite (oriented m rot HP HG). eexists. split; [reflexivity|]. intros i r Hi Hr. set (g := nth i (m_grid m) []). assert (UG : forall k, (k < List.length (m_grid m))%nat -> unit3 (nth k (m_grid m) [])) by (intros k Hk; rewrite Forall_forall in HG; apply HG; now apply nth_In).
  destruct (UG i Hi) as [L U]. fold g in L, U. set (v := vscal r g). assert (Lv : List.length v = 3%nat) by (unfold v, vscal; now rewrite map_length). exists (act rot v). split; [now rewrite rotate_act by auto|]. pose proof HP as (S & PR & PI0).
  destruct (oriented_closest nearest rot (m_grid m) (act rot v) HN HP HG) as [C1 C2]; [intros E; rewrite E in Hi; cbn in Hi; lia|now apply act_length|]. destruct (PI0 v Lv) as [I1 _]. rewrite I1 in C2. set (k := nearest _ _) in *. specialize (C2 i Hi). fold g in C2.
  assert (SC : forall u, List.length u = 3%nat -> dot v u = r * dot g u). { intros u Hu. unfold v. destruct (l3 g L) as (x & y & z & ->). destruct (l3 u Hu) as (x' & y' & z' & ->). unfold dot, vscal, Rsum. cbn. ring. }
  rewrite !SC in C2 by (auto; apply UG; auto). rewrite U in C2.
  assert (E : g = nth k (m_grid m) []) by (apply unit_same; [split; assumption|now apply UG|nra]). assert (Ek : i = k) by (apply (proj1 (NoDup_nth (m_grid m) []) ND); auto). unfold md_response. cbn [m_irs m_pts]. fold k. rewrite <- Ek. apply nth_error_nth'. lia.
Qed.
Print Assumptions C136_exact.
(** Only the last orientation counts. *)
Theorem C136_orientation : forall m rot1 rot2 m1, set_orientation m rot1 = Some m1 -> set_orientation m1 rot2 = set_orientation m rot2.
Proof. intros m rot1 rot2 m1 H. unfold set_orientation in H. destruct (mapM _ (m_grid m)); [|discriminate]. cbn [bind] in H. assert (E := f_equal (fun o => match o with Some x => x | None => m1 end) H). cbn in E. now subst m1. Qed.
Print Assumptions C136_orientation.

(** ** Energies and rays *)
Definition val (o : option R) : R := match o with Some v => v | None => 0 end.
(** non-negative energies, not all zero, and cells of positive area *)
Definition energies_ok (band_energy : vec -> vec) (m : measured) : Prop :=
  (forall i b, 0 <= energy band_energy m i b) /\ (forall i, (i < n_dirs m)%nat -> 0 < nth i (m_areas m) 0) /\ (exists i, (i < n_dirs m)%nat /\ 0 < energy_per_direction band_energy m i).
(** [x i] is a ray in the cell [i] *)
Definition in_cells (nearest : list vec -> vec -> nat) (m : measured) (x : nat -> vec) : Prop := forall i, (i < n_dirs m)%nat -> nearest (m_pts m) (x i) = i.
Section energies.
Variable band_energy : vec -> vec.
Variable m : measured.
Hypothesis OK : energies_ok band_energy m.
Notation e := (energy_per_direction band_energy m).
Notation n := (n_dirs m).
Notation a := (fun i => nth i (m_areas m) 0).
Lemma e_nonneg i : 0 <= e i.
Proof. apply bsum_nonneg. intros. apply OK. Qed.
Lemma total_eq : total_energy band_energy m = bsum n (fun i => a i * e i).
Proof. unfold total_energy. apply bsum_ext. intros i _. rewrite bsum_scal_r. apply Rmult_comm. Qed.
Lemma bsum_pos_one N f k : (forall i, (i < N)%nat -> 0 <= f i) -> (k < N)%nat -> 0 < f k -> 0 < bsum N f.
Proof.
  intros H Hk Hf. apply Rlt_le_trans with (f k); auto. assert (E : bsum N (fun i => if Nat.eqb i k then f k else 0) = f k).
  { rewrite (bsum_delta N k); auto. - now rewrite Nat.eqb_refl. - intros i _ Hi. destruct (Nat.eqb_spec i k); congruence. }
  rewrite <- E. apply bsum_le. intros i Hi. destruct (Nat.eqb_spec i k); [subst; lra|now apply H].
Qed.
Lemma total_pos : 0 < total_energy band_energy m.
Proof.
  rewrite total_eq. destruct OK as (_ & HA & k & Hk & Hp). apply (bsum_pos_one _ _ k); auto. - intros i Hi. pose proof (e_nonneg i). pose proof (HA i Hi). nra. - pose proof (HA k Hk). nra.
Qed.
Lemma max_spec l : (forall v, In v l -> v <= fold_right Rmax 0 l) /\ (fold_right Rmax 0 l = 0 \/ In (fold_right Rmax 0 l) l).
Proof.
  induction l as [|x l [I1 I2]]; cbn [fold_right]; [split; [intros v []|auto]|]. set (r := fold_right Rmax 0 l) in *. split.
  - intros v [<-|H]; [apply Rmax_l|]. apply Rle_trans with r; auto. apply Rmax_r.
  - unfold Rmax. destruct (Rle_dec x r); [destruct I2 as [->|]; [left; reflexivity|right; now right]|right; now left].
Qed.
Lemma largest_spec : (forall i, (i < n)%nat -> e i <= largest band_energy m) /\ 0 < largest band_energy m /\ exists i, (i < n)%nat /\ largest band_energy m = e i.
Proof.
  destruct (max_spec (map e (seq 0 n))) as [M1 M2]. fold (largest band_energy m) in M1, M2. assert (B : forall i, (i < n)%nat -> e i <= largest band_energy m) by (intros i Hi; apply M1, in_map_iff; exists i; split; auto; apply in_seq; lia).
  destruct OK as (_ & _ & k & Hk & Hp). assert (P : 0 < largest band_energy m) by (specialize (B k Hk); lra). split; [exact B|]. split; [exact P|]. destruct M2 as [E|M2]; [lra|]. apply in_map_iff in M2. destruct M2 as (i & E & Hi). apply in_seq in Hi. exists i. split; [lia|auto].
Qed.
Lemma relative_eq i : relative_energy band_energy m i = Some (e i / largest band_energy m).
Proof. unfold relative_energy. destruct (Req_EM_T _ 0); [destruct largest_spec as (_ & ? & _); lra|reflexivity]. Qed.
Lemma pdf_eq nearest x : md_pdf nearest band_energy m x = Some (e (nearest (m_pts m) x) / total_energy band_energy m).
Proof.
  unfold md_pdf, pattern_value. rewrite relative_eq. cbn [bind]. rewrite (mapM_ext_in _ (fun i => Some (e i / largest band_energy m))) by (intros; apply relative_eq). rewrite mapM_total. cbn [bind].
  set (L := largest band_energy m). assert (PL : 0 < L) by apply largest_spec. pose proof total_pos as PT.
  assert (E : bsum n (fun i => a i * nth i (map (fun i => e i / L) (seq 0 n)) 0) = total_energy band_energy m / L).
  { rewrite total_eq. unfold Rdiv at 2. rewrite <- bsum_scal_r. apply bsum_ext. intros i Hi. rewrite nth_map_seq by lia. field. lra. }
  rewrite E. destruct (Req_EM_T _ 0) as [Z|_]; [exfalso; assert (0 < total_energy band_energy m / L) by (apply Rdiv_lt_0_compat; auto); lra|]. f_equal. field. lra.
Qed.
End energies.
(** The density of the rays is proportional to the measured energy and integrates to one over the cells. *)
Theorem C136_pdf : forall nearest band_energy m x, energies_ok band_energy m -> in_cells nearest m x ->
  (forall i, (i < n_dirs m)%nat -> exists p, md_pdf nearest band_energy m (x i) = Some p /\ 0 <= p) /\
  bsum (n_dirs m) (fun i => nth i (m_areas m) 0 * val (md_pdf nearest band_energy m (x i))) = 1 /\
  (forall i j, (i < n_dirs m)%nat -> (j < n_dirs m)%nat -> val (md_pdf nearest band_energy m (x i)) * energy_per_direction band_energy m j = val (md_pdf nearest band_energy m (x j)) * energy_per_direction band_energy m i).
Proof.
  intros nearest be m x OK HC. pose proof (total_pos be m OK) as PT. split; [|split].
  - intros i Hi. eexists. split; [now apply pdf_eq|]. apply Rmult_le_pos; [now apply e_nonneg|]. left. now apply Rinv_0_lt_compat.
  - rewrite (bsum_ext _ _ (fun i => nth i (m_areas m) 0 * energy_per_direction be m i * / total_energy be m)); [|intros i Hi; rewrite pdf_eq by auto; cbn [val]; rewrite (HC i Hi); field; lra]. rewrite bsum_scal_r, <- total_eq. field. lra.
  - intros i j Hi Hj. rewrite !pdf_eq by auto. cbn [val]. rewrite (HC i Hi), (HC j Hj). field. lra.
Qed.
Print Assumptions C136_pdf.
(** The ratio used to accept a ray is between zero and one, and one for the loudest direction. *)
Theorem C136_accept : forall nearest band_energy m x, energies_ok band_energy m -> in_cells nearest m x ->
  (forall i, (i < n_dirs m)%nat -> exists v, pattern_value nearest band_energy m (x i) = Some v /\ 0 <= v <= 1) /\ exists i, (i < n_dirs m)%nat /\ pattern_value nearest band_energy m (x i) = Some 1.
Proof.
  intros nearest be m x OK HC. destruct (largest_spec be m OK) as (L1 & L2 & k & Hk & Ek). split.
  - intros i Hi. unfold pattern_value. rewrite (HC i Hi), relative_eq by auto. eexists. split; [reflexivity|]. pose proof (e_nonneg be m OK i). specialize (L1 i Hi). split; [apply Rmult_le_pos; [auto|left; now apply Rinv_0_lt_compat]|]. apply Rmult_le_reg_r with (largest be m); auto. unfold Rdiv. rewrite Rmult_assoc, Rinv_l by lra. lra.
  - exists k. split; [exact Hk|]. unfold pattern_value. rewrite (HC k Hk), relative_eq by auto. f_equal. rewrite <- Ek. field. lra.
Qed.
Print Assumptions C136_accept.
(** In every band, rays drawn from the density carry on average what uniform rays carry, and all the rays that can be drawn
    carry the same energy. *)
Theorem C136_rays : forall nearest band_energy m x, energies_ok band_energy m -> in_cells nearest m x ->
  (forall b, (b < bands band_energy m)%nat -> bsum (n_dirs m) (fun i => nth i (m_areas m) 0 * (val (md_pdf nearest band_energy m (x i)) * val (ray_energy nearest band_energy m true (x i) b))) =
             bsum (n_dirs m) (fun i => nth i (m_areas m) 0 * (1 / (4 * PI) * val (ray_energy nearest band_energy m false (x i) b)))) /\
  (forall i, (i < n_dirs m)%nat -> val (md_pdf nearest band_energy m (x i)) <> 0 ->
     (forall b, ray_energy nearest band_energy m true (x i) b <> None) /\
     bsum (bands band_energy m) (fun b => val (ray_energy nearest band_energy m true (x i) b)) = total_energy band_energy m / (4 * PI)).
Proof.
  intros nearest be m x OK HC. pose proof (total_pos be m OK) as PT. pose proof PI_RGT_0 as PP.
  assert (R0 : forall i b, (i < n_dirs m)%nat -> energy_per_direction be m i <> 0 -> ray_energy nearest be m true (x i) b = Some (energy be m i b * (total_energy be m / energy_per_direction be m i / (4 * PI)))).
  { intros i b Hi He. unfold ray_energy. rewrite (HC i Hi). unfold coeff_random. destruct (Req_EM_T _ 0) as [Z|_]; [lra|]. destruct (Req_EM_T _ 0) as [Z|_].
    - exfalso. apply He. apply Rmult_eq_reg_r with (/ total_energy be m); [|apply Rinv_neq_0_compat; lra]. unfold Rdiv in Z. lra.
    - cbn [bind]. f_equal. field. lra. }
  split.
  - intros b Hb. apply bsum_ext. intros i Hi. f_equal. rewrite pdf_eq by auto. cbn [val]. rewrite (HC i Hi). unfold ray_energy at 2. rewrite (HC i Hi). cbn [val]. destruct (Req_EM_T (energy_per_direction be m i) 0) as [Z|NZ].
    + rewrite Z. assert (EB : energy be m i b = 0).
      { destruct (Rle_lt_or_eq_dec 0 (energy be m i b)) as [Hp|Hp]; [apply OK| |auto]. exfalso. assert (0 < energy_per_direction be m i); [|lra]. apply (bsum_pos_one (bands be m) _ b); auto. intros. apply OK. }
      rewrite EB. unfold Rdiv. ring.
    + rewrite R0 by auto. cbn [val]. field. lra.
  - intros i Hi HP. rewrite pdf_eq in HP by auto. cbn [val] in HP. rewrite (HC i Hi) in HP. assert (NZ : energy_per_direction be m i <> 0) by (intros Z; apply HP; rewrite Z; unfold Rdiv; ring). split; [intros b; now rewrite R0|].
    rewrite (bsum_ext _ _ (fun b => energy be m i b * (total_energy be m / energy_per_direction be m i / (4 * PI)))) by (intros b Hb; now rewrite R0). rewrite bsum_scal_r. fold (energy_per_direction be m i). field. lra.
Qed.
Print Assumptions C136_rays.

(** ** Files *)
(** the index named by an identifier: the number itself, or the place of the label *)
Definition names (id : meas_id) (labels : option (list string)) (i : nat) : Prop :=
  id = Idx (Z.of_nat i) \/ exists l s, id = Lab s /\ labels = Some l /\ nth_error l i = Some s /\ forall j, (j < i)%nat -> nth_error l j <> Some s.
Lemma index_of_spec s l i : nth_error l i = Some s -> (forall j, (j < i)%nat -> nth_error l j <> Some s) -> index_of s l = Some i.
Proof.
  revert i. induction l as [|x l IH]; intros i Hi Hj; [destruct i; discriminate|]. cbn. destruct (String.eqb_spec s x) as [->|NE].
  - destruct i; [reflexivity|]. exfalso. apply (Hj 0%nat); [lia|reflexivity].
  - destruct i; [cbn in Hi; congruence|]. cbn in Hi. rewrite (IH i); auto. intros j H. apply (Hj (S j)). lia.
Qed.
Lemma index_of_some s l i : index_of s l = Some i -> nth_error l i = Some s /\ forall j, (j < i)%nat -> nth_error l j <> Some s.
Proof.
  revert i. induction l as [|x l IH]; intros i H; [discriminate|]. cbn in H. destruct (String.eqb_spec s x) as [->|NE].
  - assert (i = 0%nat) by congruence. subst. split; [reflexivity|lia].
  - destruct (index_of s l) as [k|]; [|discriminate]. cbn in H. assert (i = S k) by congruence. subst. destruct (IH k eq_refl) as [A B]. split; [exact A|]. intros [|j] Hj; cbn; [congruence|]. apply B. lia.
Qed.
Lemma checked_spec z N i : checked z N = Some i <-> z = Z.of_nat i /\ (i < N)%nat.
Proof.
  unfold checked. destruct (Z.leb_spec 0 z), (Z.ltb_spec z (Z.of_nat N)); cbn; split; intros H1; try discriminate; try (destruct H1; lia).
  - assert (i = Z.to_nat z) by congruence. lia.
  - destruct H1 as [-> _]. now rewrite Nat2Z.id.
Qed.
Lemma index_spec id labels N i : (let* z := measurement_index id labels in checked z N) = Some i <-> names id labels i /\ (i < N)%nat.
Proof.
  unfold names. destruct id as [z|s]; cbn [measurement_index bind].
  - rewrite checked_spec. split; [intros [-> H]; auto|]. intros [[H|(l & s & H & _)] Hi]; [|discriminate]. assert (z = Z.of_nat i) by congruence. auto.
  - destruct labels as [l|]; cbn [bind]; [|split; [discriminate|]; intros [[H|(l & s' & _ & H & _)] _]; discriminate]. split.
    + destruct (index_of s l) as [k|] eqn:E; [|discriminate]. cbn [option_map bind]. rewrite checked_spec. intros [Ek Hi]. assert (k = i) by lia. subst k. apply index_of_some in E. split; [|exact Hi]. right. exists l, s. tauto.
    + intros [[H|(l' & s' & H1 & H2 & H3 & H4)] Hi]; [discriminate|]. assert (s' = s) by congruence. assert (l' = l) by congruence. subst. rewrite (index_of_spec s l i) by auto. cbn [option_map bind]. apply checked_spec. auto.
Qed.
(** An identifier that names no measurement raises. *)
Theorem C136_ids : forall areas interp f c id rot,
  (fst (mic_directivity areas interp f c id rot) <> None -> exists i, names id (f_mlab f) i /\ (i < List.length (f_mics f))%nat) /\
  (fst (source_directivity areas interp f c id rot) <> None -> exists i, names id (f_slab f) i /\ (i < List.length (f_sources f))%nat) /\
  (forall p, mic_position f id = Some p <-> exists i, names id (f_mlab f) i /\ nth_error (f_mics f) i = Some p) /\
  (forall p, source_position f id = Some p <-> exists i az co r, names id (f_slab f) i /\ nth_error (f_sources f) i = Some (az, co, r) /\ p = vscal r (direction az co)).
Proof.
  intros areas interp f c id rot. split; [|split; [|split]].
  - intros H. unfold mic_directivity in H. destruct (let* z := _ in _) as [i|] eqn:E; [|cbn in H; congruence]. apply index_spec in E. eauto.
  - intros H. unfold source_directivity in H. destruct (let* z := _ in _) as [i|] eqn:E; [|cbn in H; congruence]. apply index_spec in E. eauto.
  - intros p. pose proof (index_spec id (f_mlab f) (List.length (f_mics f))) as SP. unfold mic_position. destruct (measurement_index id (f_mlab f)) as [z|]; cbn [bind] in *.
    + destruct (checked z _) as [i|]; cbn [bind].
      * destruct (proj1 (SP i) eq_refl) as [A B]. split; [eauto|]. intros (j & Hj & Ej). assert (Some i = Some j) by (apply SP; split; [exact Hj|]; apply nth_error_Some; congruence). congruence.
      * split; [discriminate|]. intros (j & Hj & Ej). assert (None = Some j) by (apply SP; split; [exact Hj|]; apply nth_error_Some; congruence). discriminate.
    + split; [discriminate|]. intros (j & Hj & Ej). assert (None = Some j) by (apply SP; split; [exact Hj|]; apply nth_error_Some; congruence). discriminate.
  - intros p. assert (DV : forall az co r, spher2cart az (Some co) r false = vscal r (direction az co)) by (intros; unfold direction; rewrite !spher_eq; unfold vscal; cbn; f_equal; [ring|f_equal; [ring|f_equal; ring]]). pose proof (index_spec id (f_slab f) (List.length (f_sources f))) as SP. unfold source_position. destruct (measurement_index id (f_slab f)) as [z|]; cbn [bind] in *.
    + destruct (checked z _) as [i|]; cbn [bind].
      * destruct (proj1 (SP i) eq_refl) as [A B]. destruct (nth_error (f_sources f) i) as [[[az co] r]|] eqn:En; cbn [bind].
        -- rewrite DV. split; [intros H; exists i, az, co, r; repeat split; auto; congruence|]. intros (j & az' & co' & r' & Hj & Ej & ->). assert (Some i = Some j) by (apply SP; split; [exact Hj|]; apply nth_error_Some; congruence). assert (i = j) by congruence. subst j. rewrite En in Ej. congruence.
        -- apply nth_error_None in En. lia.
      * split; [discriminate|]. intros (j & az & co & r & Hj & Ej & _). assert (None = Some j) by (apply SP; split; [exact Hj|]; apply nth_error_Some; congruence). discriminate.
    + split; [discriminate|]. intros (j & az & co & r & Hj & Ej & _). assert (None = Some j) by (apply SP; split; [exact Hj|]; apply nth_error_Some; congruence). discriminate.
Qed.
Print Assumptions C136_ids.
Definition source_dirs (f : mfile) : list vec := map (fun s => direction (fst (fst s)) (snd (fst s))) (f_sources f).
Definition mic_dirs (f : mfile) : list vec := map (fun p => direction (fst (fst (cart2spher p))) (snd (fst (cart2spher p)))) (f_mics f).
Lemma direction_unit3 az co : unit3 (direction az co).
Proof. split; [reflexivity|]. apply direction_unit. Qed.
Lemma made areas rot grid irs a nearest angles order degrees : areas grid = Some a -> nearest_ok nearest -> rotation3d angles order degrees = Some rot -> Forall unit3 grid -> List.length irs = List.length grid -> NoDup grid ->
  exists m, make_measured areas rot grid irs = Some m /\ forall i r, (i < List.length grid)%nat -> 0 < r -> exists d, rotate rot (vscal r (nth i grid [])) = Some d /\ md_response nearest m d = Some (nth i irs []).
Proof. intros Ha HN HR HG HL ND. unfold make_measured. rewrite Ha. cbn [bind]. exact (C136_exact nearest {| m_grid := grid; m_irs := irs; m_areas := a; m_rot := rot; m_pts := [] |} angles order degrees rot HN HR HG HL ND). Qed.
(** A microphone of a file, without interpolation: towards the position of a source, turned by the orientation, the response
    is the one recorded from this source at this microphone. *)
Theorem C136_mic : forall nearest areas interp f c id mid angles order degrees rot, nearest_ok nearest -> rotation3d angles order degrees = Some rot -> f_new f = None ->
  names id (f_mlab f) mid -> (mid < List.length (f_mics f))%nat -> NoDup (source_dirs f) -> areas (source_dirs f) <> None ->
  exists m, mic_directivity areas interp f c id rot = (Some m, c) /\ forall s p, (s < List.length (f_sources f))%nat -> 0 < snd (nth s (f_sources f) (0, 0, 0)) -> source_position f (Idx (Z.of_nat s)) = Some p ->
    exists d, rotate rot p = Some d /\ md_response nearest m d = Some (f_irs f s mid).
Proof.
  intros nearest areas interp f c id mid angles order degrees rot HN HR HF HI Hm ND HA. destruct (areas (source_dirs f)) as [a|] eqn:Ea; [|congruence]. unfold mic_directivity. rewrite (proj2 (index_spec id (f_mlab f) (List.length (f_mics f)) mid) (conj HI Hm)). unfold interpolate. rewrite HF. rewrite map_map. change (map _ (f_sources f)) with (source_dirs f).
  set (irs := map _ (seq 0 _)). assert (LG : List.length (source_dirs f) = List.length (f_sources f)) by (unfold source_dirs; now rewrite map_length). destruct (made areas rot (source_dirs f) irs a nearest angles order degrees) as (m & Em & Hr); auto.
  { apply Forall_forall. intros g Hg. apply in_map_iff in Hg. destruct Hg as (s & <- & _). apply direction_unit3. }
  { unfold irs. now rewrite map_length, seq_length. }
  exists m. rewrite Em. split; [reflexivity|]. intros s p Hs Hp Ep. destruct (C136_ids areas interp f c (Idx (Z.of_nat s)) rot) as (_ & _ & _ & SP). apply SP in Ep. destruct Ep as (i & az & co & r & [HIi|(l & s' & B & _)] & En & ->); [|discriminate]. assert (i = s) by (assert (Z.of_nat s = Z.of_nat i) by congruence; lia). subst i.
  assert (E : nth s (source_dirs f) [] = direction az co). { unfold source_dirs. rewrite (nth_indep _ [] (direction (fst (fst (0, 0, 0))) (snd (fst (0, 0, 0))))) by (rewrite map_length; lia). rewrite (map_nth (fun s => direction (fst (fst s)) (snd (fst s))) (f_sources f) (0, 0, 0) s). now rewrite (nth_error_nth _ _ _ En). }
  rewrite (nth_error_nth _ _ _ En) in Hp. cbn [snd] in Hp. destruct (Hr s r) as (d & Ed & Er); [lia|auto|]. exists d. rewrite E in Ed. split; [exact Ed|]. rewrite Er. f_equal. unfold irs. now rewrite nth_map_seq by lia.
Qed.
Print Assumptions C136_mic.
(** A source of a file, without interpolation: towards the position of a microphone the response is the one recorded from
    this source at this microphone. *)
Theorem C136_source : forall nearest areas interp f c id sid angles order degrees rot, nearest_ok nearest -> rotation3d angles order degrees = Some rot -> f_new f = None ->
  names id (f_slab f) sid -> (sid < List.length (f_sources f))%nat -> NoDup (mic_dirs f) -> areas (mic_dirs f) <> None ->
  exists m, source_directivity areas interp f c id rot = (Some m, c) /\ forall k p, (k < List.length (f_mics f))%nat -> mic_position f (Idx (Z.of_nat k)) = Some p -> List.length p = 3%nat -> 0 < vnorm p ->
    exists d, rotate rot p = Some d /\ md_response nearest m d = Some (f_irs f sid k).
Proof.
  intros nearest areas interp f c id sid angles order degrees rot HN HR HF HI Hm ND HA. destruct (areas (mic_dirs f)) as [a|] eqn:Ea; [|congruence]. unfold source_directivity. rewrite (proj2 (index_spec id (f_slab f) (List.length (f_sources f)) sid) (conj HI Hm)). unfold interpolate. rewrite HF. rewrite map_map. change (map _ (f_mics f)) with (mic_dirs f).
  set (irs := map _ (seq 0 _)). assert (LG : List.length (mic_dirs f) = List.length (f_mics f)) by (unfold mic_dirs; now rewrite map_length). destruct (made areas rot (mic_dirs f) irs a nearest angles order degrees) as (m & Em & Hr); auto.
  { apply Forall_forall. intros g Hg. apply in_map_iff in Hg. destruct Hg as (s & <- & _). apply direction_unit3. }
  { unfold irs. now rewrite map_length, seq_length. }
  exists m. rewrite Em. split; [reflexivity|]. intros k p Hk Ep Lp Np. destruct (C136_ids areas interp f c (Idx (Z.of_nat k)) rot) as (_ & _ & SP & _). apply SP in Ep. destruct Ep as (i & [HIi|(l & s' & B & _)] & En); [|discriminate]. assert (i = k) by (assert (Z.of_nat k = Z.of_nat i) by congruence; lia). subst i.
  set (dirp := fun p => direction (fst (fst (cart2spher p))) (snd (fst (cart2spher p)))). assert (E : nth k (mic_dirs f) [] = dirp p). { unfold mic_dirs. rewrite (nth_indep _ [] (dirp [])) by (rewrite map_length; lia). fold dirp. rewrite (map_nth dirp (f_mics f) [] k). now rewrite (nth_error_nth _ _ _ En). }
  destruct (l3 p Lp) as (x & y & z & Exyz). assert (EP : p = vscal (vnorm p) (dirp p)).
  { subst p. unfold dirp. pose proof (C67_forth x y z) as F. destruct (cart2spher [x; y; z]) as [[az co] r]. destruct F as (F1 & F2 & _). cbn [fst snd]. rewrite <- F2. rewrite <- F1 at 1. unfold direction. rewrite !spher_eq. unfold vscal. cbn. f_equal; [ring|f_equal; [ring|f_equal; ring]]. }
  destruct (Hr k (vnorm p)) as (d & Ed & Er); [lia|auto|]. exists d. rewrite E in Ed. rewrite <- EP in Ed. split; [exact Ed|]. rewrite Er. f_equal. unfold irs. now rewrite nth_map_seq by lia.
Qed.
Print Assumptions C136_source.
(** the caches that requests can leave behind *)
Inductive reachable (areas : list vec -> option (list R)) (interp : list (R * R) -> list vec -> option (list vec * list vec)) (f : mfile) : cache -> Prop :=
  | reach_nil : reachable areas interp f []
  | reach_mic c id rot : reachable areas interp f c -> reachable areas interp f (snd (mic_directivity areas interp f c id rot))
  | reach_source c id rot : reachable areas interp f c -> reachable areas interp f (snd (source_directivity areas interp f c id rot)).
Definition file_grid (f : mfile) (k : kind) : list (R * R) := match k with Mic => map fst (f_sources f) | Source => map (fun p => fst (cart2spher p)) (f_mics f) end.
Definition file_irs (f : mfile) (k : kind) (i : nat) : list vec := match k with Mic => map (fun s => f_irs f s i) (seq 0 (List.length (f_sources f))) | Source => map (fun j => f_irs f i j) (seq 0 (List.length (f_mics f))) end.
Definition cache_ok (interp : list (R * R) -> list vec -> option (list vec * list vec)) (f : mfile) (c : cache) : Prop :=
  forall e, In e c -> exists r, interp (file_grid f (fst (fst e))) (file_irs f (fst (fst e)) (snd (fst e))) = Some r /\ snd e = fst r.
Lemma interpolate_ok interp f c k i : cache_ok interp f c ->
  option_map fst (interpolate interp f c k i (file_grid f k) (file_irs f k i)) = option_map fst (interpolate interp f [] k i (file_grid f k) (file_irs f k i)) /\
  (forall g r c', interpolate interp f c k i (file_grid f k) (file_irs f k i) = Some (g, r, c') -> cache_ok interp f c').
Proof.
  intros HC. unfold interpolate. destruct (f_new f) as [np|]; [|split; [reflexivity|]; intros g r c' H; assert (c' = c) by congruence; now subst]. cbn [find]. destruct (find (same k i) c) as [e|] eqn:E.
  - apply find_some in E. destruct E as [Hin Hs]. destruct (HC e Hin) as (r & Er & Es). assert (fst (fst e) = k /\ snd (fst e) = i) as [K1 K2]. { unfold same in Hs. destruct e as [[ke ie] le]. cbn [fst snd] in *. destruct k, ke; try discriminate; apply Nat.eqb_eq in Hs; auto. }
    rewrite K1, K2 in Er. split; [rewrite Er; cbn; now rewrite Es|]. intros g r' c' H. assert (c' = c) by congruence. now subst.
  - split; [destruct (interp _ _); reflexivity|]. intros g r c' H. destruct (interp _ _) as [rr|] eqn:Er; [|discriminate]. cbn [bind] in H. assert (c' = (k, i, fst rr) :: c) by congruence. subst c'. intros e [<-|He]; [|now apply HC]. exists rr. auto.
Qed.
Lemma reachable_ok areas interp f c : reachable areas interp f c -> cache_ok interp f c.
Proof.
  intros H. induction H as [|c id rot H IH|c id rot H IH]; [intros e []| |].
  - unfold mic_directivity. destruct (let* z := _ in _) as [i|]; [|exact IH]. destruct (interpolate_ok interp f c Mic i IH) as [_ K]. cbn [file_grid file_irs] in K. destruct (interpolate _ _ _ _ _ _ _) as [[[g r] c']|]; [|exact IH]. exact (K _ _ _ eq_refl).
  - unfold source_directivity. destruct (let* z := _ in _) as [i|]; [|exact IH]. destruct (interpolate_ok interp f c Source i IH) as [_ K]. cbn [file_grid file_irs] in K. destruct (interpolate _ _ _ _ _ _ _) as [[[g r] c']|]; [|exact IH]. exact (K _ _ _ eq_refl).
Qed.
(** What a file returns does not depend on earlier requests. *)
Theorem C136_cache : forall areas interp f c id rot, reachable areas interp f c ->
  fst (mic_directivity areas interp f c id rot) = fst (mic_directivity areas interp f [] id rot) /\ fst (source_directivity areas interp f c id rot) = fst (source_directivity areas interp f [] id rot).
Proof.
  intros areas interp f c id rot H. apply reachable_ok in H. split.
  - unfold mic_directivity. destruct (let* z := _ in _) as [i|]; [|reflexivity]. destruct (interpolate_ok interp f c Mic i H) as [K _]. cbn [file_grid file_irs] in K. destruct (interpolate interp f c _ _ _ _) as [[[g r] c']|], (interpolate interp f [] _ _ _ _) as [[[g2 r2] c2]|]; cbn in K; try discriminate; [|reflexivity]. assert (g = g2) by congruence. assert (r = r2) by congruence. now subst.
  - unfold source_directivity. destruct (let* z := _ in _) as [i|]; [|reflexivity]. destruct (interpolate_ok interp f c Source i H) as [K _]. cbn [file_grid file_irs] in K. destruct (interpolate interp f c _ _ _ _) as [[[g r] c']|], (interpolate interp f [] _ _ _ _) as [[[g2 r2] c2]|]; cbn in K; try discriminate; [|reflexivity]. assert (g = g2) by congruence. assert (r = r2) by congruence. now subst.
Qed.
Print Assumptions C136_cache.
Lemma mapM_pick {A B} (f : A -> option B) l r : mapM f l = Some r -> List.length r = List.length l /\ forall k, (k < List.length l)%nat -> forall da db, f (nth k l da) = Some (nth k r db).
Proof.
  revert r. induction l as [|x l IH]; intros r H; cbn in H; [assert (r = []) by congruence; subst; split; [reflexivity|cbn; lia]|]. destruct (f x) as [b|] eqn:E; [|discriminate]. cbn [bind] in H. destruct (mapM f l) as [r'|]; [|discriminate]. cbn [bind] in H. assert (r = b :: r') by congruence. subst r. destruct (IH r' eq_refl) as [L K]. split; [cbn; lia|]. intros [|k] Hk da db; [exact E|]. cbn in Hk |- *. apply K. lia.
Qed.
(** Angles: the responses of get_response are those in the directions of azimuth and colatitude, in degrees or radians; without
    colatitudes, in radians, those in the horizontal plane. *)
Theorem C136_angles : forall nearest m (az co : vec) (res : list vec),
  (forall degrees : bool, List.length co = List.length az -> let u := if degrees then PI / 180 else 1 in
     md_get_response nearest m az (Some co) degrees = Some res -> List.length res = List.length az /\
     forall k, (k < List.length az)%nat -> let a := u * nth k az 0 in let c := u * nth k co 0 in md_response nearest m [cos a * sin c; sin a * sin c; cos c] = Some (nth k res [])) /\
  (md_get_response nearest m az None false = Some res -> List.length res = List.length az /\
     forall k, (k < List.length az)%nat -> md_response nearest m [cos (nth k az 0); sin (nth k az 0); 0] = Some (nth k res [])).
Proof.
  intros nearest m az co res. split.
  - intros degrees L u H. cbn [md_get_response] in H. unfold md_response_cartesian in H. apply mapM_pick in H. destruct H as [HL H]. rewrite map_length, combine_length in HL. split; [lia|]. intros k Hk a c.
    specialize (H k). rewrite map_length, combine_length in H. specialize (H ltac:(lia) [] []). rewrite <- H. f_equal. rewrite (nth_indep _ [] (spher2cart (fst (0, 0)) (Some (snd (0, 0))) 1 degrees)) by (rewrite map_length, combine_length; lia). rewrite (map_nth (fun ac : R * R => spher2cart (fst ac) (Some (snd ac)) 1 degrees)). rewrite combine_nth by auto. cbn [fst snd].
    unfold spher2cart, a, c, u, radians. destruct degrees; cbn [option_map]; rewrite !Rmult_1_l; [|reflexivity]. replace (nth k az 0 * PI / 180) with (PI / 180 * nth k az 0) by field. replace (nth k co 0 * PI / 180) with (PI / 180 * nth k co 0) by field. reflexivity.
  - intros H. cbn [md_get_response] in H. unfold md_response_cartesian in H. apply mapM_pick in H. destruct H as [HL H]. rewrite map_length in HL. split; [lia|]. intros k Hk. specialize (H k). rewrite map_length in H. specialize (H Hk [] []). rewrite <- H. f_equal.
    rewrite (nth_indep _ [] (spher2cart 0 None 1 false)) by now rewrite map_length. rewrite (map_nth (fun a => spher2cart a None 1 false)). unfold spher2cart. rewrite sin_PI2, cos_PI2. repeat (f_equal; try ring).
Qed.
Print Assumptions C136_angles.
(** The colatitude is optional, but leaving it out with angles in degrees, the default, raises. *)
Theorem C136_colatitude_refuted : exists nearest m azimuth, md_get_response nearest m azimuth None true = None /\ md_get_response nearest m azimuth None false <> None.
Proof. exists (fun _ _ => 0%nat), {| m_grid := [[1; 0; 0]]; m_irs := [[1; 2]]; m_areas := [4 * PI]; m_rot := eye3; m_pts := [[1; 0; 0]] |}, [0]. split; [reflexivity|discriminate]. Qed.
Print Assumptions C136_colatitude_refuted.

(** ** Cases *)
Definition some_nearest (pts : list vec) (q : vec) : nat := hd 0%nat (some_argsort (map (vdist q) pts)).
Lemma some_nearest_ok : nearest_ok some_nearest.
Proof.
  intros pts q NE. unfold some_nearest. set (l := map (vdist q) pts). destruct (some_argsort_ok l) as [P SO]. assert (L : List.length l = List.length pts) by (unfold l; apply map_length). assert (0 < List.length pts)%nat by (destruct pts; [contradiction|cbn; lia]).
  pose proof (Permutation_length P) as PL. rewrite seq_length in PL. set (s := some_argsort l) in *. destruct s as [|h t] eqn:Es; [cbn in PL; lia|]. cbn [hd]. assert (HI : In h (seq 0 (List.length l))) by (apply (Permutation_in _ P); now left). apply in_seq in HI. split; [lia|]. intros j Hj.
  assert (HJ : In j (h :: t)) by (apply (Permutation_in _ (Permutation_sym P)); apply in_seq; lia). destruct (In_nth _ _ 0%nat HJ) as (k & Hk & Ek).
  assert (EN : forall i, (i < List.length pts)%nat -> nth i l 0 = vdist q (nth i pts [])) by (intros i Hi; unfold l; rewrite (nth_indep _ 0 (vdist q [])) by (rewrite map_length; lia); apply map_nth).
  rewrite <- !EN by lia. destruct k as [|k]; [cbn in Ek; subst; lra|]. specialize (SO 0%nat (S k)). rewrite Ek in SO. cbn [nth] in SO. apply SO. cbn in Hk, PL |- *. lia.
Qed.
(** Three directions, the grid turned by a quarter about [z]: what was measured along [x] is heard along [y]. *)
Definition case_grid : list vec := [[1; 0; 0]; [0; 1; 0]; [0; 0; 1]].
Definition case_irs : list vec := [[1; 1]; [2; 0]; [0; 3]].
Definition case_m : measured := {| m_grid := case_grid; m_irs := case_irs; m_areas := [PI; PI; 2 * PI]; m_rot := eye3; m_pts := case_grid |}.
Lemma case_unit : Forall unit3 case_grid.
Proof. repeat constructor; unfold dot; cbn; ring. Qed.
Lemma case_nodup : NoDup case_grid.
Proof. assert (NE : forall a b c a' b' c' : R, [a; b; c] = [a'; b'; c'] -> a = a' /\ b = b' /\ c = c') by (intros; repeat split; congruence). repeat constructor; cbn; intros H; decompose [or] H; auto; match goal with K : _ = _ |- _ => apply NE in K; lra end. Qed.
Lemma quarter : exists rot, rotation3d [90] [Letter "z"%string] true = Some rot /\ rotate rot [1; 0; 0] = Some [0; 1; 0].
Proof.
  destruct (proj2 (C75_accepts [90] [Letter "z"%string] true)) as [m Hm].
  { split; [cbn; lia|]. split; [reflexivity|]. cbn. intros x [<-|[]]; auto 6. }
  exists m. split; [exact Hm|]. rewrite (C75_order _ _ _ _ [1; 0; 0] Hm eq_refl). f_equal.
  cbn [map combine fold_left fst snd axis_map]. cbn. unfold turn, radians. replace (90 * PI / 180) with (PI / 2) by lra. rewrite cos_PI2, sin_PI2. unfold vadd, vscal, dot, map2. cbn. repeat (f_equal; try ring).
Qed.
Example C136_case : exists rot m', rotation3d [90] [Letter "z"%string] true = Some rot /\ set_orientation case_m rot = Some m' /\ md_response some_nearest m' [0; 1; 0] = Some [1; 1].
Proof.
  destruct quarter as (rot & Hr & Hq). destruct (C136_exact some_nearest case_m [90] [Letter "z"%string] true rot some_nearest_ok Hr case_unit eq_refl case_nodup) as (m' & Hm & Hx). exists rot, m'. split; [exact Hr|]. split; [exact Hm|]. destruct (Hx 0%nat 1) as (d & Ed & Er); [cbn; lia|lra|]. cbn [nth m_grid m_irs case_m case_grid case_irs] in *. replace (vscal 1 [1; 0; 0]) with [1; 0; 0] in Ed by (unfold vscal; cbn; repeat (f_equal; try ring)). rewrite Hq in Ed. assert (d = [0; 1; 0]) by congruence. subst d. exact Er.
Qed.
(** The density of the case, with the squares of the two samples as energies of two bands: 2, 4 and 9 over 24 pi. *)
Definition case_energy (v : vec) : vec := map (fun x => x * x) v.
Lemma case_ok : energies_ok case_energy case_m.
Proof.
  pose proof PI_RGT_0. split; [|split].
  - intros i b. unfold energy, case_energy. destruct (nth_in_or_default b (map (fun x => x * x) (nth i (m_irs case_m) [])) 0) as [H0|H0]; [|rewrite H0; lra]. apply in_map_iff in H0. destruct H0 as (x & <- & _). apply Rle_0_sqr.
  - intros i Hi. unfold n_dirs in Hi. cbn in Hi. destruct i as [|[|[|]]]; cbn; lra || lia.
  - exists 0%nat. unfold n_dirs, energy_per_direction, bands, energy. cbn. split; [lia|lra].
Qed.
Example C136_density : exists x, in_cells some_nearest case_m x /\ md_pdf some_nearest case_energy case_m (x 2%nat) = Some (9 / (24 * PI)) /\ val (ray_energy some_nearest case_energy case_m true (x 0%nat) 1) = 3.
Proof.
  pose proof PI_RGT_0 as PP. assert (HC : in_cells some_nearest case_m (fun i => nth i case_grid [])).
  { intros i Hi. unfold n_dirs in Hi. cbn in Hi. change (m_pts case_m) with case_grid. destruct (some_nearest_ok case_grid (nth i case_grid [])) as [N1 N2]; [discriminate|]. set (k := some_nearest _ _) in *. specialize (N2 i Hi). cbn in N1.
    assert (UG : forall j, (j < 3)%nat -> unit3 (nth j case_grid [])) by (intros j Hj; pose proof case_unit as U; rewrite Forall_forall in U; apply U; now apply nth_In).
    apply dist_le_dot in N2; try apply UG; auto. destruct (UG i Hi) as [_ U]. rewrite U in N2. symmetry. apply (proj1 (NoDup_nth case_grid []) case_nodup); auto. apply unit_same; auto. }
  exists (fun i => nth i case_grid []). split; [exact HC|].
  assert (T : total_energy case_energy case_m = 24 * PI) by (unfold total_energy, n_dirs, bands, energy; cbn; ring).
  split.
  - rewrite pdf_eq by apply case_ok. rewrite HC by (unfold n_dirs; cbn; lia). rewrite T. f_equal. f_equal. unfold energy_per_direction, bands, energy. cbn. ring.
  - unfold ray_energy. rewrite HC by (unfold n_dirs; cbn; lia). unfold coeff_random. rewrite T. assert (E : energy_per_direction case_energy case_m 0 = 2) by (unfold energy_per_direction, bands, energy; cbn; ring). rewrite E. destruct (Req_EM_T _ 0); [lra|]. destruct (Req_EM_T _ 0) as [Z|_]; [exfalso; assert (0 < 2 / (24 * PI)) by (apply Rdiv_lt_0_compat; lra); lra|]. cbn [bind val]. unfold energy, case_energy. cbn. field. lra.
Qed.
(** A file with two sources and one microphone: towards the second source, at distance two, the response is the one
    recorded from it. *)
Definition case_file : mfile := {| f_irs := fun s k => [INR s; INR k]; f_sources := [(0, PI / 2, 1); (PI / 2, PI / 2, 2)]; f_mics := [[0; 0; 1]]; f_slab := Some ["front"%string; "left"%string]; f_mlab := None; f_new := None |}.
Example C136_file_case : exists rot m d, fst (mic_directivity (fun _ => Some [1; 1]) (fun _ _ => None) case_file [] (Idx 0) rot) = Some m /\ source_position case_file (Lab "left") = Some [2 * cos (PI / 2) * sin (PI / 2); 2 * sin (PI / 2) * sin (PI / 2); 2 * cos (PI / 2)] /\
  rotate rot [2 * cos (PI / 2) * sin (PI / 2); 2 * sin (PI / 2) * sin (PI / 2); 2 * cos (PI / 2)] = Some d /\ md_response some_nearest m d = Some [1; 0] /\ fst (mic_directivity (fun _ => Some [1; 1]) (fun _ _ => None) case_file [] (Idx (-1)) rot) = None.
Proof.
  destruct quarter as (rot & Hr & _). destruct (C136_mic some_nearest (fun _ => Some [1; 1]) (fun _ _ => None) case_file [] (Idx 0) 0 [90] [Letter "z"%string] true rot some_nearest_ok Hr) as (m & Em & Hm); try reflexivity; try discriminate.
  { left. reflexivity. } { cbn. lia. }
  { unfold source_dirs, case_file. cbn [map f_sources fst snd]. constructor; [|constructor; [intros []|constructor]]. intros [E|[]]. assert (Z := f_equal (fun l => nth 0 l 0) E). unfold direction in Z. rewrite !spher_eq in Z. cbn [nth] in Z. rewrite cos_0, cos_PI2, sin_PI2 in Z. lra. }
  destruct (Hm 1%nat _ ltac:(cbn; lia) ltac:(cbn; lra) eq_refl) as (d & Ed & Er). exists rot, m, d. rewrite Em. repeat split; auto.
Qed.
(** Two directions in degrees. *)
Example C136_angles_case : exists res, md_get_response some_nearest case_m [0; 90] (Some [90; 90]) true = Some res /\ List.length res = 2%nat.
Proof.
  assert (T : forall d, exists r, md_response some_nearest case_m d = Some r). { intros d. unfold md_response. destruct (some_nearest_ok (m_pts case_m) d) as [H _]; [discriminate|]. destruct (nth_error (m_irs case_m) (some_nearest (m_pts case_m) d)) as [r|] eqn:E; [eauto|]. apply nth_error_None in E. cbn [case_m m_irs m_pts case_irs case_grid List.length] in E, H. lia. }
  unfold md_get_response, md_response_cartesian. cbn [combine map mapM fst snd]. destruct (T (spher2cart 0 (Some 90) 1 true)) as [r1 ->]. destruct (T (spher2cart 90 (Some 90) 1 true)) as [r2 ->]. cbn [bind]. exists [r1; r2]. split; reflexivity.
Qed.
