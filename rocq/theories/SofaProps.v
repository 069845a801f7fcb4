(** C154: reading of SOFA files. *)
From Coq Require Import List ZArith Lia Reals Lra Bool String Ascii Permutation.
From Verif Require Import Base Vec GeometryModel SphereModel SphereProps SofaModel.
Import ListNotations.
Local Open Scope string_scope.
Local Open Scope R_scope.

(** ** Specification *)
(** the SOFA standard: azimuth, elevation and distance of a point *)
Definition sofa_point (az el r : R) : point := (r * cos el * cos az, r * cos el * sin az, r * sin el).
(** azimuth, colatitude and distance, as pyroomacoustics counts *)
Definition cart_of (q : point) : point := let '(az, co, r) := q in (r * sin co * cos az, r * sin co * sin az, r * cos co).
Definition in_metres (p : sofa_pos) : Prop := Forall (fun u => u = "metre") (pos_units p).
(** one unit of the angles of a file *)
Definition unit_angle (p : sofa_pos) : R := if String.eqb (nth 0 (pos_units p) "") "degree" then PI / 180 else 1.
Definition below_horizon (l : list point) : Prop := exists az el r, In (az, el, r) l /\ el < 0.
Definition response (ir : list (list vec)) (s m : nat) : vec := nth m (nth s ir []) [].

(** ** Proofs *)
Lemma unit_pos p : 0 < unit_angle p.
Proof. unfold unit_angle. pose proof PI_RGT_0. destruct (_ =? _)%string; lra. Qed.
Lemma angle_eq p a : angle (pos_units p) a = unit_angle p * a.
Proof. unfold angle, unit_angle, radians. destruct (_ =? _)%string; field. Qed.
Lemma not_metres p : existsb (fun u => negb (String.eqb u "metre")) (pos_units p) = false <-> in_metres p.
Proof.
  unfold in_metres. induction (pos_units p) as [|u l IH]; cbn [existsb]; [split; auto|]. rewrite orb_false_iff, IH. split.
  - intros [H1 H2]. constructor; auto. destruct (String.eqb_spec u "metre"); [auto|discriminate].
  - intros H. inversion H; subst. split; auto.
Qed.
Lemma combine_maps {A B C} (f : A -> B) (g : A -> C) l : combine (map f l) (map g l) = map (fun a => (f a, g a)) l.
Proof. induction l; cbn; congruence. Qed.
Lemma negatives (f : point -> R) l : existsb (fun c => Rltb c 0) (map f l) = true <-> exists q, In q l /\ f q < 0.
Proof.
  rewrite existsb_exists. split.
  - intros (c & H & E). apply in_map_iff in H as (q & <- & Hq). exists q. split; auto. unfold Rltb in E. destruct (Rlt_dec _ _); [auto|discriminate].
  - intros (q & Hq & E). exists (f q). split; [now apply in_map|]. unfold Rltb. destruct (Rlt_dec _ _); [auto|contradiction].
Qed.
Lemma spherical_eq p : sp_type p = "spherical" -> exists s, parse_locations p TSpherical = Some s /\ parse_locations p TCartesian = Some (map cart_of s) /\
  s = map (fun q : point => (unit_angle p * fst (fst q), if existsb (fun c => Rltb c 0) (map (fun q : point => angle (pos_units p) (snd (fst q))) (sp_values p)) then PI / 2 - unit_angle p * snd (fst q) else unit_angle p * snd (fst q), snd q)) (sp_values p).
Proof.
  intros T. unfold parse_locations. rewrite T. change ("spherical" =? "cartesian")%string with false. change ("spherical" =? "spherical")%string with true. cbv iota. eexists. split; [reflexivity|]. split.
  - apply (f_equal (@Some (list point))). apply map_ext. intros [[a c] r]. unfold to_cart, spher2cart, cart_of. cbn. apply (f_equal2 pair); [apply (f_equal2 pair)|]; ring.
  - unfold to_colatitude. destruct (existsb _ _).
    + rewrite map_map, !combine_maps. apply map_ext. intros [[a c] r]. cbn. now rewrite !angle_eq.
    + rewrite !combine_maps. apply map_ext. intros [[a c] r]. cbn. now rewrite !angle_eq.
Qed.

(** C154.  Positions in Cartesian coordinates must be in metres; the positions are those of the file, and the
    angles and distances belong to the same points. *)
Theorem C154_cartesian : forall p, sp_type p = "cartesian" ->
  (in_metres p -> parse_locations p TCartesian = Some (sp_values p) /\
     exists s, parse_locations p TSpherical = Some s /\ map cart_of s = sp_values p /\ Forall (fun q : point => 0 <= snd q /\ 0 <= snd (fst q) <= PI /\ - PI < fst (fst q) <= PI) s) /\
  (~ in_metres p -> forall t, parse_locations p t = None).
Proof.
  intros p T. split.
  - intros M. apply not_metres in M. unfold parse_locations. rewrite T. change ("cartesian" =? "cartesian")%string with true. cbv iota. rewrite M. split; [reflexivity|]. eexists. split; [reflexivity|]. split.
    + rewrite map_map. rewrite <- map_id. apply map_ext. intros [[x y] z]. cbn [fst snd]. pose proof (C67_forth x y z) as F. destruct (cart2spher [x; y; z]) as [[az co] r]. destruct F as (F & _). rewrite spher_eq in F. assert (F1 := f_equal (fun v => nth 0 v 0) F). assert (F2 := f_equal (fun v => nth 1 v 0) F). assert (F3 := f_equal (fun v => nth 2 v 0) F). cbn [nth] in F1, F2, F3. unfold cart_of. apply (f_equal2 pair); [apply (f_equal2 pair)|]; lra.
    + apply Forall_forall. intros q Hq. apply in_map_iff in Hq as ([[x y] z] & <- & _). cbn [fst snd]. pose proof (C67_forth x y z) as F. destruct (cart2spher [x; y; z]) as [[az co] r]. destruct F as (_ & -> & F2 & F3). cbn [fst snd]. repeat split; try apply vnorm_nonneg; tauto.
  - intros M t. unfold parse_locations. rewrite T. change ("cartesian" =? "cartesian")%string with true. cbv iota. assert (E : existsb (fun u => negb (String.eqb u "metre")) (pos_units p) = true). { destruct (existsb _ _) eqn:E; [reflexivity|]. apply not_metres in E. contradiction. } rewrite E. now destruct t.
Qed.
Print Assumptions C154_cartesian.

(** C154.  Positions in spherical coordinates, in degrees or radians, of a file with some position below the horizon:
    the points are those of the SOFA standard, in both formats. *)
Theorem C154_elevation : forall p, sp_type p = "spherical" -> below_horizon (sp_values p) ->
  let k := unit_angle p in let points := map (fun q : point => let '(az, el, r) := q in sofa_point (k * az) (k * el) r) (sp_values p) in
  parse_locations p TCartesian = Some points /\ exists s, parse_locations p TSpherical = Some s /\ map cart_of s = points.
Proof.
  intros p T (az & el & r & H & N) k points. destruct (spherical_eq p T) as (s & E1 & E2 & E3). rewrite E2. assert (X : existsb (fun c => Rltb c 0) (map (fun q : point => angle (pos_units p) (snd (fst q))) (sp_values p)) = true).
  { apply negatives. exists (az, el, r). split; auto. cbn. rewrite angle_eq. pose proof (unit_pos p). nra. }
  rewrite X in E3. assert (P : map cart_of s = points). { rewrite E3, map_map. apply map_ext. intros [[a e] d]. cbn [fst snd cart_of]. unfold sofa_point. fold k. rewrite sin_shift, cos_shift. reflexivity. }
  rewrite P. split; [reflexivity|]. eauto.
Qed.
Print Assumptions C154_elevation.

(** C154.  Without a position below the horizon the second angle is taken for the colatitude. *)
Theorem C154_colatitude : forall p, sp_type p = "spherical" -> ~ below_horizon (sp_values p) ->
  let k := unit_angle p in parse_locations p TSpherical = Some (map (fun q : point => let '(az, co, r) := q in (k * az, k * co, r)) (sp_values p)) /\
  parse_locations p TCartesian = Some (map (fun q : point => let '(az, co, r) := q in cart_of (k * az, k * co, r)) (sp_values p)).
Proof.
  intros p T N k. destruct (spherical_eq p T) as (s & E1 & E2 & E3). assert (X : existsb (fun c => Rltb c 0) (map (fun q : point => angle (pos_units p) (snd (fst q))) (sp_values p)) = false).
  { destruct (existsb _ _) eqn:E; [|reflexivity]. apply negatives in E as ([[az el] r] & H & E). cbn in E. rewrite angle_eq in E. destruct N. exists az, el, r. split; auto. pose proof (unit_pos p). nra. }
  rewrite X in E3. rewrite E1, E2, E3, map_map. split; f_equal; apply map_ext; intros [[a c] r]; reflexivity.
Qed.
Print Assumptions C154_colatitude.

(** C154.  It refuses exactly other formats, other types and Cartesian coordinates in other units. *)
Theorem C154_refuses : forall p t, parse_locations p t = None <-> t = TOther \/ (sp_type p <> "cartesian" /\ sp_type p <> "spherical") \/ (sp_type p = "cartesian" /\ ~ in_metres p).
Proof.
  intros p t. split.
  - unfold parse_locations. destruct t; [| |auto]; right; (destruct (String.eqb_spec (sp_type p) "cartesian") as [E|E]; [right|destruct (String.eqb_spec (sp_type p) "spherical") as [E2|E2]; [discriminate|auto]]); (split; [exact E|]); (destruct (existsb _ _) eqn:X; [|discriminate]); intros M; apply not_metres in M; congruence.
  - intros [->|[[E1 E2]|[E M]]]; [reflexivity| |now apply C154_cartesian]. unfold parse_locations. destruct (String.eqb_spec (sp_type p) "cartesian"); [contradiction|]. destruct (String.eqb_spec (sp_type p) "spherical"); [contradiction|]. now destruct t.
Qed.
Print Assumptions C154_refuses.

(** A file that follows the standard with no position below the horizon is misread: the elevation is taken for the
    colatitude, and a source straight ahead is placed overhead. *)
Theorem C154_upper_refuted : exists p az el r, sp_type p = "spherical" /\ pos_units p = ["degree"; "degree"; "metre"] /\ sp_values p = [(az, el, r)] /\ 0 < r /\ 0 <= el <= 90 /\
  exists q, parse_locations p TCartesian = Some [q] /\ q <> sofa_point (az * PI / 180) (el * PI / 180) r /\ q = (0, 0, 1) /\ sofa_point (az * PI / 180) (el * PI / 180) r = (1, 0, 0).
Proof.
  exists {| sp_values := [(0, 0, 1)]; sp_units := "degree, degree, metre"; sp_type := "spherical" |}, 0, 0, 1. split; [reflexivity|]. split; [reflexivity|]. split; [reflexivity|]. split; [lra|]. split; [lra|].
  assert (E : sofa_point (0 * PI / 180) (0 * PI / 180) 1 = (1, 0, 0)) by (unfold sofa_point; replace (0 * PI / 180) with 0 by field; rewrite sin_0, cos_0; repeat f_equal; ring). exists (0, 0, 1). split; [|rewrite E; split; [|auto]; injection; lra].
  destruct (C154_colatitude {| sp_values := [(0, 0, 1)]; sp_units := "degree, degree, metre"; sp_type := "spherical" |} eq_refl) as [_ H].
  - intros (az & el & r & [I|[]] & L). injection I; intros; lra.
  - rewrite H. cbn [map sp_values cart_of]. rewrite Rmult_0_r, sin_0, cos_0. repeat f_equal; ring.
Qed.
Print Assumptions C154_upper_refuted.

Lemma nth_blocks {A} (d : A) k (f : nat -> nat -> A) b : forall s j i, (j < b)%nat -> (i < k)%nat -> nth (j * k + i) (flat_map (fun j => map (f j) (seq 0 k)) (seq s b)) d = f (s + j)%nat i.
Proof.
  induction b as [|b IH]; intros s j i Hj Hi; [lia|]. cbn [seq flat_map]. destruct j as [|j].
  - rewrite app_nth1 by (rewrite map_length, seq_length; lia). rewrite (nth_indep _ d (f s 0%nat)) by (rewrite map_length, seq_length; lia). rewrite map_nth, seq_nth by lia. f_equal; lia.
  - rewrite app_nth2 by (rewrite map_length, seq_length; cbn; lia). rewrite map_length, seq_length. replace (S j * k + i - k)%nat with (j * k + i)%nat by (cbn; lia). rewrite IH by lia. f_equal. lia.
Qed.
Lemma blocks_length {A} k (f : nat -> nat -> A) l : List.length (flat_map (fun j => map (f j) (seq 0 k)) l) = (List.length l * k)%nat.
Proof. induction l as [|a l IH]; cbn; [reflexivity|]. now rewrite app_length, map_length, seq_length, IH. Qed.
(** C154.  The positions of the DIRPAT files, stored by columns, are brought into the order of the responses: each is kept once. *)
Theorem C154_order : forall k pos r, (0 < k)%nat -> transpose_rows k pos = Some r -> exists b, List.length pos = (k * b)%nat /\ List.length r = List.length pos /\ Permutation r pos /\
  forall i j, (i < k)%nat -> (j < b)%nat -> nth_error r (j * k + i) = nth_error pos (i * b + j).
Proof.
  intros k pos r Hk. unfold transpose_rows. destruct (Nat.eqb_spec (List.length pos) 0) as [|Hn]; [discriminate|]. destruct (Nat.eqb_spec (List.length pos mod k) 0) as [Hm|]; [|discriminate]. cbn [negb]. set (b := (List.length pos / k)%nat). set (g := fun j i => nth (i * b + j) pos (0, 0, 0)). intros H.
  assert (E : r = flat_map (fun j => map (g j) (seq 0 k)) (seq 0 b)) by (apply (f_equal (fun o => match o with Some v => v | None => [] end)) in H; symmetry; exact H). clear H.
  assert (L : List.length pos = (k * b)%nat) by (unfold b; pose proof (Nat.div_mod (List.length pos) k); lia). exists b. split; [exact L|]. assert (LR : List.length r = List.length pos) by (rewrite E, blocks_length, seq_length; lia). split; [exact LR|]. split.
  - set (idx := flat_map (fun j => map (fun i => (i * b + j)%nat) (seq 0 k)) (seq 0 b)). assert (R1 : r = map (fun i => nth i pos (0, 0, 0)) idx).
    { rewrite E. unfold idx. clear. generalize (seq 0 b). intros l. induction l as [|j l IH]; cbn [flat_map map]; [reflexivity|]. rewrite map_app, IH, map_map. reflexivity. }
    assert (P1 : pos = map (fun i => nth i pos (0, 0, 0)) (seq 0 (List.length pos))).
    { apply (nth_ext _ _ (0, 0, 0) (nth 0 pos (0, 0, 0))); [now rewrite map_length, seq_length|]. intros n Hl. rewrite (map_nth (fun i => nth i pos (0, 0, 0))), seq_nth by auto. reflexivity. }
    rewrite P1, R1. apply Permutation_map. apply Permutation_sym, NoDup_Permutation_bis; [apply seq_NoDup|unfold idx; rewrite blocks_length, !seq_length; lia|].
    intros x Hx. apply in_seq in Hx. assert (Hb : (b <> 0)%nat) by (intros Z; rewrite Z in L; lia). unfold idx. apply in_flat_map. exists (x mod b)%nat. split; [apply in_seq; pose proof (Nat.mod_upper_bound x b Hb); lia|]. apply in_map_iff. exists (x / b)%nat. split; [pose proof (Nat.div_mod x b Hb); lia|]. apply in_seq. split; [lia|]. apply Nat.div_lt_upper_bound; auto; lia.
  - intros i j Hi Hj. assert (B1 : (j * k + i < List.length r)%nat) by nia. assert (B2 : (i * b + j < List.length pos)%nat) by nia. rewrite (nth_error_nth' r (0, 0, 0) B1), (nth_error_nth' pos (0, 0, 0) B2). f_equal. rewrite E, nth_blocks by auto. reflexivity.
Qed.
Print Assumptions C154_order.

Lemma fix_eq l : fix_colatitude l = map (fun q : point => (fst (fst q), if existsb (fun c => Rltb c 0) (map (fun q : point => snd (fst q)) l) then PI / 2 - snd (fst q) else snd (fst q), snd q)) l.
Proof. unfold fix_colatitude, to_colatitude. destruct (existsb _ _); [rewrite map_map|]; rewrite !combine_maps; reflexivity. Qed.
(** what the readers share *)
Definition read_ok resample (f : sofa_file) (fs : option Z) (ir : list (list vec)) (rate : Z) : Prop :=
  rate = match fs with Some r => r | None => sf_rate f end /\ List.length ir = List.length (sf_ir f) /\
  forall s, (s < List.length (sf_ir f))%nat -> List.length (nth s ir []) = List.length (nth s (sf_ir f) []) /\
  forall m, (m < List.length (nth s (sf_ir f) []))%nat -> response ir s m = match fs with Some r => resample (sf_rate f) r (response (sf_ir f) s m) | None => response (sf_ir f) s m end.
Lemma at_rate_ok resample f fs : read_ok resample f fs (fst (at_rate resample f fs)) (snd (at_rate resample f fs)).
Proof.
  unfold read_ok, at_rate. destruct fs as [r|]; cbn [fst snd]; [|auto]. split; [reflexivity|]. split; [apply map_length|]. intros s Hs. assert (N : nth s (map (map (resample (sf_rate f) r)) (sf_ir f)) [] = map (resample (sf_rate f) r) (nth s (sf_ir f) [])).
  { change (@nil vec) with (map (resample (sf_rate f) r) []) at 1. apply map_nth. }
  rewrite N. split; [apply map_length|]. intros m Hm. unfold response. rewrite N. rewrite (nth_indep _ [] (resample (sf_rate f) r [])) by (now rewrite map_length). apply map_nth.
Qed.

(** C154.  Opening: the responses are those of the file, resampled to the rate asked for; positions are those of the
    sources (as angles) and of the microphones (Cartesian); labels are those of the data base, one for each source
    or for each microphone. *)
Theorem C154_open : forall resample db f fs o, open_sofa_file resample db f fs = Some o ->
  read_ok resample f fs (op_ir o) (op_fs o) /\
  (is_dirpat (sf_stem f) = false -> parse_locations (sf_source f) TSpherical = Some (op_src o) /\ parse_locations (sf_receiver f) TCartesian = Some (op_mic o)) /\
  (forall l, op_slab o = Some l <-> db (sf_stem f) = Some (Sources, Some l)) /\ (forall l, op_mlab o = Some l <-> db (sf_stem f) = Some (Microphones, Some l)) /\
  (forall l, op_slab o = Some l -> List.length l = List.length (sf_ir f)) /\ (forall l, op_mlab o = Some l -> sf_ir f <> [] -> List.length l = List.length (nth 0 (sf_ir f) [])).
Proof.
  intros resample db f fs o H. unfold open_sofa_file in H. destruct (if is_dirpat (sf_stem f) then _ else _) as [[[[ir rate] src] mic]|] eqn:E; [|discriminate]. cbn [bind fst snd] in H.
  assert (RD : read_ok resample f fs ir rate /\ (is_dirpat (sf_stem f) = false -> parse_locations (sf_source f) TSpherical = Some src /\ parse_locations (sf_receiver f) TCartesian = Some mic)).
  { pose proof (at_rate_ok resample f fs) as A. destruct (is_dirpat (sf_stem f)).
    - unfold read_dirpat in E. destruct (db (sf_stem f)); [|discriminate]. destruct (String.eqb _ _); (destruct (transpose_rows _ _); [|discriminate]); cbn [bind] in E; inversion E; subst; (split; [exact A|discriminate]).
    - destruct (_ || _)%bool; [|discriminate]. unfold read_fir in E. destruct (parse_locations (sf_source f) TSpherical); [|discriminate]. destruct (parse_locations (sf_receiver f) TCartesian); [|discriminate]. cbn [bind] in E. inversion E; subst. auto. }
  destruct RD as [RD PP]. assert (L := proj1 (proj2 RD)). assert (LM : sf_ir f <> [] -> n_mics ir = List.length (nth 0 (sf_ir f) [])).
  { intros Z. apply (proj2 (proj2 RD)). destruct (sf_ir f); [easy|cbn; lia]. }
  destruct (db (sf_stem f)) as [[[| |] [lab|]]|] eqn:D.
  1: destruct (Nat.eqb_spec (List.length lab) (List.length ir)) as [Q|]; [|discriminate].
  3: destruct (Nat.eqb_spec (List.length lab) (n_mics ir)) as [Q|]; [|discriminate].
  all: inversion H; subst o; cbn [op_ir op_fs op_src op_mic op_slab op_mlab]; (split; [exact RD|]); (split; [exact PP|]); repeat split; intros; try congruence; rewrite <- LM by auto; congruence.
Qed.
Print Assumptions C154_open.

(** C154.  The DIRPAT files: the directions are in the file by columns of 36 (of the loudspeakers) or 30 (of the microphones);
    with one below the horizon they are those of the standard, in radians, the devices themselves are at the origin. *)
Theorem C154_dirpat : forall resample db f fs o, is_dirpat (sf_stem f) = true -> open_sofa_file resample db f fs = Some o ->
  let loudspeakers := String.eqb (sf_stem f) "LSPs_HATS_GuitarCabinets_Akustikmessplatz" in
  let k := if loudspeakers then 36%nat else 30%nat in
  let measured := sp_values (if loudspeakers then sf_receiver f else sf_source f) in
  let got := if loudspeakers then op_mic o else map cart_of (op_src o) in
  let device := if loudspeakers then op_src o else op_mic o in
  (forall q, In q device -> q = (0, 0, 0)) /\ (sf_ir f <> [] -> List.length device = if loudspeakers then List.length (sf_ir f) else List.length (nth 0 (sf_ir f) [])) /\
  exists b, List.length measured = (k * b)%nat /\ List.length got = List.length measured /\
  (below_horizon measured -> forall i j, (i < k)%nat -> (j < b)%nat -> nth_error got (j * k + i) = option_map (fun q : point => let '(az, el, r) := q in sofa_point az el r) (nth_error measured (i * b + j))).
Proof.
  intros resample db f fs o DP H. unfold open_sofa_file in H. rewrite DP in H. set (ls := String.eqb (sf_stem f) "LSPs_HATS_GuitarCabinets_Akustikmessplatz").
  destruct (read_dirpat resample db f fs) as [[[[ir rate] src] mic]|] eqn:E; [|discriminate]. cbn [bind fst snd] in H. assert (O : op_src o = src /\ op_mic o = mic).
  { destruct (db (sf_stem f)) as [[[| |] [lab|]]|]; try (destruct (Nat.eqb _ _); [|discriminate]); inversion H; subst o; auto. } destruct O as [-> ->]. clear H o.
  unfold read_dirpat in E. destruct (db (sf_stem f)); [|discriminate]. fold ls in E. pose proof (at_rate_ok resample f fs) as (_ & A1 & A2).
  assert (FX : forall pos k r, transpose_rows k pos = Some r -> (0 < k)%nat -> exists b, List.length pos = (k * b)%nat /\ List.length (map cart_of (fix_colatitude r)) = List.length pos /\
    (below_horizon pos -> forall i j, (i < k)%nat -> (j < b)%nat -> nth_error (map cart_of (fix_colatitude r)) (j * k + i) = option_map (fun q : point => let '(az, el, r) := q in sofa_point az el r) (nth_error pos (i * b + j)))).
  { intros pos k r T Hk. destruct (C154_order k pos r Hk T) as (b & B1 & B2 & B3 & B4). exists b. split; [exact B1|]. split; [rewrite fix_eq, !map_length; exact B2|]. intros (az & el & d & I & N) i j Hi Hj.
    assert (X : existsb (fun c => Rltb c 0) (map (fun q : point => snd (fst q)) r) = true). { apply negatives. exists (az, el, d). split; [|exact N]. eapply Permutation_in; [apply Permutation_sym; exact B3|exact I]. }
    rewrite fix_eq, X, map_map, nth_error_map, B4 by auto. destruct (nth_error pos (i * b + j)) as [[[a e] x]|]; [|reflexivity]. cbn [option_map fst snd cart_of]. unfold sofa_point. rewrite sin_shift, cos_shift. reflexivity. }
  destruct ls; cbv zeta.
  - destruct (transpose_rows 36 _) as [r|] eqn:T; [|discriminate]. cbn [bind] in E. apply (f_equal (fun o => match o with Some v => v | None => ([], 0%Z, [], []) end)) in E. assert (E1 := f_equal (fun v => snd (fst v)) E). assert (E2 := f_equal snd E). cbn [fst snd] in E1, E2. subst src.
    split; [intros q Hq; now apply repeat_spec in Hq|]. split; [intros _; rewrite repeat_length; exact A1|]. replace mic with (map cart_of (fix_colatitude r)); [apply FX; [exact T|lia]|]. rewrite <- E2. apply map_ext. intros [[a c] x]. unfold to_cart, spher2cart, cart_of. cbn. apply (f_equal2 pair); [apply (f_equal2 pair)|]; ring.
  - destruct (transpose_rows 30 _) as [r|] eqn:T; [|discriminate]. cbn [bind] in E. apply (f_equal (fun o => match o with Some v => v | None => ([], 0%Z, [], []) end)) in E. assert (E1 := f_equal (fun v => snd (fst v)) E). assert (E2 := f_equal snd E). cbn [fst snd] in E1, E2. subst src mic.
    split; [intros q Hq; now apply repeat_spec in Hq|]. split; [intros Z; rewrite repeat_length; unfold n_mics; apply A2; destruct (sf_ir f); [easy|cbn; lia]|]. apply FX; [exact T|lia].
Qed.
Print Assumptions C154_dirpat.

Example C154_case : exists resample db f fs o, is_dirpat (sf_stem f) = false /\ open_sofa_file resample db f fs = Some o /\ sp_type (sf_source f) = "spherical" /\ below_horizon (sp_values (sf_source f)) /\
  sp_type (sf_receiver f) = "cartesian" /\ in_metres (sf_receiver f) /\ op_mlab o = Some ["left"; "right"].
Proof.
  exists (fun a b v => v), (fun _ => Some (Microphones, Some ["left"; "right"])), {| sf_stem := "hrtf"; sf_convention := "GeneralFIR"; sf_ir := [[[1]; [2]]; [[3]; [4]]; [[5]; [6]]]; sf_rate := 44100;
    sf_source := {| sp_values := [(0, 0, 1); (90, 30, 1); (180, -30, 1)]; sp_units := "degree, degree, metre"; sp_type := "spherical" |};
    sf_receiver := {| sp_values := [(0, 0.09, 0); (0, -0.09, 0)]; sp_units := "metre"; sp_type := "cartesian" |} |}, (Some 16000%Z).
  eexists. split; [reflexivity|]. split; [reflexivity|]. split; [reflexivity|]. split; [exists 180, (-30), 1; split; [cbn; auto|lra]|]. split; [reflexivity|]. split; [repeat constructor|reflexivity].
Qed.
Example C154_order_case : exists r, transpose_rows 2 [(1, 0, 0); (2, 0, 0); (3, 0, 0); (4, 0, 0); (5, 0, 0); (6, 0, 0)] = Some r /\ r = [(1, 0, 0); (4, 0, 0); (2, 0, 0); (5, 0, 0); (3, 0, 0); (6, 0, 0)].
Proof. eexists. split; reflexivity. Qed.
