(** C133: areas of the cells of points on the sphere. *)
From Coq Require Import Reals List ZArith Lia Lra Bool Permutation.
From Verif Require Import Base BaseProofs Vec SphereModel SphereProps GridModel GridProps AreaModel.
Import ListNotations.
Local Open Scope R_scope.

Lemma clip1_cos x : clip1 (cos x) = cos x.
Proof. unfold clip1. pose proof (COS_bound x). rewrite Rmax_left by lra. now rewrite Rmin_left by lra. Qed.
Lemma acos_cos_far x : PI <= x <= 2 * PI -> acos (cos x) = 2 * PI - x.
Proof. intros H. replace (cos x) with (cos (2 * PI - x)); [apply acos_cos; lra|]. rewrite cos_minus, cos_2PI, sin_2PI. ring. Qed.
Definition sumf (m : nat) (f : nat -> R) : R := Rsum (map f (seq 0 m)).
Lemma sumf_S m f : sumf (S m) f = sumf m f + f m.
Proof. unfold sumf. rewrite seq_S, map_app, Rsum_app. cbn. unfold Rsum. cbn [fold_right]. ring. Qed.
Lemma sumf_ext m f g : (forall k, (k < m)%nat -> f k = g k) -> sumf m f = sumf m g.
Proof. intros H. unfold sumf. f_equal. apply map_ext_in. intros k Hk. apply in_seq in Hk. apply H. lia. Qed.
Lemma sumf_plus m f g : sumf m (fun k => f k + g k) = sumf m f + sumf m g.
Proof. induction m as [|m IH]; [unfold sumf, Rsum; cbn; ring|]. rewrite !sumf_S, IH. ring. Qed.
Lemma sumf_le m f g : (forall k, (k < m)%nat -> f k <= g k) -> sumf m f <= sumf m g.
Proof. induction m as [|m IH]; intros H; [unfold sumf, Rsum; cbn; lra|]. rewrite !sumf_S. pose proof (IH ltac:(intros; apply H; lia)). pose proof (H m ltac:(lia)). lra. Qed.
Lemma sumf_lt m f g : (forall k, (k < m)%nat -> f k <= g k) -> (exists k, (k < m)%nat /\ f k < g k) -> sumf m f < sumf m g.
Proof.
  induction m as [|m IH]; intros H (k & Hk & Lk); [lia|]. rewrite !sumf_S. pose proof (H m ltac:(lia)). destruct (Nat.eq_dec k m) as [->|].
  - pose proof (sumf_le m f g ltac:(intros; apply H; lia)). lra.
  - assert (sumf m f < sumf m g) by (apply IH; [intros; apply H; lia|exists k; split; [lia|auto]]). lra.
Qed.
Lemma succ_sum n f : (2 <= n)%nat -> sumf n (fun k => f (cyc_succ n k)) = sumf n f.
Proof.
  intros Hn. destruct n as [|m]; [lia|]. rewrite sumf_S. rewrite (sumf_ext m _ (fun k => f (S k))) by (intros k Hk; unfold cyc_succ; destruct (Nat.eqb_spec (S k) (S m)); [lia|reflexivity]). unfold cyc_succ at 1. rewrite Nat.eqb_refl.
  unfold sumf. cbn [seq map]. rewrite <- seq_shift, map_map. unfold Rsum. cbn [fold_right]. ring.
Qed.
Lemma place_nth i l : In i l -> (place i l < length l)%nat /\ nth (place i l) l 0%nat = i.
Proof. induction l as [|j l IH]; [easy|]. intros H. cbn [place length]. destruct (Nat.eqb_spec i j) as [->|N]; [split; [lia|reflexivity]|]. destruct H as [->|H]; [contradiction|]. destruct (IH H). split; [lia|assumption]. Qed.
(** ** Points of a circle *)
Section Circle.
Variables (argsort : list R -> list nat) (phi : list R).
Hypotheses (HA : is_argsort argsort) (HR : forall a, In a phi -> - PI < a <= PI) (H2 : (2 <= length phi)%nat).
Let n := length phi.
Let o := argsort phi.
Let pt := fun a => (cos a, sin a).
Let s k := nth (nth k o 0%nat) phi 0.
Lemma o_perm : Permutation o (seq 0 n).
Proof. apply HA. Qed.
Lemma o_len : length o = n.
Proof. rewrite (Permutation_length o_perm). apply seq_length. Qed.
Lemma o_lt k : (k < n)%nat -> (nth k o 0%nat < n)%nat.
Proof. intros Hk. assert (H : In (nth k o 0%nat) (seq 0 n)) by (apply (Permutation_in _ o_perm), nth_In; rewrite o_len; auto). apply in_seq in H. lia. Qed.
Lemma s_rng k : (k < n)%nat -> - PI < s k <= PI.
Proof. intros Hk. apply HR, nth_In. now apply o_lt. Qed.
Lemma s_mono i j : (i < j < n)%nat -> s i <= s j.
Proof. intros H. now apply HA. Qed.
Lemma angles_back : map (fun p => atan2 (snd p) (fst p)) (map pt phi) = phi.
Proof. rewrite map_map. rewrite <- (map_id phi) at 2. apply map_ext_in. intros a Ha. unfold pt. cbn [fst snd]. pose proof (atan2_unique 1 a ltac:(lra) (HR a Ha)) as E. now rewrite !Rmult_1_l in E. Qed.
(** the gap before the [k]th point in order *)
Definition gap_of (k : nat) : R := match k with O => s 0 + 2 * PI - s (n - 1)%nat | S j => s (S j) - s j end.
Definition delta_of (k : nat) : R := acos (cos (gap_of k)).
Lemma gap_rng k : (k < n)%nat -> 0 <= gap_of k <= 2 * PI.
Proof.
  pose proof PI_RGT_0. intros Hk. destruct k as [|j]; cbn [gap_of].
  - pose proof (s_mono 0 (n - 1) ltac:(lia)). pose proof (s_rng 0 ltac:(lia)). pose proof (s_rng (n - 1) ltac:(lia)). lra.
  - pose proof (s_mono j (S j) ltac:(lia)). pose proof (s_rng j ltac:(lia)). pose proof (s_rng (S j) ltac:(lia)). lra.
Qed.
Lemma delta_gap k : (k < n)%nat -> delta_of k = if Rle_dec (gap_of k) PI then gap_of k else 2 * PI - gap_of k.
Proof. intros Hk. pose proof (gap_rng k Hk). unfold delta_of. destruct (Rle_dec (gap_of k) PI); [apply acos_cos; lra|apply acos_cos_far; lra]. Qed.
Lemma pred_lt k : (k < n)%nat -> (cyc_pred n k < n)%nat.
Proof. intros H. destruct k; cbn [cyc_pred]; lia. Qed.
Lemma sorted_pt k : (k < n)%nat -> nth (nth k o 0%nat) (map pt phi) (0, 0) = pt (s k).
Proof. intros Hk. rewrite (nth_indep _ (0, 0) (pt 0)) by (rewrite map_length; now apply o_lt). apply map_nth. Qed.
Lemma delta_eq k : (k < n)%nat -> acos (clip1 (pdot (nth (nth k o 0%nat) (map pt phi) (0, 0)) (nth (nth (cyc_pred n k) o 0%nat) (map pt phi) (0, 0)))) = delta_of k.
Proof.
  intros Hk. rewrite !sorted_pt by (try apply pred_lt; auto). unfold pdot, pt. cbn [fst snd]. rewrite <- cos_minus, clip1_cos. unfold delta_of. f_equal. destruct k as [|j]; cbn [cyc_pred gap_of]; [|reflexivity].
  replace (s 0 + 2 * PI - s (n - 1)%nat) with (s 0%nat - s (n - 1)%nat + 2 * PI) by ring. now rewrite cos_2PI_period || (rewrite cos_plus, cos_2PI, sin_2PI; ring).
Qed.
Lemma gap_sum : sumf n gap_of = 2 * PI.
Proof.
  assert (E : forall m, (0 < m)%nat -> sumf m gap_of = s (m - 1)%nat + 2 * PI - s (n - 1)%nat).
  { induction m as [|m IH]; intros Hm; [lia|]. rewrite sumf_S. destruct m as [|m]; [unfold sumf, Rsum; cbn; ring|]. rewrite IH by lia. cbn [gap_of]. replace (S (S m) - 1)%nat with (S m) by lia. replace (S m - 1)%nat with m by lia. ring. }
  rewrite E by lia. ring.
Qed.
Lemma place_of k : (k < n)%nat -> place (nth k o 0%nat) o = k.
Proof.
  intros Hk. assert (ND : NoDup o) by (apply (Permutation_NoDup (Permutation_sym o_perm)), seq_NoDup). destruct (place_nth (nth k o 0%nat) o) as [H1 H2']; [apply nth_In; rewrite o_len; auto|]. eapply NoDup_nth; eauto. now rewrite o_len.
Qed.
Lemma place_sum f : Rsum (map (fun i => f (place i o)) (seq 0 n)) = sumf n f.
Proof.
  transitivity (Rsum (map (fun i => f (place i o)) o)); [apply GeometryProofs.Rsum_perm, Permutation_map, Permutation_sym, o_perm|]. unfold sumf. f_equal. apply (nth_ext _ _ (f (place 0%nat o)) (f 0%nat)); [rewrite !map_length, seq_length; apply o_len|].
  intros k Hk. rewrite map_length, o_len in Hk. rewrite (map_nth (fun i => f (place i o))), (map_nth f), seq_nth by auto. cbn [Nat.add]. now rewrite place_of.
Qed.
Definition area_at (k : nat) : R := delta_of k + delta_of (cyc_succ n k).
Lemma succ_lt k : (k < n)%nat -> (cyc_succ n k < n)%nat.
Proof. intros H. unfold cyc_succ. destruct (Nat.eqb_spec (S k) n); lia. Qed.
Lemma circle_value : circle_areas argsort (map pt phi) = if existsb (fun k => if Rlt_dec (delta_of k) (/ 1000000) then true else false) (seq 0 n) then None else Some (map (fun i => area_at (place i o)) (seq 0 n)).
Proof.
  unfold circle_areas. rewrite angles_back, map_length. fold n o. cbv zeta.
  assert (E : forall g : R -> bool, existsb (fun k => g (acos (clip1 (pdot (nth (nth k o 0%nat) (map pt phi) (0, 0)) (nth (nth (cyc_pred n k) o 0%nat) (map pt phi) (0, 0)))))) (seq 0 n) = existsb (fun k => g (delta_of k)) (seq 0 n)).
  { intros g. apply eq_true_iff_eq. rewrite !existsb_exists. split; intros (k & Hk & E); exists k; split; auto; apply in_seq in Hk; [rewrite <- delta_eq by lia|rewrite delta_eq by lia]; exact E. }
  rewrite (E (fun d => if Rlt_dec d (/ 1000000) then true else false)). destruct (existsb _ _); [reflexivity|]. f_equal. apply map_ext_in. intros i Hi.
  assert (Hp : (place i o < n)%nat). { rewrite <- o_len. apply place_nth. now apply (Permutation_in _ (Permutation_sym o_perm)). }
  rewrite !delta_eq by (try apply succ_lt; auto). unfold area_at. field.
Qed.
Lemma area_sum : Rsum (map (fun i => area_at (place i o)) (seq 0 n)) = 2 * sumf n delta_of.
Proof. rewrite (place_sum area_at). unfold area_at. rewrite sumf_plus. rewrite (succ_sum n delta_of H2). ring. Qed.
Lemma delta_le k : (k < n)%nat -> delta_of k <= gap_of k.
Proof. intros H. pose proof (gap_rng k H). rewrite delta_gap by auto. destruct (Rle_dec (gap_of k) PI); lra. Qed.
End Circle.

(** ** Specification *)
(** every half of the circle has a point *)
Definition surrounded (phi : list R) : Prop := forall psi, exists a, In a phi /\ 0 <= cos (a - psi).
(** the first other point when turning right (left) from [a] is [t] away *)
Definition first_right (phi : list R) (a t : R) : Prop :=
  0 < t /\ (exists b k, In b phi /\ b = a - t + 2 * PI * IZR k) /\ forall b k x, In b phi -> 0 < x < t -> b <> a - x + 2 * PI * IZR k.
Definition first_left (phi : list R) (a t : R) : Prop :=
  0 < t /\ (exists b k, In b phi /\ b = a + t + 2 * PI * IZR k) /\ forall b k x, In b phi -> 0 < x < t -> b <> a + x + 2 * PI * IZR k.
(** no two of the points are the same *)
Definition apart (phi : list R) : Prop := forall i j, (i < length phi)%nat -> (j < length phi)%nat -> i <> j -> cos (nth i phi 0 - nth j phi 0) <= cos (/ 1000000).

Section Cells.
Variables (argsort : list R -> list nat) (phi : list R).
Hypotheses (HA : is_argsort argsort) (HR : forall a, In a phi -> - PI < a <= PI) (H2 : (2 <= length phi)%nat).
Let n := length phi.
Let o := argsort phi.
Let s k := nth (nth k o 0%nat) phi 0.
Notation gap := (gap_of argsort phi).
Notation delta := (delta_of argsort phi).
Lemma point_rank b : In b phi -> exists k, (k < n)%nat /\ b = s k.
Proof.
  intros H. apply (In_nth _ _ 0) in H as (i & Hi & <-). assert (Ho : In i o) by (apply (Permutation_in _ (Permutation_sym (o_perm argsort phi HA))), in_seq; fold n; unfold n; lia).
  apply (In_nth _ _ 0%nat) in Ho as (k & Hk & E). exists k. split; [pose proof (o_len argsort phi HA); unfold o in Hk; unfold n; lia|]. unfold s. now rewrite E.
Qed.
Lemma s_mono_le i j : (i <= j)%nat -> (j < n)%nat -> s i <= s j.
Proof. intros H1 H3. destruct (Nat.eq_dec i j) as [->|]; [lra|]. apply (s_mono argsort phi HA). fold n. lia. Qed.
Lemma rng_s k : (k < n)%nat -> - PI < s k <= PI.
Proof. exact (s_rng argsort phi HA HR H2 k). Qed.
Lemma k_range (x y t : R) (k : Z) : - PI < x <= PI -> - PI < y <= PI -> 0 < t < 2 * PI -> y = x - t + 2 * PI * IZR k -> k = 0%Z \/ k = 1%Z.
Proof.
  intros Hx Hy Ht E. pose proof PI_RGT_0. assert (L : IZR k < 2) by nra. assert (G : -1 < IZR k) by nra. apply lt_IZR in L. apply lt_IZR in G. lia.
Qed.
Lemma right_gap k : (k < n)%nat -> 0 < gap k -> first_right phi (s k) (gap k).
Proof.
  intros Hk Pk. pose proof PI_RGT_0 as HPI. pose proof (gap_rng argsort phi HA HR H2 k Hk) as GR. split; [exact Pk|]. split.
  - destruct k as [|j]; cbn [gap_of].
    + exists (s (n - 1)%nat), 1%Z. split; [apply nth_In, (o_lt argsort phi HA H2); fold n; lia|]. unfold s, n, o. lra.
    + exists (s j), 0%Z. split; [apply nth_In, (o_lt argsort phi HA H2); fold n; lia|]. unfold s, o. lra.
  - intros b z x Hb Hx E. destruct (point_rank b Hb) as (j & Hj & ->). pose proof (rng_s k Hk) as R1. pose proof (rng_s j Hj) as R2.
    destruct (k_range (s k) (s j) x z R1 R2 ltac:(lra) E) as [-> | ->]; destruct k as [|k]; cbn [gap_of] in Hx; fold n o in Hx; fold (s 0%nat) in Hx; try fold (s (n - 1)%nat) in Hx; try fold (s k) in Hx; try fold (s (S k)) in Hx.
    + pose proof (s_mono_le 0 j ltac:(lia) Hj). lra.
    + destruct (le_lt_dec j k) as [L|L]; [pose proof (s_mono_le j k L ltac:(lia)); lra|pose proof (s_mono_le (S k) j ltac:(lia) Hj); lra].
    + pose proof (s_mono_le j (n - 1) ltac:(lia) ltac:(lia)). lra.
    + pose proof (rng_s k ltac:(lia)) as R3. lra.
Qed.
Lemma left_gap k : (k < n)%nat -> 0 < gap (cyc_succ n k) -> first_left phi (s k) (gap (cyc_succ n k)).
Proof.
  intros Hk Pk. pose proof (succ_lt phi H2 k Hk) as Hs. fold n in Hs. destruct (right_gap (cyc_succ n k) Hs Pk) as (_ & _ & NB). set (t := gap (cyc_succ n k)) in *.
  assert (E : exists z, s (cyc_succ n k) = s k + t + 2 * PI * IZR z).
  { unfold t, cyc_succ. destruct (Nat.eqb_spec (S k) n) as [Ek|]; cbn [gap_of]; [exists (-1)%Z|exists 0%Z]; fold n o; fold (s 0%nat) (s (n - 1)%nat); try fold (s (S k)); try fold (s k); [replace (n - 1)%nat with k by lia; unfold s; lra|unfold s; lra]. }
  destruct E as [z E]. split; [exact Pk|]. split.
  - exists (s (cyc_succ n k)), z. split; [apply nth_In, (o_lt argsort phi HA H2); exact Hs|exact E].
  - intros b q x Hb Hx Eb. apply (NB b (q - z)%Z (t - x) Hb ltac:(lra)). rewrite minus_IZR. rewrite E, Eb. ring.
Qed.
Lemma surrounded_gap k : surrounded phi -> (k < n)%nat -> gap k <= PI.
Proof.
  intros HS Hk. pose proof PI_RGT_0 as HPI. pose proof (gap_rng argsort phi HA HR H2 k Hk) as GR. apply Rnot_lt_le. intros G. destruct (HS (s k - gap k / 2)) as (b & Hb & Cb). destruct (point_rank b Hb) as (j & Hj & ->).
  pose proof (rng_s k Hk) as R1. pose proof (rng_s j Hj) as R2.
  assert (X : exists x, cos (s j - (s k - gap k / 2)) = cos x /\ gap k / 2 <= x <= 2 * PI - gap k / 2).
  { destruct k as [|k].
    - exists (s j - (s 0%nat - gap 0 / 2)). split; auto. pose proof (s_mono_le 0 j ltac:(lia) Hj). pose proof (s_mono_le j (n - 1) ltac:(lia) ltac:(lia)). assert (EG : gap 0 = s 0%nat + 2 * PI - s (n - 1)%nat) by reflexivity. lra.
    - pose proof (rng_s k ltac:(lia)) as R3. assert (EG : gap (S k) = s (S k) - s k) by reflexivity. destruct (le_lt_dec j k) as [L|L].
      + exists (s j - (s (S k) - gap (S k) / 2) + 2 * PI). split; [rewrite (cos_plus _ (2 * PI)), cos_2PI, sin_2PI; ring|]. pose proof (s_mono_le j k L ltac:(lia)). lra.
      + exists (s j - (s (S k) - gap (S k) / 2)). split; auto. pose proof (s_mono_le (S k) j ltac:(lia) Hj). lra. }
  destruct X as (x & E & Hx). rewrite E in Cb. pose proof (cos_lt_0 x ltac:(lra) ltac:(lra)). lra.
Qed.
Lemma not_close areas : circle_areas argsort (map (fun a => (cos a, sin a)) phi) = Some areas -> areas = map (fun i => area_at argsort phi (place i o)) (seq 0 n) /\ forall k, (k < n)%nat -> / 1000000 <= delta k /\ 0 < gap k.
Proof.
  intros H. rewrite (circle_value argsort phi HA HR H2) in H. fold n o in H. destruct (existsb _ _) eqn:E; [discriminate|]. injection H as <-. split; auto. intros k Hk.
  assert (D : / 1000000 <= delta k). { apply Rnot_lt_le. intros L. apply Bool.not_true_iff_false in E. apply E. apply existsb_exists. exists k. split; [apply in_seq; lia|]. destruct (Rlt_dec (delta k) (/ 1000000)); auto. }
  split; auto. pose proof (gap_rng argsort phi HA HR H2 k Hk). destruct (Rle_lt_or_eq_dec 0 (gap k)) as [|Z]; try tauto. exfalso. unfold delta_of in D. rewrite <- Z, cos_0, acos_1 in D. lra.
Qed.
Lemma apart_defined : apart phi -> exists areas, circle_areas argsort (map (fun a => (cos a, sin a)) phi) = Some areas.
Proof.
  intros H. rewrite (circle_value argsort phi HA HR H2). fold n o. destruct (existsb _ _) eqn:E; [|eauto]. exfalso. apply existsb_exists in E as (k & Hk & E). apply in_seq in Hk. destruct (Rlt_dec (delta k) (/ 1000000)) as [L|]; [|discriminate].
  assert (Hp := pred_lt phi H2 k ltac:(fold n; lia)). fold n in Hp. assert (NE : nth k o 0%nat <> nth (cyc_pred n k) o 0%nat).
  { intros E'. assert (ND : NoDup o) by (apply (Permutation_NoDup (Permutation_sym (o_perm argsort phi HA))), seq_NoDup). assert (OL : length o = n) by exact (o_len argsort phi HA). assert (EQ : k = cyc_pred n k) by (apply (proj1 (NoDup_nth o 0%nat) ND); [lia|lia|exact E']). destruct k as [|k]; cbn [cyc_pred] in EQ; unfold n in *; lia. }
  specialize (H _ _ (o_lt argsort phi HA H2 k ltac:(fold n; lia)) (o_lt argsort phi HA H2 _ Hp) NE). change (cos (s k - s (cyc_pred n k)) <= cos (/ 1000000)) in H.
  assert (EC : cos (gap k) = cos (s k - s (cyc_pred n k))). { destruct k as [|k]; cbn [cyc_pred gap_of]; [|reflexivity]. fold n o. fold (s 0%nat) (s (n - 1)%nat). replace (s 0%nat + 2 * PI - s (n - 1)%nat) with (s 0%nat - s (n - 1)%nat + 2 * PI) by ring. rewrite (cos_plus _ (2 * PI)), cos_2PI, sin_2PI. ring. }
  pose proof PI_RGT_0. pose proof PI2_3_2 as P3. unfold PI2 in P3. unfold delta_of in L. assert (B : 0 <= acos (cos (gap k)) <= PI) by apply acos_bound. assert (CC : cos (acos (cos (gap k))) = cos (gap k)) by (apply cos_acos; apply COS_bound).
  pose proof (cos_decreasing_1 (acos (cos (gap k))) (/ 1000000) ltac:(lra) ltac:(lra) ltac:(lra) ltac:(lra) L) as D. lra.
Qed.
End Cells.

Lemma robust_circle voronoi svd argsort data d s1 pts : forallb (fun p => Nat.eqb (length p) 3) data = true -> (4 <= length data)%nat -> voronoi data = None -> mapM normalised data = Some d -> svd d = (s1, pts) -> / 1000000 <= s1 ->
  robust_areas voronoi svd argsort data = circle_areas argsort pts.
Proof.
  intros H3 H4 HV HN HS Hs. unfold robust_areas. rewrite H3. cbn [negb]. destruct data as [|p1 [|p2 [|p3 [|p4 data]]]]; cbn [length] in H4; try lia. rewrite HV, HN. cbn [bind]. rewrite HS. destruct (Rlt_dec s1 (/ 1000000)); [lra|reflexivity].
Qed.
(** Points on a great circle with one in every half of it, none of them twice: the cell of a point has the area between
    the bisectors to its neighbours on both sides - twice the angle of the lune - and the areas sum to that of the sphere. *)
Theorem C133_circle : forall voronoi svd argsort data d s1 phi, is_argsort argsort -> Forall (fun p => length p = 3%nat) data -> (4 <= length data)%nat -> voronoi data = None ->
  mapM normalised data = Some d -> svd d = (s1, map (fun a => (cos a, sin a)) phi) -> / 1000000 <= s1 -> length phi = length data -> (forall a, In a phi -> - PI < a <= PI) -> surrounded phi -> apart phi ->
  exists areas, robust_areas voronoi svd argsort data = Some areas /\ length areas = length data /\ Rsum areas = 4 * PI /\
    forall i, (i < length data)%nat -> exists l r, first_left phi (nth i phi 0) l /\ first_right phi (nth i phi 0) r /\ nth i areas 0 = 2 * ((l + r) / 2).
Proof.
  intros voronoi svd argsort data d s1 phi HA H3 H4 HV HN HS Hs HL HR HSur HAp. assert (H2 : (2 <= length phi)%nat) by lia.
  rewrite (robust_circle voronoi svd argsort data d s1 (map (fun a => (cos a, sin a)) phi)); auto; [|apply forallb_forall; rewrite Forall_forall in H3; intros p Hp; apply Nat.eqb_eq; auto].
  destruct (apart_defined argsort phi HA HR H2 HAp) as [areas E]. exists areas. split; [exact E|]. destruct (not_close argsort phi HA HR H2 areas E) as [-> G].
  assert (DG : forall k, (k < length phi)%nat -> delta_of argsort phi k = gap_of argsort phi k). { intros k Hk. rewrite (delta_gap argsort phi HA HR H2 k Hk). pose proof (surrounded_gap argsort phi HA HR H2 k HSur Hk). destruct (Rle_dec _ _); [reflexivity|lra]. }
  split; [now rewrite map_length, seq_length|]. split.
  - rewrite (area_sum argsort phi HA H2). rewrite (sumf_ext _ _ (gap_of argsort phi)) by exact DG. rewrite (gap_sum argsort phi H2). ring.
  - intros i Hi. rewrite <- HL in Hi. set (k := place i (argsort phi)). assert (Hik : (k < length phi)%nat /\ nth k (argsort phi) 0%nat = i).
    { unfold k. rewrite <- (o_len argsort phi HA). apply place_nth. apply (Permutation_in _ (Permutation_sym (o_perm argsort phi HA))), in_seq. lia. } destruct Hik as [Hk Ek].
    pose proof (succ_lt phi H2 k Hk) as Hsk. exists (gap_of argsort phi (cyc_succ (length phi) k)), (gap_of argsort phi k). split; [|split].
    + pose proof (left_gap argsort phi HA HR H2 k Hk (proj2 (G _ Hsk))) as F. cbv beta zeta in F. rewrite Ek in F. exact F.
    + pose proof (right_gap argsort phi HA HR H2 k Hk (proj2 (G _ Hk))) as F. cbv beta zeta in F. rewrite Ek in F. exact F.
    + rewrite nth_map_seq by auto. fold k. unfold area_at. rewrite !DG by auto. field.
Qed.
Print Assumptions C133_circle.
(** Points on less than half of a great circle: the areas sum to less than that of the sphere - the cells of the two end
    points are measured through the wrong side. *)
Theorem C133_narrow : forall voronoi svd argsort data d s1 phi lo hi areas, is_argsort argsort -> Forall (fun p => length p = 3%nat) data -> (4 <= length data)%nat -> voronoi data = None ->
  mapM normalised data = Some d -> svd d = (s1, map (fun a => (cos a, sin a)) phi) -> / 1000000 <= s1 -> length phi = length data -> - PI < lo -> hi <= PI -> hi - lo < PI -> (forall a, In a phi -> lo <= a <= hi) ->
  robust_areas voronoi svd argsort data = Some areas -> Rsum areas <= 4 * (hi - lo) /\ Rsum areas < 4 * PI.
Proof.
  intros voronoi svd argsort data d s1 phi lo hi areas HA H3 H4 HV HN HS Hs HL Hlo Hhi Hw HIn H. assert (H2 : (2 <= length phi)%nat) by lia. assert (HR : forall a, In a phi -> - PI < a <= PI) by (intros a Ha; specialize (HIn a Ha); lra).
  rewrite (robust_circle voronoi svd argsort data d s1 (map (fun a => (cos a, sin a)) phi)) in H; auto; [|apply forallb_forall; rewrite Forall_forall in H3; intros p Hp; apply Nat.eqb_eq; auto].
  destruct (not_close argsort phi HA HR H2 areas H) as [-> _]. rewrite (area_sum argsort phi HA H2). set (n := length phi) in *.
  assert (G0 : gap_of argsort phi 0 > PI /\ 2 * PI - gap_of argsort phi 0 <= hi - lo).
  { pose proof (HIn _ (nth_In phi 0 (o_lt argsort phi HA H2 0 ltac:(fold n; lia)))). pose proof (HIn _ (nth_In phi 0 (o_lt argsort phi HA H2 (n - 1) ltac:(fold n; lia)))). unfold gap_of. fold n. lra. }
  assert (D0 : delta_of argsort phi 0 = 2 * PI - gap_of argsort phi 0). { rewrite (delta_gap argsort phi HA HR H2 0) by (fold n; lia). destruct (Rle_dec _ _); lra. }
  assert (B : sumf n (delta_of argsort phi) <= sumf n (fun k => gap_of argsort phi k + if Nat.eqb k 0 then 2 * PI - 2 * gap_of argsort phi 0 else 0)).
  { apply sumf_le. intros k Hk. destruct (Nat.eqb_spec k 0) as [->|]; [lra|]. pose proof (delta_le argsort phi HA HR H2 k Hk). lra. }
  rewrite sumf_plus in B. unfold n in B at 2. rewrite (gap_sum argsort phi H2) in B. assert (E0 : forall m x, (0 < m)%nat -> sumf m (fun k => if Nat.eqb k 0 then x else 0) = x).
  { intros m x. induction m as [|m IH]; intros Hm; [lia|]. rewrite sumf_S. destruct m as [|m]; [unfold sumf, Rsum; cbn; ring|]. rewrite IH by lia. cbn [Nat.eqb]. ring. }
  rewrite E0 in B by lia. split; lra.
Qed.
Print Assumptions C133_narrow.

(** ** Few points *)
(** One point has the whole sphere and two points have half of it each. *)
Theorem C133_few : forall voronoi svd argsort p q, length p = 3%nat -> length q = 3%nat ->
  robust_areas voronoi svd argsort [p] = Some [4 * PI] /\ exists a, robust_areas voronoi svd argsort [p; q] = Some [a; a] /\ a + a = 4 * PI.
Proof. intros voronoi svd argsort p q Hp Hq. unfold robust_areas. cbn [forallb]. rewrite Hp, Hq. cbn [Nat.eqb andb negb]. split; [reflexivity|]. eexists. split; [reflexivity|]. ring. Qed.
Print Assumptions C133_few.
(** the point at angle [a] and distance [r] in the plane of the orthonormal [u], [v] *)
Definition on_plane (u v : vec) (r a : R) : vec := vscal r (vadd (vscal (cos a) u) (vscal (sin a) v)).
Definition unit_pair (u v : vec) : Prop := length u = 3%nat /\ length v = 3%nat /\ dot u u = 1 /\ dot v v = 1 /\ dot u v = 0.
Lemma eq3 (a b c a' b' c' : R) : a = a' -> b = b' -> c = c' -> [a; b; c] = [a'; b'; c'].
Proof. now intros -> -> ->. Qed.
Lemma len3 (u : vec) : length u = 3%nat -> exists x y z, u = [x; y; z].
Proof. destruct u as [|x [|y [|z [|]]]]; try discriminate. eauto. Qed.
Lemma plane_dot u v r r' a b : unit_pair u v -> dot (on_plane u v r a) (on_plane u v r' b) = r * r' * cos (a - b).
Proof.
  intros (Hu & Hv & U & V & UV). destruct (len3 u Hu) as (x & y & z & ->). destruct (len3 v Hv) as (x' & y' & z' & ->). unfold on_plane, dot, Rsum in *. cbn in *. rewrite cos_minus.
  transitivity (r * r' * (cos a * cos b * (x * x + (y * y + (z * z + 0))) + sin a * sin b * (x' * x' + (y' * y' + (z' * z' + 0))) + (cos a * sin b + sin a * cos b) * (x * x' + (y * y' + (z * z' + 0))))); [ring|]. rewrite U, V, UV. ring.
Qed.
Lemma plane_norm u v r a : unit_pair u v -> 0 < r -> vnorm (on_plane u v r a) = r.
Proof. intros H Hr. unfold vnorm, vsq. rewrite plane_dot by auto. replace (a - a) with 0 by ring. rewrite cos_0, Rmult_1_r. apply sqrt_square. lra. Qed.
Lemma plane_normalised u v r a : unit_pair u v -> 0 < r -> normalised (on_plane u v r a) = Some (on_plane u v 1 a).
Proof.
  intros H Hr. unfold normalised. rewrite plane_norm by auto. destruct (Req_EM_T r 0); [lra|]. f_equal. destruct H as (Hu & Hv & _). destruct (len3 u Hu) as (x & y & z & ->). destruct (len3 v Hv) as (x' & y' & z' & ->). unfold on_plane. cbn. apply eq3; field; lra.
Qed.
(** Three points around a great circle, at any distances: each cell has the angles to the two other points together. *)
Theorem C133_three : forall voronoi svd argsort u v r1 r2 r3 a b c, unit_pair u v -> 0 < r1 -> 0 < r2 -> 0 < r3 -> a <= b <= c -> b - a <= PI -> c - b <= PI -> a + 2 * PI - c <= PI -> c - a <= 2 * PI ->
  exists x y z, robust_areas voronoi svd argsort [on_plane u v r1 a; on_plane u v r2 b; on_plane u v r3 c] = Some [x; y; z] /\
    x = (b - a) + (a + 2 * PI - c) /\ y = (b - a) + (c - b) /\ z = (c - b) + (a + 2 * PI - c) /\ x + y + z = 4 * PI.
Proof.
  intros voronoi svd argsort u v r1 r2 r3 a b c H R1 R2 R3 Ho G1 G2 G3 G4. unfold robust_areas.
  assert (L : forall r t, length (on_plane u v r t) = 3%nat). { intros r t. destruct H as (Hu & Hv & _). destruct (len3 u Hu) as (? & ? & ? & ->). destruct (len3 v Hv) as (? & ? & ? & ->). reflexivity. }
  cbn [forallb]. rewrite !L. cbn [Nat.eqb andb negb]. unfold three_areas. cbn [mapM]. rewrite !plane_normalised by auto. cbn [bind map].
  assert (D : forall s t, Rabs (acos (clip1 (dot (on_plane u v 1 s) (on_plane u v 1 t)))) = acos (cos (s - t))). { intros s t. rewrite plane_dot by auto. rewrite !Rmult_1_l, clip1_cos. apply Rabs_right. apply Rle_ge, acos_bound. }
  rewrite !D. assert (S : forall s t, acos (cos (s - t)) = acos (cos (t - s))) by (intros s t; rewrite <- (cos_neg (s - t)); do 2 f_equal; ring).
  assert (Z : forall t, acos (cos (t - t)) = 0) by (intros t; rewrite Rminus_diag_eq by auto; rewrite cos_0; apply acos_1).
  rewrite !Z, (S a b), (S b c), (S a c). rewrite (acos_cos (b - a)), (acos_cos (c - b)), (acos_cos_far (c - a)) by lra.
  eexists _, _, _. split; [reflexivity|]. unfold Rsum. cbn [fold_right]. repeat split; ring.
Qed.
Print Assumptions C133_three.
Lemma acos_0_half : acos 0 = PI / 2.
Proof. rewrite <- cos_PI2. apply acos_cos. pose proof PI_RGT_0. lra. Qed.
(** Three points that are not on one great circle: the areas do not add up to that of the sphere.  The three axes have,
    by symmetry, cells of a third of the sphere each. *)
Theorem C133_axes_refuted : exists data, length data = 3%nat /\ (forall p, In p data -> length p = 3%nat /\ dot p p = 1) /\ forall voronoi svd argsort, exists areas, robust_areas voronoi svd argsort data = Some areas /\ Rsum areas = 3 * PI /\ Rsum areas < 4 * PI.
Proof.
  exists [[1; 0; 0]; [0; 1; 0]; [0; 0; 1]]. split; [reflexivity|]. split; [intros p [<-|[<-|[<-|[]]]]; split; try reflexivity; unfold dot, Rsum; cbn; ring|]. intros voronoi svd argsort.
  assert (N : forall x y z, x * x + y * y + z * z = 1 -> normalised [x; y; z] = Some [x; y; z]).
  { intros x y z E. assert (V : vnorm [x; y; z] = 1). { unfold vnorm, vsq, dot, Rsum. cbn. replace (x * x + (y * y + (z * z + 0))) with (1 * 1) by lra. apply sqrt_square. lra. } unfold normalised. rewrite V. destruct (Req_EM_T 1 0); [lra|]. f_equal. cbn [map]. apply eq3; field. }
  unfold robust_areas. cbn [forallb length Nat.eqb andb negb]. unfold three_areas. cbn [mapM]. rewrite !N by ring. cbn [bind map]. unfold dot, Rsum. cbn [map2 fold_right].
  assert (A0 : Rabs (acos (clip1 0)) = PI / 2). { unfold clip1. rewrite Rmax_left, Rmin_left by lra. rewrite acos_0_half. apply Rabs_right. pose proof PI_RGT_0. lra. }
  assert (A1 : Rabs (acos (clip1 1)) = 0). { unfold clip1. rewrite Rmax_left, Rmin_left by lra. rewrite acos_1. apply Rabs_R0. }
  replace (1 * 1 + (0 * 0 + (0 * 0 + 0))) with 1 by ring. replace (0 * 0 + (1 * 1 + (0 * 0 + 0))) with 1 by ring. replace (0 * 0 + (0 * 0 + (1 * 1 + 0))) with 1 by ring.
  replace (1 * 0 + (0 * 1 + (0 * 0 + 0))) with 0 by ring. replace (1 * 0 + (0 * 0 + (0 * 1 + 0))) with 0 by ring. replace (0 * 1 + (1 * 0 + (0 * 0 + 0))) with 0 by ring. replace (0 * 0 + (1 * 0 + (0 * 1 + 0))) with 0 by ring. replace (0 * 1 + (0 * 0 + (1 * 0 + 0))) with 0 by ring. replace (0 * 0 + (0 * 1 + (1 * 0 + 0))) with 0 by ring.
  rewrite A0, A1. eexists. split; [reflexivity|]. cbn [fold_right]. pose proof PI_RGT_0. split; lra.
Qed.
Print Assumptions C133_axes_refuted.

(** ** Cases *)
Definition circle_point (a : R) : vec := [cos a; sin a; 0].
Definition flat (d : list vec) : list (R * R) := map (fun p => (nth 0 p 0, nth 1 p 0)) d.
Lemma circle_norm phi : mapM normalised (map circle_point phi) = Some (map circle_point phi).
Proof.
  induction phi as [|a phi IH]; [reflexivity|]. cbn [map mapM]. assert (V : vnorm (circle_point a) = 1). { unfold vnorm, vsq, dot, Rsum, circle_point. cbn. replace (cos a * cos a + (sin a * sin a + (0 * 0 + 0))) with (1 * 1); [apply sqrt_square; lra|]. pose proof (sin2_cos2 a) as E. unfold Rsqr in E. lra. }
  unfold normalised at 1. rewrite V. destruct (Req_EM_T 1 0); [lra|]. cbn [bind]. rewrite IH. cbn [bind]. do 2 f_equal. unfold circle_point. cbn [map]. apply eq3; field.
Qed.
Lemma flat_circle phi : flat (map circle_point phi) = map (fun a => (cos a, sin a)) phi.
Proof. unfold flat. rewrite map_map. reflexivity. Qed.
(** Four points on a quarter of a great circle, such as measurements in front of a source: the cells cover half the
    sphere only. *)
Theorem C133_arc_refuted : exists phi, length phi = 4%nat /\ forall argsort, is_argsort argsort ->
  exists areas, robust_areas (fun _ => None) (fun d => (1, flat d)) argsort (map circle_point phi) = Some areas /\ Rsum areas < 4 * PI.
Proof.
  pose proof PI_RGT_0 as HPI. pose proof PI2_3_2 as P3. unfold PI2 in P3. exists [0; PI / 6; PI / 3; PI / 2]. split; [reflexivity|]. intros argsort HA. set (phi := [0; PI / 6; PI / 3; PI / 2]).
  assert (HI : forall a, In a phi -> 0 <= a <= PI / 2) by (intros a [<-|[<-|[<-|[<-|[]]]]]; lra).
  assert (AP : apart phi).
  { intros i j Hi Hj Hij. assert (W : exists k : Z, nth i phi 0 - nth j phi 0 = PI / 6 * IZR k /\ (1 <= Z.abs k <= 3)%Z).
    { exists (Z.of_nat i - Z.of_nat j)%Z. rewrite minus_IZR, <- !INR_IZR_INZ. unfold phi in Hi, Hj. cbn [length] in Hi, Hj. split; [|lia]. unfold phi. destruct i as [|[|[|[|]]]], j as [|[|[|[|]]]]; try lia; cbn [nth INR]; field. }
    destruct W as (k & E & Hk). rewrite E. rewrite <- (Rabs_right (/ 1000000)) by lra. rewrite <- (cos_Rabs (PI / 6 * IZR k)) || rewrite <- cos_Rabs.
    rewrite (Rabs_right (/ 1000000)) by lra. rewrite Rabs_mult, (Rabs_right (PI / 6)) by lra. rewrite <- abs_IZR. assert (L1 : 1 <= IZR (Z.abs k)) by (apply IZR_le; lia). assert (L3 : IZR (Z.abs k) <= 3) by (apply IZR_le; lia). apply cos_decr_1; nra. }
  assert (HS : (fun d : list vec => (1, flat d)) (map circle_point phi) = (1, map (fun a => (cos a, sin a)) phi)) by (cbv beta; now rewrite flat_circle).
  assert (H3 : Forall (fun p : vec => length p = 3%nat) (map circle_point phi)) by (apply Forall_forall; intros p Hp; apply in_map_iff in Hp as (a & <- & _); reflexivity).
  assert (H3' : forallb (fun p : vec => Nat.eqb (length p) 3) (map circle_point phi) = true) by reflexivity.
  destruct (apart_defined argsort phi HA) as [areas EA]; [intros a Ha; specialize (HI a Ha); lra|cbn; lia|exact AP|].
  exists areas. assert (E : robust_areas (fun _ => None) (fun d => (1, flat d)) argsort (map circle_point phi) = Some areas).
  { rewrite (robust_circle (fun _ => None) (fun d => (1, flat d)) argsort (map circle_point phi) (map circle_point phi) 1 (map (fun a => (cos a, sin a)) phi)); [exact EA|exact H3'|cbn; lia|reflexivity|apply circle_norm|exact HS|lra]. }
  split; [exact E|]. pose proof (circle_norm phi); apply (C133_narrow (fun _ => None) (fun d => (1, flat d)) argsort (map circle_point phi) (map circle_point phi) 1 phi 0 (PI / 2) areas); auto; try lra; cbn; lia.
Qed.
Print Assumptions C133_arc_refuted.
(** Four points around a great circle meet the hypotheses of [C133_circle]: the areas are the quarters of the sphere. *)
Definition square : list R := [- (PI / 2); 0; PI / 2; PI].
Lemma square_angles i j : (i < 4)%nat -> (j < 4)%nat -> i <> j -> nth i square 0 - nth j square 0 = PI / 2 * IZR (Z.of_nat i - Z.of_nat j).
Proof. intros Hi Hj Hij. rewrite minus_IZR, <- !INR_IZR_INZ. unfold square. destruct i as [|[|[|[|]]]], j as [|[|[|[|]]]]; try lia; cbn [nth INR]; field. Qed.
Example square_apart : apart square.
Proof.
  intros i j Hi Hj Hij. pose proof PI_RGT_0 as HPI. pose proof PI2_3_2 as P3. unfold PI2 in P3. rewrite square_angles by (assumption || exact Hi || exact Hj). assert (C : cos (/ 1000000) >= 0) by (apply Rle_ge, cos_ge_0; lra).
  unfold square in Hi, Hj. cbn [length] in Hi, Hj. assert (K : forall k, (1 <= k <= 3)%Z -> cos (PI / 2 * IZR k) <= 0).
  { intros k Hk. assert (k = 1 \/ k = 2 \/ k = 3)%Z as [->|[->| ->]] by lia; [rewrite Rmult_1_r, cos_PI2; lra|replace (PI / 2 * 2) with PI by field; rewrite cos_PI; lra|]. replace (PI / 2 * 3) with (3 * (PI / 2)) by ring. rewrite cos_3PI2. lra. }
  assert (k0 : (Z.of_nat i - Z.of_nat j > 0)%Z \/ (Z.of_nat j - Z.of_nat i > 0)%Z) by lia. destruct k0 as [k0|k0].
  - pose proof (K (Z.of_nat i - Z.of_nat j)%Z ltac:(lia)). lra.
  - pose proof (K (Z.of_nat j - Z.of_nat i)%Z ltac:(lia)). replace (PI / 2 * IZR (Z.of_nat i - Z.of_nat j)) with (- (PI / 2 * IZR (Z.of_nat j - Z.of_nat i))) by (rewrite !minus_IZR; ring). rewrite cos_neg. lra.
Qed.
Example square_surrounded : surrounded square.
Proof.
  intros psi. destruct (Rle_dec 0 (cos (0 - psi))) as [H|H]; [exists 0; split; [right; left; reflexivity|exact H]|]. exists PI. split; [do 3 right; left; reflexivity|]. rewrite cos_minus, cos_PI, sin_PI. rewrite cos_minus, cos_0, sin_0 in H. lra.
Qed.
Example square_case : forall argsort, is_argsort argsort -> exists areas, robust_areas (fun _ => None) (fun d => (1, flat d)) argsort (map circle_point square) = Some areas /\ Rsum areas = 4 * PI.
Proof.
  intros argsort HA. pose proof PI_RGT_0 as HPI. destruct (C133_circle (fun _ => None) (fun d => (1, flat d)) argsort (map circle_point square) (map circle_point square) 1 square) as (areas & E & _ & SS & _);
  [exact HA|apply Forall_forall; intros p Hp; apply in_map_iff in Hp as (a & <- & _); reflexivity|cbn; lia|reflexivity|apply circle_norm|now rewrite flat_circle|lra|reflexivity|intros a [<-|[<-|[<-|[<-|[]]]]]; lra|exact square_surrounded|exact square_apart|].
  exists areas. split; [exact E|exact SS].
Qed.
