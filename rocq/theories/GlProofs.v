(** The Griffin-Lim iteration: least squares in time, projection in frequency. *)
From Coq Require Import List ZArith Lia Reals Lra Bool.
From Verif Require Import Base Vec Sum Cpx BaseProofs DftModel DftProofs StftModel StftSpec StftProofs DenoiseModel BackModel WienerProofs GlModel GlSpec.
From Verif Require WaveletProofs BeamTdProps.
Import ListNotations.
Local Open Scope R_scope.

(** ** Frequency *)
Lemma Cabs_nonneg : forall z, 0 <= Cabs z.
Proof. intros. apply sqrt_pos. Qed.
Lemma Cabs_sq : forall z, Cabs z ^ 2 = Cabs2 z.
Proof. intros. unfold Cabs. cbn [pow]. rewrite Rmult_1_r. apply sqrt_sqrt. apply Cabs2_nonneg. Qed.
Lemma Cabs2_cscal : forall r z, Cabs2 (Cscal r z) = r ^ 2 * Cabs2 z.
Proof. intros r [a b]. unfold Cabs2, Cscal. cbn. ring. Qed.
Lemma Cabs_conj : forall z, Cabs (Conj z) = Cabs z.
Proof. intros [a b]. unfold Cabs, Cabs2, Conj. cbn. f_equal. ring. Qed.
Lemma dft_minus : forall n (x y : nat -> R) k, dft n (fun j => RtoC (x j - y j)) k = (dft n (fun j => RtoC (x j)) k - dft n (fun j => RtoC (y j)) k)%C.
Proof. intros. unfold dft. rewrite <- csum_sub. apply csum_ext. intros. unfold RtoC. cbv [Csub Cmul]. cbn [fst snd]. apply C_eq; cbn [fst snd]; ring. Qed.
(** the closest point with a given magnitude *)
Lemma mag_le : forall (a p : C) x, 0 <= x -> Cabs2 p = 1 -> (Cabs a - x) ^ 2 <= Cabs2 (a - Cscal x p)%C.
Proof.
  intros [a1 a2] [p1 p2] x Hx Hp.
  assert (Hdot : a1 * p1 + a2 * p2 <= Cabs (a1, a2)).
  { apply Rsqr_incr_0_var; [|apply Cabs_nonneg]. unfold Rsqr. pose proof (Cabs_sq (a1, a2)) as E. cbn [pow] in E. rewrite Rmult_1_r in E. rewrite E. unfold Cabs2 in *. cbn [fst snd] in *.
    replace (a1 * a1 + a2 * a2) with ((a1 * a1 + a2 * a2) * (p1 * p1 + p2 * p2)) by (rewrite Hp; ring).
    assert (0 <= (a1 * p2 - a2 * p1) ^ 2) by apply pow2_ge_0. lra. }
  set (q := Cabs (a1, a2)) in *. assert (Eq : q ^ 2 = a1 * a1 + a2 * a2) by (unfold q; rewrite Cabs_sq; reflexivity).
  unfold Cabs2, Csub, Cscal in *. cbn [fst snd] in *.
  replace ((a1 - x * p1) * (a1 - x * p1) + (a2 - x * p2) * (a2 - x * p2)) with (q ^ 2 - 2 * x * (a1 * p1 + a2 * p2) + x ^ 2 * (p1 * p1 + p2 * p2)) by (rewrite Eq; ring).
  rewrite Hp. assert (0 <= x * (q - (a1 * p1 + a2 * p2))) by (apply Rmult_le_pos; lra). nra.
Qed.
Lemma mag_eq : forall (a : C) x, Cabs a <> 0 -> (Cabs a - x) ^ 2 = Cabs2 (a - Cscal (x / Cabs a) a)%C.
Proof.
  intros a x Ha. replace (a - Cscal (x / Cabs a) a)%C with (Cscal (1 - x / Cabs a) a) by (destruct a; unfold Csub, Cscal; cbn; f_equal; ring).
  rewrite Cabs2_cscal, <- Cabs_sq. field. exact Ha.
Qed.
Section Bin.
Variables (n : nat) (u : nat -> R) (x : nat -> R) (Y : list C).
Let U := dft n (fun j => RtoC (u j)).
Hypothesis (Hn : (0 < n)%nat) (Hx : forall f, (f <= n / 2)%nat -> 0 <= x f) (HU : forall f, (f <= n / 2)%nat -> Cabs (U f) <> 0).
Hypothesis HY : forall f, (f <= n / 2)%nat -> nth f Y C0 = Cscal (x f / Cabs (U f)) (U f).
Let x2 (f : nat) : R := x (if (f <=? n / 2)%nat then f else n - f)%nat.
Let H (f : nat) : C := Cscal (x2 f / Cabs (U f)) (U f).
Lemma half_facts : (n / 2 * 2 <= n)%nat /\ (n <= n / 2 * 2 + 1)%nat.
Proof. clear. pose proof (Nat.div_mod n 2 ltac:(lia)). pose proof (Nat.mod_upper_bound n 2 ltac:(lia)). lia. Qed.
Lemma x2_mirror : forall k, (0 < k < n)%nat -> x2 (n - k) = x2 k.
Proof.
  clear -n. intros k Hk. pose proof half_facts. unfold x2. destruct (Nat.leb_spec (n - k) (n / 2)), (Nat.leb_spec k (n / 2)); f_equal; lia.
Qed.
Lemma U_mirror : forall k, (0 < k < n)%nat -> U (n - k)%nat = Conj (U k).
Proof. intros k Hk. unfold U. now apply dft_hermitian. Qed.
Lemma U_nz : forall f, (f < n)%nat -> Cabs (U f) <> 0.
Proof.
  intros f Hf. destruct (Nat.le_gt_cases f (n / 2)) as [G|G]; [auto|]. pose proof half_facts. assert (E : U (n - (n - f))%nat = Conj (U (n - f)%nat)) by (apply U_mirror; lia).
  replace (n - (n - f))%nat with f in E by lia. rewrite E, Cabs_conj. apply HU. lia.
Qed.
Lemma x2_nonneg : forall f, (f < n)%nat -> 0 <= x2 f.
Proof. intros f Hf. pose proof half_facts. unfold x2. destruct (Nat.leb_spec f (n / 2)); apply Hx; lia. Qed.
Lemma H_hermitian : hermitian n H.
Proof.
  intros k Hk. unfold H. rewrite x2_mirror, U_mirror, Cabs_conj by auto. destruct (U k) as [a b]. unfold Cscal, Conj. cbn. f_equal. ring.
Qed.
Lemma dft_v : forall f, (f < n)%nat -> dft n (fun j => RtoC (nth j (irfft n Y) 0)) f = H f.
Proof.
  intros f Hf. rewrite (dft_ext n _ (idft n H)).
  - now apply BeamTdProps.dft_idft.
  - intros j Hj. assert (E1 : nth j (irfft n Y) 0 = fst (idft n H j)).
    { apply irfft_idft; [exact Hj|exact H_hermitian|]. intros k Hk. rewrite HY by auto. unfold H, x2. now rewrite (proj2 (Nat.leb_le k (n / 2)) Hk). }
    assert (E2 : snd (idft n H j) = 0).
    { apply BeamTdProps.idft_real; [exact H_hermitian| |exact Hj]. unfold H, Cscal. cbn [snd]. unfold U. rewrite dft_0_real. ring. }
    rewrite E1. unfold RtoC. rewrite <- E2. now destruct (idft n H j).
Qed.
Lemma dist_any : forall u' : nat -> R, bsum n (fun f => Cabs2 (dft n (fun j => RtoC (u' j)) f - H f)%C) = INR n * bsum n (fun j => (u' j - nth j (irfft n Y) 0) ^ 2).
Proof.
  intros u'. rewrite (bsum_ext n (fun j => (u' j - nth j (irfft n Y) 0) ^ 2) (fun j => (u' j - nth j (irfft n Y) 0) * (u' j - nth j (irfft n Y) 0))) by (intros; ring).
  rewrite <- WaveletProofs.parseval by exact Hn. apply bsum_ext. intros f Hf. rewrite dft_minus, dft_v by auto. reflexivity.
Qed.
Lemma dist_same : bsum n (fun f => (Cabs (U f) - x2 f) ^ 2) = INR n * bsum n (fun j => (u j - nth j (irfft n Y) 0) ^ 2).
Proof. rewrite <- dist_any. apply bsum_ext. intros f Hf. unfold H. rewrite <- mag_eq; auto. now apply U_nz. Qed.
Lemma dist_other : forall u' : nat -> R, bsum n (fun f => (Cabs (dft n (fun j => RtoC (u' j)) f) - x2 f) ^ 2) <= INR n * bsum n (fun j => (u' j - nth j (irfft n Y) 0) ^ 2).
Proof.
  intros u'. rewrite <- dist_any. apply bsum_le. intros f Hf. unfold H. set (p := Cscal (/ Cabs (U f)) (U f)).
  replace (Cscal (x2 f / Cabs (U f)) (U f)) with (Cscal (x2 f) p) by (unfold p, Cscal; cbn; f_equal; unfold Rdiv; ring).
  apply mag_le; [now apply x2_nonneg|]. unfold p. rewrite Cabs2_cscal, <- Cabs_sq. field. now apply U_nz.
Qed.
End Bin.

(** ** Time *)
Definition covers (N hop k s : nat) : bool := ((k * hop <=? s) && (s - k * hop <? N))%nat.
Lemma by_sample : forall N hop F L (g : nat -> nat -> R), (F * hop + N <= L)%nat ->
  bsum F (fun k => bsum N (fun n => g k n)) = bsum L (fun s => bsum F (fun k => if covers N hop k s then g k (s - k * hop)%nat else 0)).
Proof.
  intros N hop F L g HL. symmetry. rewrite bsum_swap. apply bsum_ext. intros k Hk.
  assert (Hkh : (k * hop <= F * hop)%nat) by (apply Nat.mul_le_mono_r; lia).
  replace L with (k * hop + (N + (L - k * hop - N)))%nat by lia. rewrite bsum_split. rewrite bsum_zero_ext.
  2: { intros i Hi. unfold covers. destruct (Nat.leb_spec (k * hop) i); [lia|]. reflexivity. }
  rewrite bsum_split. rewrite (bsum_zero_ext (L - k * hop - N)).
  2: { intros i Hi. unfold covers. destruct (Nat.ltb_spec (k * hop + (N + i) - k * hop) N); [lia|]. now rewrite andb_false_r. }
  rewrite Rplus_0_l, Rplus_0_r. apply bsum_ext. intros i Hi. unfold covers. replace (k * hop + i - k * hop)%nat with i by lia.
  destruct (Nat.leb_spec (k * hop) (k * hop + i)); [|lia]. destruct (Nat.ltb_spec i N); [|lia]. reflexivity.
Qed.
Lemma quad : forall F (w v : nat -> R) z P, 0 < P -> bsum F (fun k => w k ^ 2) = P ->
  bsum F (fun k => (w k * (bsum F (fun k => w k * v k) / P) - v k) ^ 2) <= bsum F (fun k => (w k * z - v k) ^ 2).
Proof.
  intros F w v z P HP E. set (r := bsum F (fun k => w k * v k)). set (q := bsum F (fun k => v k ^ 2)).
  assert (G : forall z, bsum F (fun k => (w k * z - v k) ^ 2) = P * z ^ 2 - 2 * r * z + q).
  { intros y. rewrite (bsum_ext F _ (fun k => (w k ^ 2 * y ^ 2 + (w k * v k) * (- (2 * y))) + v k ^ 2)) by (intros; ring). rewrite !bsum_plus, !bsum_scal_r. rewrite E. fold r q. ring. }
  rewrite !G. replace (P * (r / P) ^ 2 - 2 * r * (r / P) + q) with (- (r ^ 2 / P) + q) by (field; lra).
  assert (0 <= (P * z - r) ^ 2 / P) by (apply Rmult_le_pos; [apply pow2_ge_0|left; now apply Rinv_0_lt_compat]).
  replace ((P * z - r) ^ 2 / P) with (P * z ^ 2 - 2 * r * z + r ^ 2 / P) in H by (field; lra). lra.
Qed.
Lemma class_sum_pos : forall wa hop i, class_sum wa hop i <> 0 -> 0 < class_sum wa hop i.
Proof. intros wa hop i H. assert (0 <= class_sum wa hop i) by (unfold class_sum; apply bsum_nonneg; intros; apply Rle_0_sqr). lra. Qed.
Lemma mod_same : forall hop a k, (0 < hop)%nat -> (k * hop <= a)%nat -> ((a - k * hop) mod hop = a mod hop)%nat.
Proof. intros hop a k Hh H. rewrite <- (Nat.mod_add (a - k * hop) k hop) by lia. f_equal. lia. Qed.
(** The overlap-add of the frames [v] is the best value of every sample that it reaches. *)
Lemma best_samples : forall wa ws hop F (v : nat -> nat -> R) (e e' : nat -> R), (0 < hop <= length wa)%nat -> compute_synthesis_window wa hop = Some ws ->
  (forall s, (length wa - hop <= s < F * hop)%nat -> e' s = bsum F (fun k => if covers (length wa) hop k s then nth (s - k * hop) ws 0 * v k (s - k * hop)%nat else 0)) ->
  (forall s, (s < length wa - hop \/ F * hop <= s)%nat -> e' s = e s) ->
  bsum F (fun k => bsum (length wa) (fun n => (nth n wa 0 * e' (k * hop + n)%nat - v k n) ^ 2)) <= bsum F (fun k => bsum (length wa) (fun n => (nth n wa 0 * e (k * hop + n)%nat - v k n) ^ 2)).
Proof.
  intros wa ws hop F v e e' Hh Hws Hb Ho. set (N := length wa) in *.
  assert (Hw0 : (0 < length wa)%nat) by (fold N; lia).
  destruct (window_spec wa hop ws ltac:(lia) Hw0 Hws) as [Hlen Hspec].
  assert (HP : partition N hop (Some wa) (Some ws)) by (apply window_partition; auto).
  rewrite (by_sample N hop F (F * hop + N)) by lia. rewrite (by_sample N hop F (F * hop + N)) by lia.
  apply bsum_le. intros s Hs. set (c := class_sum wa hop s).
  assert (Hre : forall z, bsum F (fun k => if covers N hop k s then (nth (s - k * hop) wa 0 * z (k * hop + (s - k * hop))%nat - v k (s - k * hop)%nat) ^ 2 else 0) =
                    bsum F (fun k => ((if covers N hop k s then nth (s - k * hop) wa 0 else 0) * z s - (if covers N hop k s then v k (s - k * hop)%nat else 0)) ^ 2)).
  { intros z. apply bsum_ext. intros k Hk. destruct (covers N hop k s) eqn:E; [|ring]. unfold covers in E. apply andb_true_iff in E. destruct E as [E _]. apply Nat.leb_le in E.
    replace (k * hop + (s - k * hop))%nat with s by lia. reflexivity. }
  rewrite !Hre. destruct (Nat.lt_ge_cases s (N - hop)) as [G|G]; [rewrite Ho by lia; apply Rle_refl|]. destruct (Nat.lt_ge_cases s (F * hop)) as [G'|G']; [|rewrite Ho by lia; apply Rle_refl].
  assert (Hws' : forall k, covers N hop k s = true -> nth (s - k * hop) ws 0 = nth (s - k * hop) wa 0 / c /\ c <> 0).
  { intros k E. unfold covers in E. apply andb_true_iff in E. destruct E as [E1 E2]. apply Nat.leb_le in E1. apply Nat.ltb_lt in E2. destruct (Hspec _ E2) as [A B]. unfold class_sum in A, B. rewrite mod_same in A, B by lia. split; [exact B|exact A]. }
  pose proof (cover N hop (Some wa) (Some ws) F s Hh HP G G') as HC. cbn [win] in HC.
  assert (Hc : c <> 0).
  { destruct (Hspec (s mod hop)) as [A _]; [pose proof (Nat.mod_upper_bound s hop ltac:(lia)); lia|]. unfold class_sum in A. rewrite Nat.mod_mod in A by lia. exact A. }
  assert (HW : bsum F (fun k => (if covers N hop k s then nth (s - k * hop) wa 0 else 0) ^ 2) = c).
  { transitivity (c * bsum F (fun k => if covers N hop k s then nth (s - k * hop) wa 0 * nth (s - k * hop) ws 0 else 0)); [|unfold covers; rewrite HC; ring].
    rewrite <- bsum_scal. apply bsum_ext. intros k Hk. destruct (covers N hop k s) eqn:E; [|ring]. destruct (Hws' k E) as [-> _]. field. exact Hc. }
  assert (Hz : e' s = bsum F (fun k => (if covers N hop k s then nth (s - k * hop) wa 0 else 0) * (if covers N hop k s then v k (s - k * hop)%nat else 0)) / c).
  { rewrite Hb by lia. unfold Rdiv. rewrite <- bsum_scal_r. apply bsum_ext. intros k Hk. destruct (covers N hop k s) eqn:E; [|ring]. destruct (Hws' k E) as [-> _]. field. exact Hc. }
  rewrite Hz. apply quad; [now apply class_sum_pos|exact HW].
Qed.
