From Coq Require Import List ZArith Lia Reals Lra Bool.
From Verif Require Import Base Sum Cpx ModeModel ModeProps BandsModel DoaModel GridModel GridProps BaseProofs.
Import ListNotations.
Local Open Scope R_scope.

Lemma power_expand : forall M (z : nat -> C), Cabs2 (csum M z) =
  bsum M (fun m => Cabs2 (z m)) + 2 * bsum M (fun j => bsum j (fun i => fst (Cmul (z i) (Conj (z j))))).
Proof.
  induction M as [|M IH]; intros z; cbn [bsum].
  - unfold csum, Cabs2. cbn. ring.
  - rewrite csum_S. replace (Cabs2 (Cadd (csum M z) (z M))) with (Cabs2 (csum M z) + Cabs2 (z M) + 2 * fst (Cmul (csum M z) (Conj (z M)))) by (unfold Cabs2, Cadd, Cmul, Conj; cbn [fst snd]; ring).
    rewrite IH. replace (fst (Cmul (csum M z) (Conj (z M)))) with (bsum M (fun i => fst (Cmul (z i) (Conj (z M))))); [ring|].
    rewrite <- csum_scal_r. unfold csum. reflexivity.
Qed.
Lemma lagrange : forall M (z : nat -> C), (forall m, (m < M)%nat -> Cabs2 (z m) = 1) ->
  INR M * INR M - Cabs2 (csum M z) = bsum M (fun j => bsum j (fun i => Cabs2 (Csub (z i) (z j)))).
Proof.
  intros M z. induction M as [|M IH]; intros H; cbn [bsum].
  - unfold csum, Cabs2. cbn. ring.
  - specialize (IH (fun m Hm => H m (Nat.lt_lt_succ_r _ _ Hm))). rewrite <- IH. rewrite csum_S, S_INR. pose proof (H M ltac:(lia)) as HM.
    assert (Q : bsum M (fun i => Cabs2 (Csub (z i) (z M))) = 2 * INR M - 2 * fst (Cmul (csum M z) (Conj (z M)))).
    { transitivity (bsum M (fun i => 2 * 1 - 2 * fst (Cmul (z i) (Conj (z M))))).
      - apply bsum_ext. intros i Hi. pose proof (H i ltac:(lia)) as Hi1. unfold Cabs2, Csub, Cmul, Conj in *. cbn [fst snd] in *. lra.
      - rewrite bsum_minus, bsum_scal, bsum_const, bsum_scal. rewrite <- csum_scal_r. unfold csum. cbn [fst]. ring. }
    rewrite Q. replace (Cabs2 (Cadd (csum M z) (z M))) with (Cabs2 (csum M z) + Cabs2 (z M) + 2 * fst (Cmul (csum M z) (Conj (z M)))) by (unfold Cabs2, Cadd, Cmul, Conj; cbn [fst snd]; ring).
    rewrite HM. ring.
Qed.

(** * The steered response power *)
(** the phase of a signal value *)
Definition phase (z : C) : C := Cscal (/ Cabs z) z.
(** the power of the array output after the phases [mode] of direction [n] have been undone, for the signals reduced to
    their phases *)
Definition steered_power (M : nat) (mode X : nat -> nat -> nat -> C) (k s n : nat) : R :=
  Cabs2 (csum M (fun m => Cmul (Conj (mode k m n)) (phase (X m k s)))).

Lemma Cabs_pos : forall z, 0 <= Cabs z.
Proof. intros. apply sqrt_pos. Qed.
Lemma Cabs_sq : forall z, Cabs z * Cabs z = Cabs2 z.
Proof. intros. apply sqrt_sqrt, Cabs2_nonneg. Qed.
Lemma tol_pos : 0 < tol.
Proof. apply Rinv_0_lt_compat. apply pow_lt. lra. Qed.
Lemma whiten_phase : forall z, tol <= Cabs z -> whiten z = phase z.
Proof. intros z H. unfold whiten, phase. destruct (Rlt_dec _ _); [lra|reflexivity]. Qed.
Lemma phase_abs : forall z, 0 < Cabs z -> Cabs2 (phase z) = 1.
Proof. intros z H. unfold phase, Cscal, Cabs2. cbn [fst snd]. replace (/ Cabs z * fst z * (/ Cabs z * fst z) + / Cabs z * snd z * (/ Cabs z * snd z)) with (Cabs2 z * (/ Cabs z * / Cabs z)) by (unfold Cabs2; ring). rewrite <- Cabs_sq. field. lra. Qed.
Lemma whiten_le : forall z, Cabs2 (whiten z) <= 1.
Proof.
  intros z. pose proof tol_pos. pose proof (Cabs_pos z). destruct (Rlt_dec (Cabs z) tol) as [L|L].
  - unfold whiten. destruct (Rlt_dec _ _); [|lra]. unfold Cscal, Cabs2. cbn [fst snd]. replace (/ tol * fst z * (/ tol * fst z) + / tol * snd z * (/ tol * snd z)) with (Cabs2 z * (/ tol * / tol)) by (unfold Cabs2; ring).
    rewrite <- Cabs_sq. apply (Rmult_le_reg_r (tol * tol)); [nra|]. replace (Cabs z * Cabs z * (/ tol * / tol) * (tol * tol)) with (Cabs z * Cabs z) by (field; lra). nra.
  - rewrite whiten_phase, phase_abs by lra. lra.
Qed.
Section Sums.
Variables (M n_snap : nat) (bins : list nat) (mode X : nat -> nat -> nat -> C).
Let z k s n m := Cmul (Conj (mode k m n)) (whiten (X m k s)).
Lemma srp_sum_power : forall n, srp_sum M n_snap bins mode X n =
  Rsum (map (fun k => bsum n_snap (fun s => Cabs2 (csum M (z k s n)) + (INR M - bsum M (fun m => Cabs2 (z k s n m))))) bins).
Proof.
  intros n. unfold srp_sum. cbv zeta.
  transitivity (Rsum (map (fun k => 2 * bsum M (fun j => bsum j (fun i => fst (cross n_snap X k i j) * fst (mode_mat mode k n i j) - snd (cross n_snap X k i j) * snd (mode_mat mode k n i j))) + INR n_snap * INR M) bins)).
  { induction bins as [|k l IH]; [cbn; ring|]. cbn [map Rsum fold_right length] in *. rewrite S_INR. unfold Rsum in *. cbn [map fold_right] in *. rewrite <- IH. ring. }
  f_equal. apply map_ext. intros k.
  transitivity (2 * bsum n_snap (fun s => bsum M (fun j => bsum j (fun i => fst (Cmul (z k s n i) (Conj (z k s n j)))))) + bsum n_snap (fun _ => INR M)).
  - rewrite bsum_const. f_equal. f_equal. rewrite bsum_swap. apply bsum_ext. intros j Hj. rewrite bsum_swap. apply bsum_ext. intros i Hi.
    change (fst (cross n_snap X k i j) * fst (mode_mat mode k n i j) - snd (cross n_snap X k i j) * snd (mode_mat mode k n i j)) with (fst (Cmul (cross n_snap X k i j) (mode_mat mode k n i j))).
    unfold cross. rewrite <- csum_scal_r. cbn [fst csum]. apply bsum_ext. intros s Hs. f_equal. unfold z, mode_mat. rewrite Conj_mul, Conj_conj. ring.
  - rewrite <- bsum_scal, <- bsum_plus. apply bsum_ext. intros s Hs. rewrite power_expand. ring.
Qed.
End Sums.
Definition mode_of (v : mode_vector) (k m n : nat) : C := table_at v (k, m, n).
Lemma mode_unit : forall v k m n, Cabs2 (mode_of v k m n) = 1.
Proof. intros. unfold mode_of, table_at. apply cis_abs2. Qed.
Lemma Cabs2_conj : forall z, Cabs2 (Conj z) = Cabs2 z.
Proof. intros z. unfold Cabs2, Conj. cbn. ring. Qed.
(** what the code reads from the mode vectors of one grid point: the entry of every selected frequency and microphone *)
Theorem C100_bins : forall v bins n, (forall k, In k bins -> (k < length (mv_omega v))%nat) -> (n < mv_points v)%nat -> let M := length (mv_tau v) in
  getitem v [Lst bins; Slc 0 M; Int n] = Some (2%nat, Arr (map (fun k => Arr (map (fun m => Scal (mode_of v k m n)) (seq 0 M))) bins)).
Proof.
  intros v bins n Hb Hn M.
  assert (Q : getitem (with_table true v) [Lst bins; Slc 0 M; Int n] = Some (2%nat, Arr (map (fun k => Arr (map (fun m => Scal (mode_of v k m n)) (seq 0 M))) bins))).
  { unfold getitem, missing. cbn [mv_precompute with_table mv_tau mv_omega mv_points length Nat.ltb Nat.leb nth]. unfold resolve.
    rewrite (proj2 (forallb_forall _ bins)) by (intros k Hk; apply Nat.ltb_lt; auto). rewrite (proj2 (Nat.ltb_lt _ _) Hn). cbn [bind]. fold M. rewrite Nat.min_id, Nat.sub_0_r.
    unfold gather. cbn [flat_map map snd app fold_right fst]. rewrite common_one. cbn [bind set_int set_lst slc_dims flat_map app is_slc negb andb]. rewrite (pick_map (set_ax 0)). cbn [set_ax length build bind].
    do 3 f_equal. rewrite map_map. apply map_ext. intros k. f_equal. rewrite map_map. reflexivity. }
  replace v with (with_table (mv_precompute v) v) by (destruct v; reflexivity). destruct (mv_precompute v) eqn:B; [exact Q|]. rewrite C100_table by (cbn; lia). exact Q.
Qed.

Lemma cost_inv : forall M S N bins mode X vs, srp_cost M S N bins mode X = Some vs -> (0 < length bins)%nat /\ (0 < S)%nat /\ (2 <= M)%nat /\ length vs = N /\
  forall n, (n < N)%nat -> nth n vs 0 = srp_sum M S bins mode X n / (INR S * INR (length bins) * (INR M * (INR M - 1) / 2)).
Proof.
  intros M S N bins mode X vs H. unfold srp_cost in H. destruct (Nat.eqb_spec (length bins) 0); [discriminate|]. destruct (Nat.eqb_spec S 0); [discriminate|]. destruct (Nat.ltb_spec M 2); [discriminate|]. cbn [orb] in H.
  apply (f_equal (fun o => match o with Some x => x | None => vs end)) in H. cbv beta iota in H. subst vs. split; [lia|]. split; [lia|]. split; [lia|]. split; [now rewrite map_length, seq_length|].
  intros n' Hn. rewrite nth_map_seq by assumption. cbn [Nat.add].
  assert (0 < INR S) by (apply lt_0_INR; lia). assert (0 < INR (length bins)) by (apply lt_0_INR; lia). assert (2 <= INR M) by (replace 2 with (INR 2) by reflexivity; apply le_INR; lia). field. repeat split; lra.
Qed.
Lemma denom_pos : forall M S (bins : list nat), (0 < length bins)%nat -> (0 < S)%nat -> (2 <= M)%nat -> 0 < INR S * INR (length bins) * (INR M * (INR M - 1) / 2).
Proof.
  intros M S bins H1 H2 H3. assert (0 < INR S) by (apply lt_0_INR; lia). assert (0 < INR (length bins)) by (apply lt_0_INR; lia). assert (2 <= INR M) by (replace 2 with (INR 2) by reflexivity; apply le_INR; lia).
  apply Rmult_lt_0_compat; [now apply Rmult_lt_0_compat|]. nra.
Qed.
Lemma Rsum_map_le : forall {A} (f g : A -> R) l, (forall x, In x l -> f x <= g x) -> Rsum (map f l) <= Rsum (map g l).
Proof. intros A f g. induction l as [|x l IH]; intros H; unfold Rsum in *; cbn in *; [lra|]. pose proof (H x (or_introl eq_refl)). specialize (IH (fun y Hy => H y (or_intror Hy))). lra. Qed.
Lemma Rsum_map_const : forall {A} (c : R) (l : list A), Rsum (map (fun _ => c) l) = INR (length l) * c.
Proof. intros A c. induction l as [|x l IH]; unfold Rsum in *; [cbn; ring|]. cbn [map fold_right length]. rewrite IH, S_INR. ring. Qed.
Lemma power_le : forall M (z : nat -> C), (forall m, (m < M)%nat -> Cabs2 (z m) <= 1) -> Cabs2 (csum M z) + (INR M - bsum M (fun m => Cabs2 (z m))) <= INR M * INR M.
Proof.
  intros M z H. rewrite power_expand.
  assert (Q : forall K, (K <= M)%nat -> 2 * bsum K (fun j => bsum j (fun i => fst (Cmul (z i) (Conj (z j))))) <= INR K * INR K - INR K).
  { induction K as [|K IH]; intros HK; cbn [bsum]; [cbn; lra|]. specialize (IH ltac:(lia)).
    assert (bsum K (fun i => fst (Cmul (z i) (Conj (z K)))) <= bsum K (fun _ => 1)).
    { apply bsum_le. intros i Hi. pose proof (H i ltac:(lia)) as H1. pose proof (H K ltac:(lia)) as H2. unfold Cabs2, Cmul, Conj in *. cbn [fst snd]. destruct (z i) as [a b], (z K) as [c d]. cbn [fst snd] in *.
      pose proof (pow2_ge_0 (a - c)). pose proof (pow2_ge_0 (b - d)). nra. }
    rewrite bsum_const in H0. rewrite S_INR. lra. }
  specialize (Q M (le_n M)). lra.
Qed.

(** ** The values are the normalised steered response power *)
Theorem C101_power : forall v M S N bins X vs, srp_cost M S N bins (mode_of v) X = Some vs ->
  (forall m k s, (m < M)%nat -> In k bins -> (s < S)%nat -> tol <= Cabs (X m k s)) ->
  length vs = N /\ forall n, (n < N)%nat ->
  nth n vs 0 = Rsum (map (fun k => bsum S (fun s => steered_power M (mode_of v) X k s n)) bins) / (INR S * INR (length bins) * (INR M * (INR M - 1) / 2)).
Proof.
  intros v M S N bins X vs H HX. destruct (cost_inv _ _ _ _ _ _ _ H) as (_ & _ & _ & L & V). split; [exact L|]. intros n Hn. rewrite V by assumption. f_equal. rewrite srp_sum_power. f_equal. apply map_ext_in. intros k Hk. apply bsum_ext. intros s Hs.
  rewrite (bsum_ext M _ (fun _ => 1)).
  - rewrite bsum_const. unfold steered_power. rewrite (csum_ext M _ (fun m => Cmul (Conj (mode_of v k m n)) (phase (X m k s)))); [ring|]. intros m Hm. now rewrite whiten_phase by auto.
  - intros m Hm. rewrite Cabs2_mul, Cabs2_conj, mode_unit, whiten_phase, phase_abs by (pose proof tol_pos; specialize (HX m k s Hm Hk Hs); lra || auto). ring.
Qed.
(** Whatever the signals, the values lie between 0 and 2 M / (M - 1). *)
Theorem C101_range : forall v M S N bins X vs n, srp_cost M S N bins (mode_of v) X = Some vs -> (n < N)%nat -> 0 <= nth n vs 0 <= 2 * INR M / (INR M - 1).
Proof.
  intros v M S N bins X vs n H Hn. destruct (cost_inv _ _ _ _ _ _ _ H) as (F0 & S0 & M2 & L & V). rewrite V by assumption. pose proof (denom_pos M S bins F0 S0 M2) as D. rewrite srp_sum_power.
  assert (HM : 2 <= INR M) by (replace 2 with (INR 2) by reflexivity; apply le_INR; lia). assert (0 < INR S) by (apply lt_0_INR; lia). assert (0 < INR (length bins)) by (apply lt_0_INR; lia).
  assert (Z : forall k s m, Cabs2 (Cmul (Conj (mode_of v k m n)) (whiten (X m k s))) <= 1). { intros. rewrite Cabs2_mul, Cabs2_conj, mode_unit, Rmult_1_l. apply whiten_le. }
  split.
  - apply Rmult_le_pos; [|left; now apply Rinv_0_lt_compat]. apply (Rle_trans _ (Rsum (map (fun _ : nat => 0) bins))); [rewrite Rsum_map_const; lra|]. apply Rsum_map_le. intros k _. apply bsum_nonneg. intros s _.
    pose proof (Cabs2_nonneg (csum M (fun m => Cmul (Conj (mode_of v k m n)) (whiten (X m k s))))). assert (bsum M (fun m => Cabs2 (Cmul (Conj (mode_of v k m n)) (whiten (X m k s)))) <= bsum M (fun _ => 1)) by (apply bsum_le; auto). rewrite bsum_const in H3. lra.
  - replace (2 * INR M / (INR M - 1)) with (INR (length bins) * (INR S * (INR M * INR M)) / (INR S * INR (length bins) * (INR M * (INR M - 1) / 2))) by (field; repeat split; lra).
    apply Rmult_le_compat_r; [left; now apply Rinv_0_lt_compat|]. rewrite <- Rsum_map_const. apply Rsum_map_le. intros k _. rewrite <- bsum_const. apply bsum_le. intros s _. apply power_le. auto.
Qed.
(** ** A plane wave *)
(** the signals of a plane wave from grid point [n0] with spectrum [A] (per frequency and snapshot) *)
Definition plane_wave (v : mode_vector) (A : nat -> nat -> C) (n0 m k s : nat) : C := Cmul (A k s) (mode_of v k m n0).
(** two grid points that the array cannot tell apart at frequency [k]: the phase differences between microphones agree *)
Definition same_phases (v : mode_vector) (M k n n0 : nat) : Prop := forall i j, (i < M)%nat -> (j < M)%nat ->
  Cmul (mode_of v k i n) (Conj (mode_of v k j n)) = Cmul (mode_of v k i n0) (Conj (mode_of v k j n0)).

Lemma Cabs_mul_unit : forall a b, Cabs2 b = 1 -> Cabs (Cmul a b) = Cabs a.
Proof. intros a b H. unfold Cabs. rewrite Cabs2_mul, H. f_equal. ring. Qed.
Lemma unit_cancel : forall a b, Cabs2 a = 1 -> Cmul a (Cmul (Conj a) b) = b.
Proof. intros a b H. transitivity (Cmul (Cmul a (Conj a)) b); [ring|]. rewrite Cmul_conj, H. unfold RtoC. apply C_eq; cbn; ring. Qed.
(** the terms whose sum is steered *)
Lemma plane_terms : forall v A n0 M k s n m, tol <= Cabs (A k s) -> (m < M)%nat ->
  Cmul (Conj (mode_of v k m n)) (phase (plane_wave v A n0 m k s)) = Cmul (phase (A k s)) (Cmul (Conj (mode_of v k m n)) (mode_of v k m n0)).
Proof.
  intros v A n0 M k s n m HA Hm. unfold plane_wave. unfold phase. rewrite Cabs_mul_unit by apply mode_unit. rewrite !Cscal_RtoC. ring.
Qed.
Lemma sum_pairs_zero : forall M (f : nat -> nat -> R), (forall i j, 0 <= f i j) -> bsum M (fun j => bsum j (fun i => f i j)) = 0 -> forall i j, (i < j)%nat -> (j < M)%nat -> f i j = 0.
Proof.
  intros M f Hf. assert (Z : forall n (g : nat -> R), (forall i, 0 <= g i) -> bsum n g = 0 -> forall i, (i < n)%nat -> g i = 0).
  { induction n as [|n IH]; intros g Hg E i Hi; [lia|]. cbn [bsum] in E. pose proof (bsum_nonneg n g (fun i _ => Hg i)). pose proof (Hg n). destruct (Nat.eq_dec i n) as [->|]; [lra|]. apply (IH g); auto; [lra|lia]. }
  intros E i j Hij Hj. apply (Z M _ (fun j => bsum_nonneg j _ (fun i _ => Hf i j)) E) in Hj as E1. exact (Z j (fun i => f i j) (fun i => Hf i j) E1 i Hij).
Qed.
Lemma power_max_iff : forall v A n0 M k s n, tol <= Cabs (A k s) ->
  Cabs2 (csum M (fun m => Cmul (Conj (mode_of v k m n)) (phase (plane_wave v A n0 m k s)))) <= INR M * INR M /\
  (Cabs2 (csum M (fun m => Cmul (Conj (mode_of v k m n)) (phase (plane_wave v A n0 m k s)))) = INR M * INR M <-> same_phases v M k n n0).
Proof.
  intros v A n0 M k s n HA. set (u m := Cmul (Conj (mode_of v k m n)) (mode_of v k m n0)).
  rewrite (csum_ext M _ (fun m => Cmul (phase (A k s)) (u m))) by (intros m Hm; now apply (plane_terms v A n0 M)).
  pose proof tol_pos. rewrite csum_scal, Cabs2_mul, phase_abs, Rmult_1_l by lra.
  assert (U : forall m, Cabs2 (u m) = 1) by (intros; unfold u; rewrite Cabs2_mul, Cabs2_conj, !mode_unit; ring).
  pose proof (lagrange M u (fun m _ => U m)) as Lg. assert (P : forall i j, 0 <= Cabs2 (Csub (u i) (u j))) by (intros; apply Cabs2_nonneg).
  assert (0 <= bsum M (fun j => bsum j (fun i => Cabs2 (Csub (u i) (u j))))) by (apply bsum_nonneg; intros; apply bsum_nonneg; auto).
  split; [lra|].
  assert (Eq : forall i j, u i = u j <-> Cmul (mode_of v k i n) (Conj (mode_of v k j n)) = Cmul (mode_of v k i n0) (Conj (mode_of v k j n0))).
  { intros i j. unfold u. set (a := mode_of v k i n). set (b := mode_of v k j n). set (a0 := mode_of v k i n0). set (b0 := mode_of v k j n0).
    assert (Ha : Cabs2 a = 1) by apply mode_unit. assert (Hb : Cabs2 b = 1) by apply mode_unit. assert (Ha0 : Cabs2 a0 = 1) by apply mode_unit. assert (Hb0 : Cabs2 b0 = 1) by apply mode_unit.
    split; intros E.
    - rewrite <- (unit_cancel a a0 Ha). rewrite E. transitivity (Cmul (Cmul a (Conj b)) (Cmul b0 (Conj b0))); [|ring]. rewrite Cmul_conj, Hb0. unfold RtoC. apply C_eq; cbn; ring.
    - rewrite <- (unit_cancel b0 a0 Hb0) . replace (Cmul (Conj b0) a0) with (Cmul a (Conj b)) by (rewrite E; ring). transitivity (Cmul (Cmul a (Conj a)) (Cmul (Conj b) b0)); [ring|]. rewrite Cmul_conj, Ha. unfold RtoC. apply C_eq; cbn; ring. }
  split.
  - intros E i j Hi Hj. apply Eq. assert (Z : bsum M (fun j => bsum j (fun i => Cabs2 (Csub (u i) (u j)))) = 0) by lra.
    pose proof (sum_pairs_zero M (fun i j => Cabs2 (Csub (u i) (u j))) P Z) as W.
    assert (D : forall p q, Cabs2 (Csub p q) = 0 -> p = q). { intros p q E0. apply Cabs2_zero in E0. injection E0 as E1 E2. apply C_eq; lra. }
    destruct (lt_eq_lt_dec i j) as [[L| ->]|L]; [apply D, W; auto|reflexivity|symmetry; apply D, W; auto].
  - intros Sm. assert (Z : bsum M (fun j => bsum j (fun i => Cabs2 (Csub (u i) (u j)))) = 0); [|lra]. apply bsum_zero_ext. intros j Hj. apply bsum_zero_ext. intros i Hi.
    replace (u i) with (u j); [|symmetry; apply Eq, Sm; lia]. unfold Csub, Cabs2. cbn. ring.
Qed.

(** For a plane wave from a grid point, whatever its spectrum, no value exceeds the value at that point, and only
    points that the array cannot tell apart from it at any of the frequencies reach it. *)
Theorem C101_plane_wave : forall v M S N bins A n0 vs, srp_cost M S N bins (mode_of v) (plane_wave v A n0) = Some vs -> (n0 < N)%nat ->
  (forall k s, In k bins -> (s < S)%nat -> tol <= Cabs (A k s)) ->
  nth n0 vs 0 = 2 * INR M / (INR M - 1) /\
  forall n, (n < N)%nat -> nth n vs 0 <= nth n0 vs 0 /\ (nth n vs 0 = nth n0 vs 0 <-> forall k, In k bins -> same_phases v M k n n0).
Proof.
  intros v M S N bins A n0 vs H Hn0 HA. destruct (cost_inv _ _ _ _ _ _ _ H) as (F0 & S0 & M2 & L & _). pose proof (denom_pos M S bins F0 S0 M2) as D.
  assert (HM : 2 <= INR M) by (replace 2 with (INR 2) by reflexivity; apply le_INR; lia). assert (PS : 0 < INR S) by (apply lt_0_INR; lia). assert (PF : 0 < INR (length bins)) by (apply lt_0_INR; lia).
  destruct (C101_power v M S N bins _ vs H) as [_ V]. { intros m k s Hm Hk Hs. unfold plane_wave. rewrite Cabs_mul_unit by apply mode_unit. auto. }
  assert (T : nth n0 vs 0 = 2 * INR M / (INR M - 1)).
  { rewrite V by assumption. replace (Rsum _) with (INR (length bins) * (INR S * (INR M * INR M))); [field; repeat split; lra|]. rewrite <- Rsum_map_const. f_equal. apply map_ext_in. intros k Hk. rewrite <- bsum_const. apply bsum_ext. intros s Hs. symmetry. apply power_max_iff; auto. intros i j _ _. reflexivity. }
  split; [exact T|]. intros n Hn. rewrite T. split; [now apply (C101_range v M S N bins (plane_wave v A n0) vs n)|].
  rewrite V by assumption. set (f k := bsum S (fun s => steered_power M (mode_of v) (plane_wave v A n0) k s n)).
  assert (Fle : forall k, In k bins -> f k <= INR S * (INR M * INR M)). { intros k Hk. rewrite <- bsum_const. apply bsum_le. intros s Hs. apply power_max_iff; auto. }
  assert (E2 : Rsum (map f bins) / (INR S * INR (length bins) * (INR M * (INR M - 1) / 2)) = 2 * INR M / (INR M - 1) <-> Rsum (map f bins) = INR (length bins) * (INR S * (INR M * INR M))).
  { replace (2 * INR M / (INR M - 1)) with (INR (length bins) * (INR S * (INR M * INR M)) / (INR S * INR (length bins) * (INR M * (INR M - 1) / 2))) by (field; repeat split; lra).
    split; intros E; [|now rewrite E]. unfold Rdiv in E. apply Rmult_eq_reg_r in E; [exact E|]. apply Rinv_neq_0_compat. lra. }
  rewrite E2. clear E2. rewrite <- Rsum_map_const.
  assert (E3 : Rsum (map f bins) = Rsum (map (fun _ => INR S * (INR M * INR M)) bins) <-> forall k, In k bins -> f k = INR S * (INR M * INR M)).
  { clear -Fle. induction bins as [|k l IH]; [split; [intros _ k []|reflexivity]|]. unfold Rsum in *. cbn [map fold_right] in *.
    assert (Fl : fold_right Rplus 0 (map f l) <= fold_right Rplus 0 (map (fun _ => INR S * (INR M * INR M)) l)) by (apply Rsum_map_le; intros; apply Fle; now right).
    pose proof (Fle k (or_introl eq_refl)). specialize (IH (fun k Hk => Fle k (or_intror Hk))). split.
    - intros E k' [<-|Hk']; [lra|]. apply IH; [lra|assumption].
    - intros E. rewrite (E k) by now left. f_equal. apply IH. intros; apply E; now right. }
  rewrite E3. split; intros Q k Hk.
  - specialize (Q k Hk). unfold f in Q. rewrite <- bsum_const in Q.
    assert (Z : bsum S (fun s => INR M * INR M - steered_power M (mode_of v) (plane_wave v A n0) k s n) = 0) by (rewrite bsum_minus; lra).
    assert (W : forall n (g : nat -> R), (forall i, (i < n)%nat -> 0 <= g i) -> bsum n g = 0 -> forall i, (i < n)%nat -> g i = 0).
    { clear. induction n as [|n IH]; intros g Hg E i Hi; [lia|]. cbn [bsum] in E. pose proof (bsum_nonneg n g (fun i Hi => Hg i ltac:(lia))). pose proof (Hg n ltac:(lia)). destruct (Nat.eq_dec i n) as [->|]; [lra|]. apply (IH g); auto; [lra|lia]. }
    assert (HA0 : tol <= Cabs (A k 0%nat)) by auto.
    apply (power_max_iff v A n0 M k 0 n HA0). assert (Z0 : INR M * INR M - steered_power M (mode_of v) (plane_wave v A n0) k 0 n = 0); [|unfold steered_power in Z0; lra].
    apply (W S (fun s => INR M * INR M - steered_power M (mode_of v) (plane_wave v A n0) k s n)); auto. intros s Hs. destruct (power_max_iff v A n0 M k s n ltac:(auto)) as [B _]. unfold steered_power. lra.
  - unfold f. rewrite <- bsum_const. apply bsum_ext. intros s Hs. apply power_max_iff; auto.
Qed.

(** ** Locating the source: on a grid without ambiguous points the search for one peak returns the point the wave comes
    from. *)
Theorem C101_circle : forall argsort v M S N bins A n0 vs, is_argsort argsort -> srp_cost M S N bins (mode_of v) (plane_wave v A n0) = Some vs -> (n0 < N)%nat -> (2 <= N)%nat ->
  (forall k s, In k bins -> (s < S)%nat -> tol <= Cabs (A k s)) ->
  (forall n, (n < N)%nat -> n <> n0 -> exists k, In k bins /\ ~ same_phases v M k n n0) ->
  circle_find_peaks argsort vs 1 = [n0].
Proof.
  intros argsort v M S N bins A n0 vs Ha H Hn0 HN HA Hamb. destruct (C101_plane_wave v M S N bins A n0 vs H Hn0 HA) as [_ V]. destruct (cost_inv _ _ _ _ _ _ _ H) as (_ & _ & _ & L & _).
  assert (Ne : forall n, (n < N)%nat -> n <> n0 -> nth n vs 0 <> nth n0 vs 0). { intros n Hn Hd E. destruct (Hamb n Hn Hd) as (k & Hk & Q). apply Q. now apply (V n Hn). }
  destruct (C66_global argsort vs 1 Ha (le_n 1)) as (r & i & E & Lr & Hi & Hg).
  - set (n1 := if (n0 =? 0)%nat then 1%nat else 0%nat). assert (D : n1 <> n0 /\ (n1 < N)%nat) by (unfold n1; destruct (Nat.eqb_spec n0 0); lia). exists n1, n0. rewrite L. repeat split; try lia. apply Ne; tauto.
  - destruct r; [|cbn in Lr; lia]. rewrite E. cbn. f_equal. destruct (Nat.eq_dec i n0) as [|D]; [assumption|]. exfalso. rewrite L in *. apply (Ne i Hi D). apply Rle_antisym; [now apply V|now apply Hg].
Qed.
Theorem C101_sphere : forall argsort nb v M S N bins A n0 vs, is_argsort argsort -> (forall i u, In u (nb i) -> (u < N)%nat) ->
  srp_cost M S N bins (mode_of v) (plane_wave v A n0) = Some vs -> (n0 < N)%nat ->
  (forall k s, In k bins -> (s < S)%nat -> tol <= Cabs (A k s)) ->
  (forall n, (n < N)%nat -> n <> n0 -> exists k, In k bins /\ ~ same_phases v M k n n0) ->
  sphere_find_peaks argsort nb vs 1 = [n0].
Proof.
  intros argsort nb v M S N bins A n0 vs Ha Hnb H Hn0 HA Hamb. destruct (C101_plane_wave v M S N bins A n0 vs H Hn0 HA) as [_ V]. destruct (cost_inv _ _ _ _ _ _ _ H) as (_ & _ & _ & L & _).
  assert (Ne : forall n, (n < N)%nat -> n <> n0 -> nth n vs 0 <> nth n0 vs 0). { intros n Hn Hd E. destruct (Hamb n Hn Hd) as (k & Hk & Q). apply Q. now apply (V n Hn). }
  destruct (C66_sphere argsort nb vs 1 Ha (le_n 1)) as (c & _ & _ & Lg & r & i & E & Hi & Hg).
  - intros ->. cbn in L. lia.
  - rewrite L. exact Hnb.
  - destruct Lg as (_ & _ & Lr & _). rewrite E, app_length in Lr. cbn [length] in Lr. destruct r; [|cbn [length] in Lr; lia]. rewrite E. cbn. f_equal. destruct (Nat.eq_dec i n0) as [|D]; [assumption|]. exfalso. rewrite L in *. apply (Ne i Hi D). apply Rle_antisym; [now apply V|now apply Hg].
Qed.
(** two microphones, two directions, one frequency *)
Definition ex_array : mode_vector := {| mv_precompute := false; mv_tau := [[0; 0]; [1; 0]]; mv_omega := [0; PI / 2]; mv_points := 2 |}.
Example C101_ex : exists vs, srp_cost 2 1 2 [1%nat] (mode_of ex_array) (plane_wave ex_array (fun _ _ => C1) 0) = Some vs /\ circle_find_peaks some_argsort vs 1 = [0%nat].
Proof.
  eexists. split; [reflexivity|]. eapply (C101_circle some_argsort ex_array 2 1 2 [1%nat] (fun _ _ => C1) 0); [apply some_argsort_ok|reflexivity|lia|lia| |].
  - intros k s _ _. unfold Cabs, Cabs2, C1. cbn [fst snd]. replace (1 * 1 + 0 * 0) with 1 by ring. rewrite sqrt_1. unfold tol. rewrite <- Rinv_1. apply Rinv_le_contravar; [lra|]. apply pow_R1_Rle. lra.
  - intros n Hn Hd. exists 1%nat. split; [now left|]. intros Q. specialize (Q 0%nat 1%nat ltac:(lia) ltac:(lia)). assert (n = 1%nat) as -> by lia.
    unfold mode_of, table_at, tau_at, omega_at, ex_array in Q. cbn [mv_tau mv_omega nth] in Q. rewrite Rmult_0_r, Rmult_1_r, cis_0 in Q. unfold Cmul, Conj, C1, cis in Q. cbn [fst snd] in Q. rewrite cos_PI2, sin_PI2 in Q. injection Q as E1 E2. lra.
Qed.
Print Assumptions C101_circle.
