From Coq Require Import List ZArith Lia Reals Lra Bool.
From Verif Require Import Base BaseProofs Vec Sum Cpx DftModel DftProofs StftProofs ParamModel ParamProofs BandsModel BandsProps.
Import ListNotations.
Local Open Scope R_scope.

Lemma Cpow_abs2 : forall b, Cabs2 (Cpow Ci b) = 1.
Proof. induction b as [|b IH]; [unfold Cpow, Cabs2, C1; cbn; ring|]. change (Cpow Ci (S b)) with (Cmul Ci (Cpow Ci b)). rewrite Cabs2_mul, IH. unfold Cabs2, Ci. cbn. ring. Qed.
Lemma Cpow_inv : forall b, (Cpow (Copp Ci) b * Cpow Ci b)%C = C1.
Proof.
  induction b as [|b IH]; [unfold Cpow; cbn; cring|]. change (Cpow Ci (S b)) with (Cmul Ci (Cpow Ci b)). change (Cpow (Copp Ci) (S b)) with (Cmul (Copp Ci) (Cpow (Copp Ci) b)).
  transitivity ((Copp Ci * Ci) * (Cpow (Copp Ci) b * Cpow Ci b))%C; [ring|]. rewrite IH. unfold Ci. cring.
Qed.

Section Band.
Variables (A : antoni) (n_fft : nat) (b : nat) (x : vec).
Hypothesis Hlow : (0 <= an_low A b)%Z.
Hypothesis HN : (0 < wav_N A b)%Z.
Let N := Z.to_nat (wav_N A b).
Let M := (2 * N)%nat.
Let D := (an_km A b - an_low A b)%Z.
Let g (t : nat) : C := (RtoC (wav_G A n_fft b (wav_low A b + t)) * wav_X n_fft x (wav_low A b + t))%C.
Let Wz (j : Z) : C := csum M (fun t => (g t * omega M (- (j * Z.of_nat t)))%C).
Let jj (i : nat) : Z := (Z.of_nat i - Z.of_nat N + 1)%Z.
Let delta := sqrt (1 / (2 * INR N)).
Lemma N_pos : (0 < N)%nat. Proof. unfold N. lia. Qed.
Lemma delta2 : delta * delta * INR M = 1.
Proof.
  pose proof N_pos as H. apply lt_INR in H. cbn in H. unfold delta. rewrite sqrt_sqrt. - unfold M. rewrite mult_INR. cbn. field. lra.
  - apply Rlt_le. apply Rmult_lt_0_compat; [lra|]. apply Rinv_0_lt_compat. lra.
Qed.
Lemma omega_cis : forall k a, a = PI * IZR k / INR N -> cis a = omega M k.
Proof. intros k a ->. unfold omega. f_equal. unfold M. rewrite mult_INR. cbn. pose proof N_pos as H. apply lt_INR in H. cbn in H. field. lra. Qed.
Lemma coef_spec : forall w, wavelet_analysis A n_fft x b = Some w -> length w = M /\ forall i, (i < M)%nat -> nth i w C0 = (Cscal delta (Cpow Ci b) * omega M (D * jj i) * Wz (jj i))%C.
Proof.
  intros w H. unfold wavelet_analysis in H. destruct (wav_N A b <=? 0)%Z eqn:E; [lia|]. cbv zeta in H. fold N M delta in H. apply Some_inj in H. subst w. split; [rewrite map_length, seq_length; reflexivity|]. intros i Hi. rewrite nth_map_seq by exact Hi.
  f_equal; [f_equal|].
  - apply omega_cis. fold D. unfold jj. rewrite mult_IZR. unfold Rdiv. ring.
  - pose proof N_pos as HN0. destruct (Nat.lt_ge_cases i (N - 1)).
    + rewrite app_nth1 by (rewrite !map_length, seq_length; auto). rewrite map_map. rewrite nth_map_seq by auto. unfold dft. rewrite csum_conj. apply csum_ext. intros t Ht. unfold g. rewrite !Conj_mul, Conj_conj, Conj_RtoC, <- omega_opp. do 2 f_equal. unfold jj. rewrite Nat2Z.inj_mul. rewrite !Nat2Z.inj_sub by lia. lia.
    + rewrite app_nth2 by (rewrite !map_length, seq_length; auto). rewrite !map_length, seq_length. unfold M in *. rewrite nth_map_seq by lia. unfold dft. apply csum_ext. intros t Ht. unfold g. do 2 f_equal. unfold jj. rewrite Nat2Z.inj_mul. rewrite !Nat2Z.inj_sub by lia. lia.
Qed.
(** Summing the shifted spectrum back. *)
Lemma Wz_back : forall t, (t < M)%nat -> csum M (fun s => (Wz (jj s) * omega M (Z.of_nat s * Z.of_nat t))%C) = (RtoC (INR M) * (g t * omega M ((Z.of_nat N - 1) * Z.of_nat t)))%C.
Proof.
  intros t Ht. pose proof N_pos as HN0. assert (HM : (0 < M)%nat) by (unfold M; lia).
  transitivity (csum M (fun t' => (g t' * omega M ((Z.of_nat N - 1) * Z.of_nat t') * csum M (fun s => omega M ((Z.of_nat t - Z.of_nat t') * Z.of_nat s)))%C)).
  - transitivity (csum M (fun s => csum M (fun t' => (g t' * omega M ((Z.of_nat N - 1) * Z.of_nat t') * omega M ((Z.of_nat t - Z.of_nat t') * Z.of_nat s))%C))).
    + apply csum_ext. intros s Hs. unfold Wz. rewrite <- csum_scal_r. apply csum_ext. intros t' Ht'.
      transitivity (g t' * (omega M (- (jj s * Z.of_nat t')) * omega M (Z.of_nat s * Z.of_nat t)))%C; [ring|]. rewrite <- omega_add. transitivity (g t' * (omega M ((Z.of_nat N - 1) * Z.of_nat t') * omega M ((Z.of_nat t - Z.of_nat t') * Z.of_nat s)))%C; [|ring]. rewrite <- omega_add. do 2 f_equal. unfold jj. ring.
    + rewrite csum_swap. apply csum_ext. intros t' Ht'. now rewrite csum_scal.
  - rewrite (csum_delta M t); [|exact Ht|].
    2: { intros t' Ht' Hne. rewrite omega_sum by auto. destruct (Z.eqb_spec ((Z.of_nat t - Z.of_nat t') mod Z.of_nat M) 0) as [Em|Em]; [exfalso|ring].
      apply Z.mod_divide in Em; [|lia]. destruct Em as [q Eq]. assert (- Z.of_nat M < q * Z.of_nat M < Z.of_nat M)%Z by lia. assert (q = 0)%Z by nia. subst q. lia. }
    rewrite omega_sum by auto. replace ((Z.of_nat t - Z.of_nat t) mod Z.of_nat M)%Z with 0%Z by (rewrite Z.sub_diag, Z.mod_0_l; lia). cbn [Z.eqb]. ring.
Qed.
(** Analysis followed by synthesis multiplies the spectrum by the squared response. *)
Lemma band_filter : forall w len, wavelet_analysis A n_fft x b = Some w ->
  wavelet_synthesis A n_fft len b w = firstn len (map (fun v => v * sqrt (INR n_fft)) (irfft n_fft (map (fun k => if (wav_low A b <=? k)%nat && (k <? wav_low A b + M)%nat
    then (RtoC (wav_G A n_fft b k * wav_G A n_fft b k) * wav_X n_fft x k)%C else C0) (seq 0 (n_fft / 2 + 1))))).
Proof.
  intros w len H. destruct (coef_spec w H) as [Lw Cw]. unfold wavelet_synthesis. rewrite Lw. replace (M / 2)%nat with N by (unfold M; rewrite Nat.mul_comm, Nat.div_mul; lia). cbv zeta. do 3 f_equal.
  apply map_ext_in. intros k _. fold M. destruct ((wav_low A b <=? k)%nat && (k <? wav_low A b + M)%nat) eqn:E; auto. apply andb_prop in E. destruct E as [E1 E2]. apply Nat.leb_le in E1. apply Nat.ltb_lt in E2. set (t := (k - wav_low A b)%nat). assert (Ht : (t < M)%nat) by (unfold t; lia).
  assert (Ek : k = (wav_low A b + t)%nat) by (unfold t; lia). rewrite Ek. clearbody t. clear k E1 E2 Ek.
  assert (EY : Conj (dft M (fun s => Conj (cis (- PI * IZR (an_km A b - an_low A b) * INR s / INR N) * nth s w C0)) t) = (Cscal delta (Cpow Ci b) * omega M (D * (1 - Z.of_nat N)) * (RtoC (INR M) * (g t * omega M ((Z.of_nat N - 1) * Z.of_nat t))))%C).
  { rewrite <- Wz_back by auto. unfold dft. rewrite csum_conj, <- csum_scal. apply csum_ext. intros s Hs. rewrite Conj_mul, Conj_conj, <- omega_opp, Cw by auto. rewrite (omega_cis (- (D * Z.of_nat s))).
    - transitivity (Cscal delta (Cpow Ci b) * Wz (jj s) * ((omega M (- (D * Z.of_nat s)) * omega M (D * jj s)) * omega M (- - Z.of_nat (s * t))))%C; [ring|]. rewrite <- omega_add. transitivity (Cscal delta (Cpow Ci b) * Wz (jj s) * (omega M (D * (1 - Z.of_nat N)) * omega M (Z.of_nat s * Z.of_nat t)))%C; [|ring]. do 3 f_equal; [unfold jj; ring|rewrite Nat2Z.inj_mul; ring].
    - fold D. rewrite opp_IZR, mult_IZR, <- INR_IZR_INZ. unfold Rdiv. ring. }
  rewrite EY. rewrite (omega_cis (- ((Z.of_nat (wav_low A b + t) - an_km A b) * (Z.of_nat N - 1)))).
  2: { rewrite opp_IZR, mult_IZR, (minus_IZR (Z.of_nat N)), <- (INR_IZR_INZ N). unfold Rdiv. ring. }
  rewrite !Cscal_RtoC, !RtoC_mul. fold delta.
  transitivity ((RtoC delta * RtoC delta * RtoC (INR M)) * (Cpow (Copp Ci) b * Cpow Ci b) * RtoC (wav_G A n_fft b (wav_low A b + t)) * g t * (omega M (- ((Z.of_nat (wav_low A b + t) - an_km A b) * (Z.of_nat N - 1))) * omega M (D * (1 - Z.of_nat N)) * omega M ((Z.of_nat N - 1) * Z.of_nat t)))%C; [ring|].
  rewrite <- !RtoC_mul, delta2, Cpow_inv, <- !omega_add. replace (_ + _ + _)%Z with 0%Z by (unfold D; rewrite Nat2Z.inj_add; unfold wav_low; rewrite Z2Nat.id by auto; ring). rewrite omega_0. unfold g. rewrite RtoC_mul. change (RtoC 1) with C1. ring.
Qed.
(** The coefficients have the energy of the band's part of the spectrum. *)
Lemma band_energy : forall w, wavelet_analysis A n_fft x b = Some w -> Rsum (map Cabs2 w) = bsum M (fun t => Cabs2 (g t)).
Proof.
  intros w H. destruct (coef_spec w H) as [Lw Cw]. pose proof N_pos as HN0. assert (HM : (0 < M)%nat) by (unfold M; lia).
  assert (E1 : Rsum (map Cabs2 w) = bsum M (fun i => Cabs2 (nth i w C0))). { rewrite <- Lw. clear. rewrite bsum_Rsum. f_equal. apply list_eq; [rewrite !map_length, seq_length; auto|]. intros i Hi. rewrite map_length in Hi. rewrite nth_map_seq by auto. rewrite nth_indep with (d' := Cabs2 C0) by (rewrite map_length; auto). now rewrite map_nth. }
  rewrite E1. rewrite (bsum_ext M _ (fun i => delta * delta * Cabs2 (Wz (jj i)))).
  2: { intros i Hi. rewrite Cw by auto. rewrite !Cabs2_mul, omega_abs2, Cscal_RtoC, Cabs2_mul, Cpow_abs2. unfold Cabs2 at 1, RtoC. cbn [fst snd]. ring. }
  rewrite bsum_scal. assert (E2 : RtoC (bsum M (fun i => Cabs2 (Wz (jj i)))) = RtoC (INR M * bsum M (fun t => Cabs2 (g t)))).
  { rewrite <- csum_RtoC. rewrite (csum_ext M _ (fun i => csum M (fun t => (Conj (g t) * omega M ((1 - Z.of_nat N) * Z.of_nat t)) * (Wz (jj i) * omega M (Z.of_nat i * Z.of_nat t)))%C)).
    2: { intros i Hi. rewrite <- Cmul_conj. unfold Wz at 2. rewrite csum_conj, <- csum_scal. apply csum_ext. intros t Ht. rewrite Conj_mul, <- omega_opp. transitivity (Conj (g t) * Wz (jj i) * (omega M ((1 - Z.of_nat N) * Z.of_nat t) * omega M (Z.of_nat i * Z.of_nat t)))%C; [|ring]. rewrite <- omega_add. transitivity (Conj (g t) * Wz (jj i) * omega M (- - (jj i * Z.of_nat t)))%C; [ring|]. do 2 f_equal. unfold jj. ring. }
    rewrite csum_swap. rewrite RtoC_mul, <- csum_RtoC, <- csum_scal. apply csum_ext. intros t Ht. rewrite csum_scal, Wz_back by auto. rewrite <- Cmul_conj. transitivity (RtoC (INR M) * (g t * Conj (g t)) * (omega M ((1 - Z.of_nat N) * Z.of_nat t) * omega M ((Z.of_nat N - 1) * Z.of_nat t)))%C; [ring|]. rewrite <- omega_add. replace (_ + _)%Z with 0%Z by ring. rewrite omega_0. ring. }
  apply (f_equal fst) in E2. unfold RtoC in E2. cbn [fst] in E2. rewrite E2. rewrite <- Rmult_assoc, delta2. ring.
Qed.
End Band.

(** Parseval. *)
Lemma parseval : forall n (x : nat -> R), (0 < n)%nat -> bsum n (fun k => Cabs2 (dft n (fun j => RtoC (x j)) k)) = INR n * bsum n (fun j => x j * x j).
Proof.
  intros n x Hn. set (X := dft n (fun j => RtoC (x j))). assert (E : RtoC (bsum n (fun k => Cabs2 (X k))) = RtoC (INR n * bsum n (fun j => x j * x j))).
  { rewrite <- csum_RtoC. rewrite (csum_ext n _ (fun k => csum n (fun j => RtoC (x j) * (X k * omega n (Z.of_nat (j * k))))%C)).
    2: { intros k Hk. rewrite <- Cmul_conj. unfold X at 2. unfold dft. rewrite csum_conj, <- csum_scal. apply csum_ext. intros j Hj. rewrite Conj_mul, Conj_RtoC, <- omega_opp. rewrite Z.opp_involutive. ring. }
    rewrite csum_swap, RtoC_mul, <- csum_RtoC, <- csum_scal. apply csum_ext. intros j Hj. rewrite csum_scal. pose proof (idft_dft n (fun j => RtoC (x j)) j Hj) as Hi. fold X in Hi. unfold idft in Hi. rewrite Cscal_RtoC in Hi.
    set (T := csum n _) in *. assert (En : (RtoC (INR n) * RtoC (/ INR n))%C = C1). { rewrite <- RtoC_mul, Rinv_r by (apply not_0_INR; lia). reflexivity. }
    assert (ET : T = (RtoC (INR n) * RtoC (x j))%C). { rewrite <- Hi. transitivity ((RtoC (INR n) * RtoC (/ INR n)) * T)%C; [rewrite En; ring|ring]. }
    rewrite ET, RtoC_mul. ring. }
  apply (f_equal fst) in E. exact E.
Qed.
(** Twice the half spectrum is the whole spectrum plus its two real bins. *)
Lemma half_spectrum : forall n (x : nat -> R), (0 < n)%nat -> Nat.even n = true -> let X := dft n (fun j => RtoC (x j)) in
  2 * bsum (n / 2 + 1) (fun k => Cabs2 (X k)) = INR n * bsum n (fun j => x j * x j) + Cabs2 (X 0%nat) + Cabs2 (X (n / 2)%nat).
Proof.
  intros n x Hn He X. rewrite <- parseval by auto. fold X. apply Nat.even_spec in He. destruct He as [h ->]. replace (2 * h / 2)%nat with h by (rewrite Nat.mul_comm, Nat.div_mul; lia).
  destruct h as [|h]; [lia|]. assert (Hh : forall k, (1 <= k <= S h)%nat -> Cabs2 (X (2 * S h - k)%nat) = Cabs2 (X k)).
  { intros k Hk. unfold X. rewrite (dft_hermitian (2 * S h) x k) by lia. unfold Cabs2, Conj. cbn [fst snd]. ring. }
  assert (E0 : bsum (2 * S h) (fun k => Cabs2 (X k)) = bsum (S h + 1) (fun k => Cabs2 (X k)) + bsum h (fun i => Cabs2 (X (S h + 1 + i)%nat))) by (rewrite <- bsum_split; f_equal; lia).
  rewrite E0. clear E0.
  assert (Ei : bsum h (fun i => Cabs2 (X (S h + 1 + i)%nat)) = bsum h (fun i => Cabs2 (X (S i)))). { rewrite bsum_rev. apply bsum_ext. intros i Hi. rewrite <- (Hh (S i)) by lia. do 2 f_equal. lia. }
  rewrite Ei. replace (S h + 1)%nat with (S (S h)) by lia. cbn [bsum]. pose proof (bsum_shift h (fun k => Cabs2 (X k))) as Es. cbn [bsum] in Es. lra.
Qed.
