(** Lemmas for C123. *)
From Coq Require Import List ZArith Lia Reals Lra Bool.
From Verif Require Import Base BaseProofs Vec Sum Cpx DftModel DftProofs AuxivaModel StftSpec SyncModel SyncProps BeamTdProps WaveletProofs GlRun LpcProps BandsProps UtilProps LocModel.
Import ListNotations.
Local Open Scope R_scope.

Lemma fft_len_even : forall a b, Nat.even (fft_len a b) = true.
Proof. intros a b. unfold fft_len. cbv zeta. destruct (Nat.even (a + b - 1)) eqn:E; auto. rewrite Nat.even_add, E. reflexivity. Qed.
Lemma fft_len_ge : forall a b, (a + b - 1 <= fft_len a b)%nat.
Proof. intros a b. unfold fft_len. cbv zeta. destruct (Nat.even _); lia. Qed.
Lemma fft_len_le : forall a b, (fft_len a b <= a + b)%nat.
Proof. intros a b. unfold fft_len. cbv zeta. destruct (Nat.even (a + b - 1)) eqn:E; [lia|]. destruct (a + b)%nat eqn:Z; [cbn in E; discriminate|lia]. Qed.

Lemma Cabs_Cscal : forall k z, 0 <= k -> Cabs (Cscal k z) = k * Cabs z.
Proof. intros k z Hk. rewrite Cscal_RtoC, Cabs_mul, Cabs_RtoC. now rewrite Rabs_pos_eq. Qed.
Lemma Cdiv_scal : forall k a b, k <> 0 -> b <> C0 -> Cdiv (Cscal k a) (Cscal k b) = Cdiv a b.
Proof.
  intros k a b Hk Hb. assert (Cabs2 b <> 0) by (intros Z; apply Hb; now apply Cabs2_zero). unfold Cdiv. assert (E : Cabs2 (Cscal k b) = k * k * Cabs2 b) by (unfold Cabs2; cbn; ring). rewrite E.
  apply C_eq; cbn; field; auto.
Qed.
Lemma Cdiv_mul_r : forall a b, b <> C0 -> (Cdiv a b * b)%C = a.
Proof. intros a b Hb. assert (Cabs2 b <> 0) by (intros Z; apply Hb; now apply Cabs2_zero). unfold Cdiv, Cabs2 in *. apply C_eq; cbn; field; auto. Qed.
Lemma Cscal_nz : forall k z, k <> 0 -> z <> C0 -> Cscal k z <> C0.
Proof. intros k z Hk Hz E. apply Hz. assert (k * fst z = 0 /\ k * snd z = 0) as [A B] by (split; [change (fst (Cscal k z) = 0)|change (snd (Cscal k z) = 0)]; rewrite E; reflexivity). apply C_eq; cbn [fst snd C0]; [apply Rmult_integral in A|apply Rmult_integral in B]; tauto. Qed.

(** ** Deconvolution *)
(** spectrum of a zero padded signal *)
Definition sp (n : nat) (x : vec) (k : nat) : C := dft n (fun j => RtoC (nth j x 0)) k.
(** the quotient where the divisor is large enough *)
Definition quot (n : nat) (y s : vec) (thresh : R) (k : nat) : C :=
  if Rlt_dec thresh (/ sqrt (INR n) * Cabs (sp n s k)) then Cdiv (sp n y k) (sp n s k) else C0.
Lemma sqrt_INR_pos : forall n, (0 < n)%nat -> 0 < / sqrt (INR n).
Proof. intros n Hn. apply Rinv_0_lt_compat, sqrt_lt_R0, lt_0_INR, Hn. Qed.
Lemma deconvolve_spec : forall y s len thresh, 0 <= thresh -> let n := fft_len (length y) (length s) in (0 < n)%nat ->
  exists H, deconvolve y s len thresh = Some (upto (irfft n H) (match len with Some l => l | None => Z.of_nat n end)) /\
    forall k, (k <= n / 2)%nat -> nth k H C0 = quot n y s thresh k.
Proof.
  intros y s len thresh Ht n Hn. pose proof (sqrt_INR_pos n Hn) as Pn. unfold deconvolve. fold n. destruct (Nat.eqb_spec n 0); [lia|].
  set (Y := map _ (rfft n y)). set (S := map _ (rfft n s)).
  assert (LY : length Y = (n / 2 + 1)%nat) by (unfold Y; now rewrite map_length, rfft_length). assert (LS : length S = (n / 2 + 1)%nat) by (unfold S; now rewrite map_length, rfft_length).
  rewrite (mapM_ext_in _ (fun p => Some (if Rlt_dec thresh (Cabs (snd p)) then Cdiv (fst p) (snd p) else C0))).
  - rewrite mapM_total. cbn [bind]. eexists. split; [reflexivity|]. intros k Hk.
    rewrite (nth_map_in _ (combine Y S) k (C0, C0)) by (rewrite combine_length; lia). rewrite combine_nth by lia. cbn [fst snd].
    unfold Y, S. rewrite !(nth_map_in _ (rfft n _) k C0) by (rewrite rfft_length; lia). rewrite !nth_rfft by auto. fold (sp n y k) (sp n s k). rewrite Cabs_Cscal by lra.
    unfold quot. destruct (Rlt_dec _ _) as [L|]; auto. apply Cdiv_scal; [lra|]. intros Z. rewrite Z in L. replace (Cabs C0) with 0 in L; [lra|]. unfold Cabs, Cabs2. cbn. replace (0 * 0 + 0 * 0) with 0 by ring. now rewrite sqrt_0.
  - intros p Hp. destruct (Rlt_dec _ _) as [L|]; auto. destruct (C_eq_dec (snd p) C0) as [Z|]; auto. exfalso. rewrite Z in L. replace (Cabs C0) with 0 in L; [lra|]. unfold Cabs, Cabs2. cbn. replace (0 * 0 + 0 * 0) with 0 by ring. now rewrite sqrt_0.
Qed.
(** A recording long enough to hold the response: the circle is not felt. *)
Lemma circular : forall (y s h : vec) n t, (length s + length h <= length y + 1)%nat -> (length y + length s - 1 <= n)%nat -> (0 < length s)%nat -> (t < n)%nat ->
  bsum n (fun i => nth i s 0 * nth ((t + (n - i)) mod n) h 0) = convolution s h t.
Proof.
  intros y s h n t H1 H2 H3 Ht. unfold convolution. replace n with (t + 1 + (n - (t + 1)))%nat at 1 by lia. rewrite bsum_split. rewrite (bsum_zero_ext (n - (t + 1))).
  - rewrite Rplus_0_r. apply bsum_ext. intros i Hi. f_equal. f_equal. replace (t + (n - i))%nat with (t - i + 1 * n)%nat by lia. rewrite Nat.mod_add by lia. apply Nat.mod_small. lia.
  - intros i Hi. cbv beta. destruct (Nat.lt_ge_cases (t + 1 + i) (length s)); [|rewrite (nth_overflow s) by lia; ring]. rewrite Nat.mod_small by lia. rewrite (nth_overflow h) by lia. ring.
Qed.
Lemma sp_circ : forall n s h k, (0 < n)%nat -> dft n (fun j => RtoC (bsum n (fun i => nth i s 0 * h ((j + (n - i)) mod n)%nat))) k = (sp n s k * dft n (fun j => RtoC (h j)) k)%C.
Proof.
  intros n s h k Hn. unfold sp. rewrite dft_conv by auto. apply dft_ext. intros j Hj. rewrite <- csum_RtoC. apply csum_ext. intros i Hi. now rewrite RtoC_mul.
Qed.
Lemma hermitian_quot : forall n y s thresh, hermitian n (quot n y s thresh).
Proof.
  intros n y s thresh k Hk. unfold quot. assert (ES : sp n s (n - k) = Conj (sp n s k)) by exact (dft_hermitian n (fun j => nth j s 0) k Hk). assert (EY : sp n y (n - k) = Conj (sp n y k)) by exact (dft_hermitian n (fun j => nth j y 0) k Hk).
  rewrite ES, EY. rewrite Cabs_conj. destruct (Rlt_dec _ _); [|apply C_eq; cbn; ring]. unfold Cdiv. replace (Cabs2 (Conj (sp n s k))) with (Cabs2 (sp n s k)) by (unfold Cabs2; cbn; ring). apply C_eq; cbn; ring.
Qed.
Lemma quot_real : forall n y s thresh k, snd (sp n y k) = 0 -> snd (sp n s k) = 0 -> snd (quot n y s thresh k) = 0.
Proof. intros n y s thresh k A B. unfold quot. destruct (Rlt_dec _ _); [|reflexivity]. unfold Cdiv. destruct (sp n y k) as [a a'], (sp n s k) as [b b']. cbn in *. rewrite A, B. ring. Qed.
Lemma sp_half_real : forall n x, (0 < n)%nat -> Nat.even n = true -> snd (sp n x (n / 2)) = 0.
Proof.
  intros n x Hn He. unfold sp, dft. cbn [snd csum]. apply bsum_zero_ext. intros j Hj. rewrite omega_opp. pose proof (omega_half n j Hn He) as Z. destruct (omega n (Z.of_nat (j * (n / 2)))) as [a a']. cbn in *. rewrite Z. ring.
Qed.
(** The spectrum of what deconvolve computes. *)
Lemma dft_deconv : forall n H y s thresh k, (0 < n)%nat -> Nat.even n = true -> (forall k, (k <= n / 2)%nat -> nth k H C0 = quot n y s thresh k) -> (k < n)%nat ->
  dft n (fun j => RtoC (nth j (irfft n H) 0)) k = quot n y s thresh k.
Proof.
  intros n H y s thresh k Hn He HH Hk.
  assert (L : forall k, (k <= n / 2)%nat -> dft n (fun j => RtoC (nth j (irfft n H) 0)) k = quot n y s thresh k).
  { intros i Hi. rewrite rfft_irfft; auto; rewrite HH by lia; apply quot_real; auto using dft_0_real, sp_half_real; try apply dft_0_real; now apply sp_half_real. }
  destruct (Nat.le_gt_cases k (n / 2)) as [|G]; [now apply L|]. assert (n - k <= n / 2)%nat by (pose proof (Nat.div_mod n 2 ltac:(lia)); pose proof (Nat.mod_upper_bound n 2); lia).
  replace k with (n - (n - k))%nat by lia. rewrite (dft_hermitian n (fun j => nth j (irfft n H) 0) (n - k)%nat) by lia. rewrite (hermitian_quot n y s thresh (n - k)%nat) by lia. f_equal. now apply L.
Qed.

(** ** Cross-correlation *)
(** lags shown by an array of length [n] around zero, the negative ones first *)
Lemma around : forall (cc : vec) t p, (0 < t <= length cc)%nat -> (p < 2 * t)%nat ->
  nth p (skipn (length cc - t) cc ++ firstn t cc) 0 = nth (Z.to_nat ((Z.of_nat p - Z.of_nat t) mod Z.of_nat (length cc))) cc 0.
Proof.
  intros cc t p Ht Hp. assert (Ls : length (skipn (length cc - t) cc) = t) by (rewrite skipn_length; lia). destruct (Nat.lt_ge_cases p t) as [L|L].
  - rewrite app_nth1 by lia. rewrite StftProofs.nth_skipn. f_equal. replace (Z.of_nat p - Z.of_nat t)%Z with (Z.of_nat (length cc - t + p) + (-1) * Z.of_nat (length cc))%Z by lia. rewrite Z.mod_add by lia. rewrite Z.mod_small by lia. lia.
  - rewrite app_nth2 by lia. rewrite Ls. rewrite StftProofs.nth_firstn by lia. f_equal. rewrite Z.mod_small by lia. lia.
Qed.
(** the first of the largest entries *)
Lemma argmax_first_from : forall l best k i j, (j < length l)%nat -> (forall m, (m < length l)%nat -> nth m l 0 <= nth j l 0) -> (forall m, (m < j)%nat -> nth m l 0 < nth j l 0) -> best < nth j l 0 ->
  argmax_from best k i l = (i + j)%nat.
Proof.
  induction l as [|v l IH]; intros best k i j Hj Hle Hlt Hb; [cbn in Hj; lia|]. cbn [argmax_from]. destruct j as [|j].
  - cbn [nth] in *. destruct (Rlt_dec best v) as [_|N]; [|lra]. rewrite argmax_keep; [lia|]. apply Forall_forall. intros x Hx. destruct (In_nth _ _ 0 Hx) as (m & Hm & <-). apply (Hle (S m)). cbn. lia.
  - cbn [nth length] in *. assert (Hv : v < nth j l 0) by apply (Hlt 0%nat ltac:(lia)).
    destruct (Rlt_dec best v); (rewrite (IH _ _ _ j); [lia|lia| | |lra]); intros m Hm; [apply (Hle (S m))|apply (Hlt (S m))|apply (Hle (S m))|apply (Hlt (S m))]; lia.
Qed.
Lemma argmax_first : forall l j, (j < length l)%nat -> (forall m, (m < length l)%nat -> nth m l 0 <= nth j l 0) -> (forall m, (m < j)%nat -> nth m l 0 < nth j l 0) -> argmax l = j.
Proof.
  intros [|v l] j Hj Hle Hlt; [cbn in Hj; lia|]. cbn [argmax]. destruct j as [|j].
  - apply argmax_keep. apply Forall_forall. intros x Hx. destruct (In_nth _ _ 0 Hx) as (m & Hm & <-). apply (Hle (S m)). cbn. lia.
  - rewrite (argmax_first_from l v 0 1 j); [lia|cbn in Hj; lia| | |].
    + intros m Hm. apply (Hle (S m)). cbn. lia.
    + intros m Hm. apply (Hlt (S m)). lia.
    + apply (Hlt 0%nat). lia.
Qed.
(** weights of the correlation of two copies of [s] *)
Definition gw (phat : bool) (N : nat) (s : vec) (k : nat) : R := if phat then 1 else Cabs2 (sp N s k).
Lemma whiten_pad : forall N a s b g, g <> 0 -> (a + length s <= N)%nat -> (forall k, (k <= N / 2)%nat -> sp N s k <> C0) ->
  exists Y, whiten (rfft N (SyncProps.pad a (map (Rmult g) s) b)) = Some Y /\ length Y = (N / 2 + 1)%nat /\ forall k, (k <= N / 2)%nat -> nth k Y C0 = (RtoC (g / Rabs g / Cabs (sp N s k)) * (omega N (- Z.of_nat (a * k)) * sp N s k))%C.
Proof.
  intros N a s b g Hg HN Hs. set (X := rfft N _). assert (LX : length X = (N / 2 + 1)%nat) by apply rfft_length. pose proof (Rabs_pos_lt g Hg) as Hag.
  assert (EX : forall k, (k <= N / 2)%nat -> nth k X C0 = (RtoC g * (omega N (- Z.of_nat (a * k)) * sp N s k))%C) by (intros; now apply rfft_pad).
  assert (AX : forall k, (k <= N / 2)%nat -> Cabs (nth k X C0) = Rabs g * Cabs (sp N s k)) by (intros k Hk; rewrite EX by auto; rewrite !Cabs_mul, Cabs_RtoC, Cabs_omega; ring).
  assert (PS : forall k, (k <= N / 2)%nat -> 0 < Cabs (sp N s k)) by (intros k Hk; destruct (Rle_lt_or_eq_dec _ _ (Cabs_pos (sp N s k))) as [|E]; auto; exfalso; apply (Hs k Hk); now apply Cabs_0).
  exists (map (fun z => Cscal (/ Cabs z) z) X). split; [|split].
  - unfold whiten. rewrite (mapM_ext_in _ (fun z => Some (Cscal (/ Cabs z) z))); [apply mapM_total|]. intros z Hz. destruct (C_eq_dec z C0) as [E|]; auto. exfalso. destruct (In_nth _ _ C0 Hz) as (k & Hk & Ek). assert (P : 0 < Cabs (nth k X C0)) by (rewrite AX by lia; apply Rmult_lt_0_compat; auto; apply PS; lia).
    rewrite Ek, E in P. unfold Cabs, Cabs2 in P. cbn in P. replace (0 * 0 + 0 * 0) with 0 in P by ring. rewrite sqrt_0 in P. lra.
  - now rewrite map_length.
  - intros k Hk. rewrite (nth_map_in _ X k C0) by lia. rewrite Cscal_RtoC, AX, EX by auto. transitivity (RtoC (/ (Rabs g * Cabs (sp N s k))) * RtoC g * (omega N (- Z.of_nat (a * k)) * sp N s k))%C; [ring|]. rewrite <- RtoC_mul. do 2 f_equal. specialize (PS k Hk). field. split; lra.
Qed.
(** The cross-spectrum of two shifted copies. *)
Lemma cross : forall a b c d s g phat N, g <> 0 -> (a + length s <= N)%nat -> (c + length s <= N)%nat -> (phat = true -> forall k, (k <= N / 2)%nat -> sp N s k <> C0) ->
  let x1 := SyncProps.pad a (map (Rmult g) s) b in let x2 := SyncProps.pad c s d in
  exists Y1 Y2, (if phat then whiten (rfft N x1) else Some (rfft N x1)) = Some Y1 /\ (if phat then whiten (rfft N x2) else Some (rfft N x2)) = Some Y2 /\   length (map2 (fun a b => (a * Conj b)%C) Y1 Y2) = (N / 2 + 1)%nat /\   forall k, (k <= N / 2)%nat -> nth k (map2 (fun a b => (a * Conj b)%C) Y1 Y2) C0 = (RtoC ((if phat then g / Rabs g else g) * gw phat N s k) * omega N (- ((Z.of_nat a - Z.of_nat c) * Z.of_nat k)))%C.
Proof.
  intros a b c d s g phat N Hg Ha Hc Hs x1 x2. assert (Ex2 : x2 = SyncProps.pad c (map (Rmult 1) s) d). { unfold x2. unfold SyncProps.pad. do 2 f_equal. symmetry. rewrite <- (map_id s) at 2. apply map_ext. intros; ring. }
  assert (Om : forall k, (omega N (- Z.of_nat (a * k)) * Conj (omega N (- Z.of_nat (c * k))))%C = omega N (- ((Z.of_nat a - Z.of_nat c) * Z.of_nat k))). { intros k. rewrite <- omega_opp, <- omega_add. f_equal. lia. }
  assert (SS : forall k, (sp N s k * Conj (sp N s k))%C = RtoC (Cabs2 (sp N s k))) by (intros k; unfold Cabs2; destruct (sp N s k); apply C_eq; cbn; ring).
  assert (Nm : forall Y1 Y2 : list C, length Y1 = (N / 2 + 1)%nat -> length Y2 = (N / 2 + 1)%nat -> length (map2 (fun a b => (a * Conj b)%C) Y1 Y2) = (N / 2 + 1)%nat /\ forall k, (k <= N / 2)%nat -> nth k (map2 (fun a b => (a * Conj b)%C) Y1 Y2) C0 = (nth k Y1 C0 * Conj (nth k Y2 C0))%C).
  { intros Y1 Y2 L1 L2. split; [rewrite map2_length; lia|]. intros k Hk. assert (G : forall (A B : list C) k, (k < length A)%nat -> (k < length B)%nat -> nth k (map2 (fun a b => (a * Conj b)%C) A B) C0 = (nth k A C0 * Conj (nth k B C0))%C). { induction A as [|u A IH]; intros [|v B] [|i] HA HB; cbn in *; try lia; auto. apply IH; lia. } apply G; lia. }
  destruct phat.
  - destruct (whiten_pad N a s b g Hg Ha (Hs eq_refl)) as (Y1 & E1 & L1 & N1). destruct (whiten_pad N c s d 1 ltac:(lra) Hc (Hs eq_refl)) as (Y2 & E2 & L2 & N2). rewrite <- Ex2 in E2. fold x1 in E1. destruct (Nm Y1 Y2 L1 L2) as [Lm Nn].
    exists Y1, Y2. do 3 (split; [assumption|]). intros k Hk. rewrite Nn, N1, N2 by auto. rewrite !Conj_mul, Conj_RtoC.
    assert (P : 0 < Cabs (sp N s k)) by (destruct (Rle_lt_or_eq_dec _ _ (Cabs_pos (sp N s k))) as [|E]; auto; exfalso; apply (Hs eq_refl k Hk); now apply Cabs_0).
    transitivity (RtoC (g / Rabs g / Cabs (sp N s k)) * RtoC (1 / Rabs 1 / Cabs (sp N s k)) * (sp N s k * Conj (sp N s k)) * (omega N (- Z.of_nat (a * k)) * Conj (omega N (- Z.of_nat (c * k)))))%C; [ring|]. rewrite Om, SS, <- !RtoC_mul. f_equal. f_equal. cbn [gw]. rewrite Rabs_R1. rewrite <- (Cabs_sqr (sp N s k)). field. pose proof (Rabs_pos_lt g Hg). split; lra.
  - destruct (Nm (rfft N x1) (rfft N x2) (rfft_length _ _) (rfft_length _ _)) as [Lm Nn]. exists (rfft N x1), (rfft N x2). do 2 (split; [reflexivity|]). split; [exact Lm|]. intros k Hk. rewrite Nn by auto. unfold x1. rewrite Ex2, !rfft_pad by auto. fold (shat N s k). change (shat N s k) with (sp N s k).
    rewrite !Conj_mul, Conj_RtoC. transitivity (RtoC g * RtoC 1 * (sp N s k * Conj (sp N s k)) * (omega N (- Z.of_nat (a * k)) * Conj (omega N (- Z.of_nat (c * k)))))%C; [ring|]. rewrite Om, SS, <- !RtoC_mul. f_equal. f_equal. cbn [gw]. ring.
Qed.
Lemma G_mod : forall N w n, (0 < N)%nat -> G N w (n mod Z.of_nat N) = G N w n.
Proof. intros N w n HN. unfold G. apply bsum_ext. intros k Hk. do 2 f_equal. rewrite <- (omega_mod N (n * _)), <- (omega_mod N (_ mod _ * _)) by auto. f_equal. apply Z.mul_mod_idemp_l. lia. Qed.
Lemma nz_pos : forall N s k, sp N s k <> C0 -> 0 < Cabs2 (sp N s k).
Proof. intros N s k H. destruct (Rle_lt_or_eq_dec _ _ (Cabs2_nonneg (sp N s k))) as [|E]; auto. exfalso. apply H. now apply Cabs2_zero. Qed.
(** The correlation around lag zero, without interpolation. *)
Lemma gcc_pad : forall a b c d s g phat, ~ silent s -> g <> 0 ->
  let x1 := SyncProps.pad a (map (Rmult g) s) b in let x2 := SyncProps.pad c s d in let N := fft_len (length x1) (length x2) in let t := (N / 2 + 1)%nat in
  (phat = true -> forall k, (k <= N / 2)%nat -> sp N s k <> C0) ->
  exists r, gcc x1 x2 1 phat = Some r /\ length r = (2 * t)%nat /\
  forall p, (p < 2 * t)%nat -> nth p r 0 = (if phat then g / Rabs g else g) / INR N * G N (gw phat N s) (Z.of_nat p - Z.of_nat t - (Z.of_nat a - Z.of_nat c)).
Proof.
  intros a b c d s g phat Hs Hg x1 x2 N t Hz. assert (Ls : (0 < length s)%nat) by (destruct (not_silent s Hs) as (n & Hn & _); lia).
  assert (L1 : length x1 = (a + length s + b)%nat) by (unfold x1; rewrite pad_length, map_length; auto). assert (L2 : length x2 = (c + length s + d)%nat) by apply pad_length.
  pose proof (fft_len_ge (length x1) (length x2)) as HN. pose proof (fft_len_even (length x1) (length x2)) as He. fold N in HN, He. assert (N2 : (2 <= N)%nat) by (destruct N as [|[|?]]; [lia|discriminate|lia]).
  assert (Ht : (t <= N)%nat) by (unfold t; pose proof (Nat.div_mod N 2 ltac:(lia)); lia).
  destruct (cross a b c d s g phat N Hg ltac:(lia) ltac:(lia) Hz) as (Y1 & Y2 & E1 & E2 & LY & HY). fold x1 in E1. fold x2 in E2.
  set (kappa := if phat then g / Rabs g else g) in *. set (H k := (RtoC (kappa * gw phat N s k) * omega N (- ((Z.of_nat a - Z.of_nat c) * Z.of_nat k)))%C).
  assert (Hh : hermitian N H). { intros k Hk. unfold H. rewrite Conj_mul, Conj_RtoC. f_equal.
    - assert (Es : sp N s (N - k) = Conj (sp N s k)) by (unfold sp; now apply (dft_hermitian N (fun j => nth j s 0))). do 2 f_equal. unfold gw. rewrite Es. assert (Ec : Cabs2 (Conj (sp N s k)) = Cabs2 (sp N s k)) by (unfold Cabs2; cbn; ring). now rewrite Ec.
    - rewrite <- omega_opp. rewrite <- (omega_cycle N (- - _) (- (Z.of_nat a - Z.of_nat c))) by lia. f_equal. rewrite Nat2Z.inj_sub by lia. ring. }
  set (out := irfft N (map2 (fun a b => (a * Conj b)%C) Y1 Y2)). assert (Lo : length out = N) by apply irfft_length.
  assert (Out : forall j, (j < N)%nat -> nth j out 0 = kappa / INR N * G N (gw phat N s) (Z.of_nat j - (Z.of_nat a - Z.of_nat c))).
  { intros j Hj. unfold out. rewrite (irfft_idft N _ H) by auto. unfold idft, G. cbn [fst Cscal]. rewrite fst_csum. unfold Rdiv. rewrite (Rmult_comm kappa), Rmult_assoc. f_equal. rewrite <- bsum_scal. apply bsum_ext. intros k Hk. unfold H. transitivity (fst (RtoC (kappa * gw phat N s k) * (omega N (- ((Z.of_nat a - Z.of_nat c) * Z.of_nat k)) * omega N (Z.of_nat (j * k))))%C); [match goal with |- fst ?u = fst ?v => assert (u = v :> C) as ->; [ring|reflexivity] end|]. rewrite fst_RtoC_mul, <- omega_add, Rmult_assoc. do 4 f_equal. lia. }
  exists (skipn (length out - t) out ++ firstn t out). split; [|split].
  - unfold gcc. fold N. rewrite E1, E2. cbn [bind]. rewrite Nat.mul_1_l. reflexivity.
  - rewrite app_length, skipn_length, firstn_length. lia.
  - intros p Hp. rewrite around by (rewrite ?Lo; lia). rewrite Lo. pose proof (Z.mod_pos_bound (Z.of_nat p - Z.of_nat t) (Z.of_nat N) ltac:(lia)) as B. rewrite Out by lia. f_equal. rewrite Z2Nat.id by lia.
    rewrite <- (G_mod N _ (_ mod _ - _)), <- (G_mod N _ (Z.of_nat p - _ - _)) by lia. f_equal. now rewrite Zminus_mod_idemp_l.
Qed.
Lemma gw_ok : forall phat N s k, 0 <= gw phat N s k /\ (gw phat N s k = 0 -> shat N s k = C0).
Proof. intros [|] N s k; cbn [gw]; split; try lra; [apply Cabs2_nonneg|apply Cabs2_zero]. Qed.
Lemma gw_peak : forall phat N s n, ~ silent s -> (2 * length s <= N + 1)%nat -> (n mod Z.of_nat N <> 0)%Z -> Rabs (G N (gw phat N s) n) < Rabs (G N (gw phat N s) 0).
Proof.
  intros phat N s n Hs HN Hn. pose proof (peak_strict N s Hs HN (gw phat N s) (fun k _ => gw_ok phat N s k) n 1 Hn (or_introl eq_refl)) as P1. pose proof (peak_strict N s Hs HN (gw phat N s) (fun k _ => gw_ok phat N s k) n (-1) Hn (or_intror eq_refl)) as P2. rewrite (Rabs_pos_eq (G N (gw phat N s) 0)) by lra. apply Rabs_def1; lra.
Qed.

(** ** Interpolation *)
Lemma omega_refine : forall I N k, (0 < I)%nat -> (0 < N)%nat -> omega N k = omega (I * N) (Z.of_nat I * k).
Proof. intros I N k HI HN. unfold omega. f_equal. rewrite mult_INR, mult_IZR, <- INR_IZR_INZ. field. split; apply not_0_INR; lia. Qed.
(** sum of the cosines of all bins of a transform of even length [N] *)
Definition GI (I N : nat) (m : Z) : R := 1 + bsum (N / 2) (fun k => 2 * fst (omega (I * N) (m * Z.of_nat (k + 1)))).
Lemma GI_peak : forall I N m, (0 < I)%nat -> (2 <= N)%nat -> (m mod Z.of_nat (I * N) <> 0)%Z -> Rabs (GI I N m) < GI I N 0.
Proof.
  intros I N m HI HN Hm. assert (P : (0 < I * N)%nat) by nia. assert (D : (1 <= N / 2)%nat) by (apply Nat.div_le_lower_bound; lia).
  assert (B : forall k, -1 <= fst (omega (I * N) k) <= 1) by (intros k; unfold omega, cis; cbn; apply COS_bound).
  assert (E0 : GI I N 0 = 1 + bsum (N / 2) (fun _ => 2)). { unfold GI. f_equal. apply bsum_ext. intros k Hk. rewrite Z.mul_0_l, omega_0. cbn. ring. }
  apply Rabs_def1.
  - rewrite E0. unfold GI. apply Rplus_lt_compat_l. destruct (N / 2)%nat as [|h]; [lia|]. rewrite !bsum_shift. apply Rplus_lt_le_compat; [|apply bsum_le; intros k Hk; specialize (B (m * Z.of_nat (S k + 1))%Z); lra].
    cbn [Nat.add]. rewrite Z.mul_1_r. destruct (Rle_lt_or_eq_dec _ _ (proj2 (B m))) as [L|E]; [lra|]. exfalso. apply omega_re_1 in E. rewrite <- omega_mod in E by auto. pose proof (Z.mod_pos_bound m (Z.of_nat (I * N)) ltac:(lia)). now apply (omega_ne_1 (I * N) (m mod Z.of_nat (I * N))) in E; [|lia].
  - rewrite E0. unfold GI. assert (- bsum (N / 2) (fun _ => 2) <= bsum (N / 2) (fun k => 2 * fst (omega (I * N) (m * Z.of_nat (k + 1))))); [|lra]. replace (- bsum (N / 2) (fun _ => 2)) with (bsum (N / 2) (fun _ => -2)).
    + apply bsum_le. intros k Hk. specialize (B (m * Z.of_nat (k + 1))%Z). lra.
    + rewrite !bsum_const. ring.
Qed.
Lemma bsum_cut : forall n m f, (n <= m)%nat -> (forall i, (n <= i < m)%nat -> f i = 0) -> bsum m f = bsum n f.
Proof. intros n m f H Z. replace m with (n + (m - n))%nat by lia. rewrite bsum_split. rewrite (bsum_zero_ext (m - n)); [ring|]. intros i Hi. apply Z. lia. Qed.
Lemma gcc_interp : forall a b c d s g I, ~ silent s -> g <> 0 -> (2 <= I)%nat ->
  let x1 := SyncProps.pad a (map (Rmult g) s) b in let x2 := SyncProps.pad c s d in let N := fft_len (length x1) (length x2) in let t := (N / 2 + 1)%nat in
  (forall k, (k <= N / 2)%nat -> sp N s k <> C0) ->
  exists r, gcc x1 x2 I true = Some r /\ length r = (2 * t)%nat /\
  forall p, (p < 2 * t)%nat -> nth p r 0 = g / Rabs g / INR (I * N) * GI I N (Z.of_nat p - Z.of_nat t - Z.of_nat I * (Z.of_nat a - Z.of_nat c)).
Proof.
  intros a b c d s g I Hs Hg HI x1 x2 N t Hz. assert (Ls : (0 < length s)%nat) by (destruct (not_silent s Hs) as (n & Hn & _); lia).
  assert (L1 : length x1 = (a + length s + b)%nat) by (unfold x1; rewrite pad_length, map_length; auto). assert (L2 : length x2 = (c + length s + d)%nat) by apply pad_length.
  pose proof (fft_len_ge (length x1) (length x2)) as HN. pose proof (fft_len_even (length x1) (length x2)) as He. fold N in HN, He. assert (N2 : (2 <= N)%nat) by (destruct N as [|[|?]]; [lia|discriminate|lia]).
  assert (Ht : (t <= N)%nat) by (unfold t; pose proof (Nat.div_mod N 2 ltac:(lia)); lia).
  destruct (cross a b c d s g true N Hg ltac:(lia) ltac:(lia) (fun _ => Hz)) as (Y1 & Y2 & E1 & E2 & LY & HY). fold x1 in E1. fold x2 in E2.
  set (Z := map2 (fun a b => (a * Conj b)%C) Y1 Y2) in *. set (kappa := g / Rabs g) in *. set (M := (I * N)%nat). assert (HM : (2 * N <= M)%nat) by (unfold M; nia).
  set (out := irfft M Z). assert (Lo : length out = M) by apply irfft_length. assert (ND : (N / 2 < N)%nat) by (apply Nat.div_lt; lia).
  assert (Out : forall j, (j < M)%nat -> nth j out 0 = kappa / INR M * GI I N (Z.of_nat j - Z.of_nat I * (Z.of_nat a - Z.of_nat c))).
  { intros j Hj. unfold out. rewrite nth_irfft by auto. replace (if Nat.even M then _ else 0) with 0.
    2:{ destruct (Nat.even M); auto. rewrite (nth_overflow Z); [cbn; ring|]. rewrite LY. enough (N <= M / 2)%nat by lia. apply Nat.div_le_lower_bound; lia. }
    rewrite (bsum_cut (N / 2)).
    - rewrite (HY 0%nat) by lia. cbn [gw]. rewrite Z.mul_0_r, Z.opp_0, omega_0. unfold GI. fold M. rewrite (bsum_ext (N / 2) _ (fun k => kappa * (2 * fst (omega M ((Z.of_nat j - Z.of_nat I * (Z.of_nat a - Z.of_nat c)) * Z.of_nat (k + 1)))))).
      + rewrite bsum_scal. cbn. field. apply not_0_INR. lia.
      + intros k Hk. rewrite HY by lia. cbn [gw]. rewrite (omega_refine I N) by lia. fold M. transitivity (2 * fst (RtoC (kappa * 1) * (omega M (Z.of_nat I * - ((Z.of_nat a - Z.of_nat c) * Z.of_nat (k + 1))) * omega M (Z.of_nat (j * (k + 1)))))%C); [do 2 f_equal; ring|]. rewrite <- omega_add, fst_RtoC_mul. replace (Z.of_nat I * - ((Z.of_nat a - Z.of_nat c) * Z.of_nat (k + 1)) + Z.of_nat (j * (k + 1)))%Z with ((Z.of_nat j - Z.of_nat I * (Z.of_nat a - Z.of_nat c)) * Z.of_nat (k + 1))%Z by (rewrite Nat2Z.inj_mul; ring). ring.
    - enough (N - 1 <= (M - 1) / 2)%nat by lia. apply Nat.div_le_lower_bound; lia.
    - intros k Hk. rewrite (nth_overflow Z) by lia. cbn. ring. }
  exists (skipn (length out - t) out ++ firstn t out). split; [|split].
  - unfold gcc. fold N. rewrite E1, E2. cbn [bind]. reflexivity.
  - rewrite app_length, skipn_length, firstn_length. lia.
  - intros p Hp. rewrite around by (rewrite ?Lo; lia). rewrite Lo. pose proof (Z.mod_pos_bound (Z.of_nat p - Z.of_nat t) (Z.of_nat M) ltac:(lia)) as B. rewrite Out by lia. f_equal. rewrite Z2Nat.id by lia.
    unfold GI. fold M. f_equal. apply bsum_ext. intros k Hk. do 2 f_equal. rewrite <- (omega_mod M (_ * _)) by lia. rewrite <- (omega_mod M ((Z.of_nat p - _ - _) * _)) by lia. f_equal. rewrite <- Z.mul_mod_idemp_l, Zminus_mod_idemp_l, Z.mul_mod_idemp_l by lia. reflexivity.
Qed.

(** ** Localisation *)
Lemma kept_spec : forall mics tdoa k, kept mics tdoa = Some k -> length mics = length tdoa /\ exists r0 rest, mics = r0 :: rest /\
  exists l, k = (r0, nth 0 tdoa 0 - nth 0 tdoa 0) :: l /\ forall p, In p l -> In (fst p) mics /\ snd p <> 0 /\ exists t, In (fst p, t) (combine mics tdoa) /\ snd p = t - nth 0 tdoa 0.
Proof.
  intros mics tdoa k H. unfold kept in H. destruct (Nat.eqb_spec (length mics) (length tdoa)) as [L|]; [|discriminate]. cbn [negb] in H. split; [exact L|]. destruct mics as [|r0 rest], tdoa as [|t0 tt]; try discriminate. cbn [map combine nth] in H. apply WienerProofs.some_inj in H. exists r0, rest. split; [reflexivity|]. eexists. split; [symmetry; exact H|]. cbn [nth].
  intros p Hp. apply filter_In in Hp. destruct Hp as [Hp Z]. destruct (Req_EM_T (snd p) 0) as [|Nz]; [discriminate|]. destruct p as [r t]. cbn [fst snd] in *. assert (Q : exists t', In (r, t') (combine rest tt) /\ t = t' - t0). { clear H L Z Nz. revert tt Hp. induction rest as [|a rest IH]; intros [|b tt] Hp; cbn in Hp; try tauto. destruct Hp as [E|Hp]; [apply pair_equal_spec in E; destruct E as [<- <-]; exists b; split; [now left|reflexivity]|]. destruct (IH tt Hp) as (t' & A & B). exists t'. split; [now right|exact B]. }
  destruct Q as (t' & A & B). split; [right; eapply in_combine_l; eassumption|]. split; [exact Nz|]. exists t'. split; [now right|exact B].
Qed.
Lemma div_vscal : forall k v, map (fun x => 2 * x / k) v = vscal (2 / k) v.
Proof. intros k v. apply map_ext. intros x. unfold Rdiv. ring. Qed.
Lemma row_dot : forall dim r r0 r1 u w x, length r = dim -> length r0 = dim -> length r1 = dim ->
  dot (vminus (map (fun x => 2 * x / u) (vminus r r0)) (map (fun x => 2 * x / w) (vminus r1 r0))) x = 2 / u * (dot r x - dot r0 x) - 2 / w * (dot r1 x - dot r0 x).
Proof.
  intros dim r r0 r1 u w x L L0 L1. rewrite !div_vscal. rewrite dot_vminus_l by (rewrite !vscal_length, !vminus_length; congruence). rewrite !dot_vscal_l, !dot_vminus_l by congruence. reflexivity.
Qed.
Lemma resid_zero : forall A b x, resid A b x = 0 <-> forall p, In p (combine A b) -> dot (fst p) x = snd p.
Proof.
  intros A b x. unfold resid. induction (combine A b) as [|p l IH]; cbn [map Rsum fold_right]; [split; [intros _ p []|reflexivity]|].
  assert (P : 0 <= (dot (fst p) x - snd p) ^ 2) by apply pow2_ge_0. assert (Q : forall l, 0 <= Rsum (map (fun p => (dot (fst p) x - snd p) ^ 2) l)) by (intros l'; induction l' as [|a l' I]; cbn [map Rsum fold_right]; [lra|pose proof (pow2_ge_0 (dot (fst a) x - snd a)); unfold Rsum in I; lra]).
  specialize (Q l). unfold Rsum in *. split.
  - intros E q [<-|Hq]; [assert (Z : (dot (fst p) x - snd p) ^ 2 = 0) by lra; nra|apply IH; auto; lra].
  - intros H. rewrite (proj2 IH) by (intros; apply H; now right). rewrite (H p) by now left. ring.
Qed.
Lemma resid_nonneg : forall A b x, 0 <= resid A b x.
Proof. intros A b x. unfold resid. induction (combine A b) as [|a l I]; cbn [map Rsum fold_right]; [lra|]. pose proof (pow2_ge_0 (dot (fst a) x - snd a)). unfold Rsum in I. lra. Qed.
