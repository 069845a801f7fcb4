(** C123: deconvolution, time differences of arrival and localisation from them. *)
From Coq Require Import List ZArith Lia Reals Lra Bool.
From Verif Require Import Base BaseProofs Vec Sum Cpx DftModel DftProofs AuxivaModel StftSpec SyncModel SyncProps BeamTdProps WaveletProofs GlRun LpcProps BandsProps UtilProps LocModel LocProofs.
Import ListNotations.
Local Open Scope R_scope.

(** ** deconvolve *)
(** A recording that holds the whole response to the test signal, whose spectrum exceeds the
    threshold everywhere: the impulse response is recovered exactly, followed by zeros. *)
Theorem C123_deconvolve : forall y s h len thresh, 0 <= thresh -> (0 < length s)%nat -> (length s + length h <= length y + 1)%nat ->
  (forall t, nth t y 0 = convolution s h t) ->
  let n := fft_len (length y) (length s) in
  (forall k, (k <= n / 2)%nat -> thresh * sqrt (INR n) < Cabs (dft n (fun j => RtoC (nth j s 0)) k)) -> (0 < n)%nat ->
  exists r, deconvolve y s len thresh = Some r /\
    length r = (match len with None => n | Some l => if (0 <=? l)%Z then Nat.min (Z.to_nat l) n else n - Z.to_nat (- l) end)%nat /\
    forall t, (t < length r)%nat -> nth t r 0 = nth t h 0.
Proof.
  intros y s h len thresh Ht Hs Hl Hy n Hk Hn. pose proof (sqrt_INR_pos n Hn) as Pn. assert (Sn : 0 < sqrt (INR n)) by (apply sqrt_lt_R0, lt_0_INR, Hn).
  destruct (deconvolve_spec y s len thresh Ht Hn) as (H & E & HH). fold n in E, HH. eexists. split; [exact E|].
  assert (Y : forall k, sp n y k = (sp n s k * sp n h k)%C).
  { intros k. unfold sp at 3. rewrite <- (sp_circ n s (fun j => nth j h 0)) by auto. unfold sp. apply dft_ext. intros j Hj. f_equal. rewrite Hy. symmetry. apply (circular y); auto. apply fft_len_ge. }
  assert (Q : forall k, (k <= n / 2)%nat -> nth k H C0 = nth k (rfft n h) C0).
  { intros k Hk'. rewrite HH by auto. rewrite nth_rfft by auto. fold (sp n h k). unfold quot. specialize (Hk k Hk'). fold (sp n s k) in Hk. destruct (Rlt_dec _ _) as [L|L].
    - rewrite Y. assert (Nz : sp n s k <> C0). { intros Z. rewrite Z in Hk. replace (Cabs C0) with 0 in Hk by (unfold Cabs, Cabs2; cbn; replace (0 * 0 + 0 * 0) with 0 by ring; now rewrite sqrt_0). assert (0 <= thresh * sqrt (INR n)) by (apply Rmult_le_pos; lra). lra. }
      assert (Nz2 : Cabs2 (sp n s k) <> 0) by (intros Z; apply Nz; now apply Cabs2_zero). unfold Cdiv. unfold Cabs2 in *. destruct (sp n s k) as [u v], (sp n h k) as [u' v']. cbn in *. apply C_eq; cbn; field; auto.
    - exfalso. apply L. apply (Rmult_lt_reg_l (sqrt (INR n))); auto. rewrite <- Rmult_assoc, Rinv_r, Rmult_1_l by lra. lra. }
  assert (R : forall j, (j < n)%nat -> nth j (irfft n H) 0 = nth j h 0).
  { intros j Hj. rewrite <- (irfft_rfft n h j Hj). rewrite (irfft_idft n H (sp n h)); auto; [rewrite (irfft_idft n (rfft n h) (sp n h)); auto|..]; try (apply (dft_hermitian n (fun j => nth j h 0))); intros k Hk'; [now apply nth_rfft|rewrite Q by auto; now apply nth_rfft]. }
  set (l := match len with Some l => l | None => Z.of_nat n end). assert (Lh : length (irfft n H) = n) by apply irfft_length. unfold upto.
  assert (LL : length (if (0 <=? l)%Z then firstn (Z.to_nat l) (irfft n H) else firstn (length (irfft n H) - Z.to_nat (- l)) (irfft n H)) = (if (0 <=? l)%Z then Nat.min (Z.to_nat l) n else n - Z.to_nat (- l))%nat).
  { destruct (0 <=? l)%Z; rewrite firstn_length, Lh; lia. }
  split.
  - rewrite LL. unfold l. destruct len as [l'|]; auto. destruct (Z.leb_spec 0 (Z.of_nat n)); lia.
  - intros t Hlt. rewrite LL in Hlt. destruct (0 <=? l)%Z; rewrite StftProofs.nth_firstn by lia; apply R; lia.
Qed.
Print Assumptions C123_deconvolve.
(** In general, at the default threshold: among all responses of the length of the transform, the
    result explains the recording best when convolved on the circle with the test signal, and it
    is the smallest that does. *)
Definition misfit (n : nat) (y s h : vec) : R := bsum n (fun j => (nth j y 0 - bsum n (fun i => nth i s 0 * nth ((j + (n - i)) mod n) h 0)) ^ 2).
Theorem C123_least_squares : forall y s r, let n := fft_len (length y) (length s) in
  deconvolve y s None 0 = Some r -> length r = n /\
  forall h, length h = n -> misfit n y s r <= misfit n y s h /\ (misfit n y s h = misfit n y s r -> vsq r <= vsq h).
Proof.
  intros y s r n E. destruct (Nat.eq_dec n 0) as [Z|Hn0]; [unfold deconvolve in E; fold n in E; rewrite Z in E; discriminate|]. assert (Hn : (0 < n)%nat) by lia.
  destruct (deconvolve_spec y s None 0 ltac:(lra) Hn) as (H & E' & HH). fold n in E', HH. rewrite E in E'. apply WienerProofs.some_inj in E'. unfold upto in E'. destruct (Z.leb_spec 0 (Z.of_nat n)); [|lia]. rewrite Nat2Z.id in E'. rewrite firstn_all2 in E' by (rewrite irfft_length; lia). subst r.
  assert (Lr : length (irfft n H) = n) by apply irfft_length. split; [exact Lr|]. intros h Lh. set (r := irfft n H) in *. pose proof (sqrt_INR_pos n Hn) as Pn. assert (Pi : 0 < INR n) by now apply lt_0_INR.
  assert (Sr : forall k, (k < n)%nat -> sp n r k = quot n y s 0 k) by (intros k Hk; apply dft_deconv; auto; apply fft_len_even).
  assert (Mf : forall h, INR n * misfit n y s h = bsum n (fun k => Cabs2 (sp n y k - sp n s k * sp n h k)%C)).
  { intros h'. unfold misfit. rewrite (bsum_ext n _ (fun j => (nth j y 0 - bsum n (fun i => nth i s 0 * nth ((j + (n - i)) mod n) h' 0)) * (nth j y 0 - bsum n (fun i => nth i s 0 * nth ((j + (n - i)) mod n) h' 0)))) by (intros; ring). rewrite <- (parseval n (fun j => nth j y 0 - bsum n (fun i => nth i s 0 * nth ((j + (n - i)) mod n) h' 0))) by auto.
    apply bsum_ext. intros k Hk. f_equal. unfold sp at 3. rewrite <- (sp_circ n s (fun j => nth j h' 0)) by auto. unfold sp, dft. rewrite <- csum_sub. apply csum_ext. intros j Hj. apply C_eq; cbn; ring. }
  assert (Nr : forall h, length h = n -> INR n * vsq h = bsum n (fun k => Cabs2 (sp n h k))).
  { intros h' L. unfold sp. rewrite (parseval n (fun j => nth j h' 0)) by auto. f_equal. unfold vsq. now apply Sum.dot_bsum. }
  assert (Cs : forall k, (k < n)%nat -> (sp n s k = C0 /\ sp n r k = C0) \/ (sp n s k <> C0 /\ (sp n s k * sp n r k)%C = sp n y k)).
  { intros k Hk. rewrite Sr by auto. unfold quot. destruct (Rlt_dec _ _) as [L|L].
    - right. assert (Nz : sp n s k <> C0). { intros Z. rewrite Z in L. replace (Cabs C0) with 0 in L; [lra|]. unfold Cabs, Cabs2. cbn. replace (0 * 0 + 0 * 0) with 0 by ring. now rewrite sqrt_0. } split; auto. rewrite <- (Cdiv_mul_r (sp n y k) (sp n s k)) at 2 by auto. ring.
    - left. split; auto. apply Cabs_0. pose proof (Cabs_pos (sp n s k)). apply Rnot_lt_le in L. assert (/ sqrt (INR n) * Cabs (sp n s k) = 0) by (apply Rle_antisym; [exact L|apply Rmult_le_pos; lra]). apply Rmult_integral in H2. destruct H2; lra. }
  assert (Pt : forall k, (k < n)%nat -> 0 <= Cabs2 (sp n y k - sp n s k * sp n h k)%C - Cabs2 (sp n y k - sp n s k * sp n r k)%C).
  { intros k Hk. destruct (Cs k Hk) as [[Z _]|[_ Z]]; [rewrite Z; replace (C0 * sp n h k)%C with (C0 * sp n r k)%C by ring; lra|]. rewrite Z. replace (sp n y k - sp n y k)%C with C0 by ring. pose proof (Cabs2_nonneg (sp n y k - sp n s k * sp n h k)%C). unfold Cabs2 at 2. cbn. lra. }
  split.
  - apply (Rmult_le_reg_l (INR n)); auto. rewrite !Mf. apply bsum_le. intros k Hk. specialize (Pt k Hk). lra.
  - intros Eq. apply (Rmult_le_reg_l (INR n)); auto. rewrite !Nr by auto. apply bsum_le. intros k Hk.
    assert (Z : bsum n (fun k => Cabs2 (sp n y k - sp n s k * sp n h k)%C - Cabs2 (sp n y k - sp n s k * sp n r k)%C) = 0) by (rewrite bsum_minus, <- !Mf, Eq; ring).
    pose proof (bsum_ge_term n _ k Hk Pt) as Q. rewrite Z in Q. cbv beta in Q. specialize (Pt k Hk). destruct (Cs k Hk) as [[_ Zr]|[Nz Er]]; [rewrite Zr; unfold Cabs2 at 1; cbn; pose proof (Cabs2_nonneg (sp n h k)); lra|].
    assert (F : Cabs2 (sp n y k - sp n s k * sp n h k)%C = 0). { rewrite Er in *. replace (sp n y k - sp n y k)%C with C0 in * by ring. unfold Cabs2 at 2 in Q. unfold Cabs2 at 2 in Pt. cbn in Q, Pt. lra. }
    apply Cabs2_zero in F. assert (Eh : (sp n s k * (sp n h k - sp n r k))%C = C0). { transitivity (sp n s k * sp n h k - sp n s k * sp n r k)%C; [ring|]. rewrite Er. transitivity (- (sp n y k - sp n s k * sp n h k))%C; [ring|]. rewrite F. ring. }
    assert (D : (sp n h k - sp n r k)%C = C0). { apply Cabs2_zero. assert (M : Cabs2 (sp n s k) * Cabs2 (sp n h k - sp n r k)%C = 0) by (rewrite <- Cabs2_mul, Eh; unfold Cabs2; cbn; ring). apply Rmult_integral in M. destruct M as [M|M]; auto. exfalso. apply Nz. now apply Cabs2_zero. }
    replace (sp n h k) with (sp n r k); [lra|]. replace (sp n h k) with (sp n r k + (sp n h k - sp n r k))%C by ring. rewrite D. ring.
Qed.
Print Assumptions C123_least_squares.
(** A test signal of mean zero: the mean of the response is lost, even without noise. *)
Theorem C123_zero_bin_refuted : exists s h y r, (forall t, nth t y 0 = convolution s h t) /\ (length s + length h <= length y + 1)%nat /\
  deconvolve y s None 0 = Some r /\ exists t, (t < length r)%nat /\ nth t r 0 <> nth t h 0.
Proof.
  set (s := [1; -1]). set (h := [1]). destruct (deconvolve_spec s s None 0 ltac:(lra) ltac:(cbn; lia)) as (H & E & HH). cbn [length s fft_len Nat.add Nat.sub Nat.even] in E, HH. set (n := 4%nat) in *.
  exists s, h, s. eexists. split; [|split; [cbn; lia|split; [exact E|]]].
  - intros [|[|[|t]]]; unfold convolution.
    + unfold s, h. cbn. ring.
    + unfold s, h. cbn. ring.
    + unfold s, h. cbn. ring.
    + rewrite (nth_overflow s) by (cbn; lia). symmetry. apply bsum_zero_ext. intros i Hi. destruct (Nat.lt_ge_cases i 2) as [L|L]; [rewrite (nth_overflow h) by (unfold h; cbn [length]; lia); ring|rewrite (nth_overflow s) by (cbn; lia); ring].
  - unfold upto. cbn [Z.leb Z.of_nat n]. rewrite firstn_all2 by (rewrite irfft_length; cbn; lia). rewrite irfft_length.
    assert (D : sp n (irfft n H) 0 = C0).
    { unfold sp. rewrite (dft_deconv n H s s 0 0) by (auto; unfold n; lia). unfold quot. destruct (Rlt_dec _ _) as [L|]; auto. exfalso. assert (Z : sp n s 0 = C0). { unfold sp, dft. rewrite (csum_ext n _ (fun j => RtoC (nth j s 0))) by (intros; rewrite Nat.mul_0_r; cbn [Z.of_nat Z.opp]; rewrite omega_0; ring). rewrite csum_RtoC. unfold s, n. apply C_eq; cbn; ring. }
      rewrite Z in L. replace (Cabs C0) with 0 in L; [lra|]. unfold Cabs, Cabs2. cbn. replace (0 * 0 + 0 * 0) with 0 by ring. now rewrite sqrt_0. }
    destruct (Classical_Prop.classic (exists t, (t < n)%nat /\ nth t (irfft n H) 0 <> nth t h 0)) as [X|X]; [exact X|]. exfalso.
    assert (A : forall t, (t < n)%nat -> nth t (irfft n H) 0 = nth t h 0). { intros t Ht. destruct (Req_EM_T (nth t (irfft n H) 0) (nth t h 0)) as [|N]; auto. exfalso. apply X. eauto. }
    assert (D2 : sp n (irfft n H) 0 = RtoC 1). { unfold sp, dft. rewrite (csum_ext n _ (fun j => RtoC (nth j h 0))) by (intros j Hj; rewrite A by auto; rewrite Nat.mul_0_r; cbn [Z.of_nat Z.opp]; rewrite omega_0; ring). rewrite csum_RtoC. unfold h, n. apply C_eq; cbn; ring. }
    rewrite D in D2. apply (f_equal fst) in D2. cbn in D2. lra.
Qed.
Print Assumptions C123_zero_bin_refuted.
Lemma Cabs_gt : forall a z, 0 <= a -> a * a < Cabs2 z -> a < Cabs z.
Proof. intros a z Ha H. unfold Cabs. rewrite <- (sqrt_square a Ha). apply sqrt_lt_1; auto; [apply Rle_0_sqr|apply Cabs2_nonneg]. Qed.
(** The test signal [2, 1] and the response [3, -1]. *)
Example C123_deconvolve_case : exists r, deconvolve [6; 1; -1] [2; 1] (Some 2%Z) (1/4) = Some r /\ length r = 2%nat /\ nth 0 r 0 = 3 /\ nth 1 r 0 = -1.
Proof.
  destruct (C123_deconvolve [6; 1; -1] [2; 1] [3; -1] (Some 2%Z) (1/4)) as (r & E & L & V); try (cbn; (lra || lia)).
  - intros [|[|[|[|t]]]]; try (unfold convolution; cbn; ring). rewrite (nth_overflow [6; 1; -1]) by (cbn; lia). symmetry. apply bsum_zero_ext. intros i Hi. destruct (Nat.lt_ge_cases i 2) as [Q|Q]; [rewrite (nth_overflow [3; -1]) by (cbn [length]; lia); ring|rewrite (nth_overflow [2; 1]) by (cbn; lia); ring].
  - intros k Hk. change (fft_len (length [6; 1; -1]) (length [2; 1])) with 4%nat in *. apply Rle_lt_trans with (1/2).
    + replace (sqrt (INR 4)) with 2; [lra|]. replace (INR 4) with (2 * 2) by (cbn; ring). rewrite sqrt_square; lra.
    + apply Cabs_gt; [lra|]. unfold dft. rewrite (csum_ext 4 _ (fun j => match j with O => RtoC 2 | 1%nat => omega 4 (- Z.of_nat k) | _ => C0 end)).
      * pose proof (omega_abs2 4 (- Z.of_nat k)) as A. pose proof (omega_re_bound 4 (- Z.of_nat k)) as B. unfold csum, bsum. cbn [seq map Rsum fold_right]. unfold Cabs2 in *. destruct (omega 4 (- Z.of_nat k)) as [u v]. cbn in *. nra.
      * intros [|[|[|[|j]]]] Hj; try lia; cbn [nth].
        -- rewrite Nat.mul_0_l. cbn [Z.of_nat Z.opp]. rewrite omega_0. apply C_eq; cbn; ring.
        -- rewrite Nat.mul_1_l. apply C_eq; cbn; ring.
        -- apply C_eq; cbn; ring.
        -- apply C_eq; cbn; ring.
  - exists r. split; [exact E|]. assert (Lr : length r = 2%nat) by (rewrite L; reflexivity). split; [exact Lr|]. split; rewrite V by lia; reflexivity.
Qed.

(** ** tdoa *)
(** Two copies of one signal, the first scaled and [a] samples late, the second [c] samples late:
    the result is [a - c] samples, on a circle of the length of the transform that starts at lag
    -(N/2 + 1). *)
Theorem C123_tdoa_wrap : forall a b c d s g phat fs, ~ silent s -> g <> 0 -> fs <> 0 ->
  let N := fft_len (a + length s + b) (c + length s + d) in let t := Z.of_nat (N / 2 + 1) in
  (phat = true -> forall k, (k <= N / 2)%nat -> dft N (fun j => RtoC (nth j s 0)) k <> C0) ->
  gcc_tdoa (SyncProps.pad a (map (Rmult g) s) b) (SyncProps.pad c s d) 1 fs phat = Some (IZR ((Z.of_nat a - Z.of_nat c + t) mod Z.of_nat N - t) / fs).
Proof.
  intros a b c d s g phat fs Hs Hg Hfs N t Hz. destruct (gcc_pad a b c d s g phat Hs Hg) as (r & E & Lr & Nr).
  { rewrite !pad_length, map_length. exact Hz. }
  set (x1 := SyncProps.pad a _ b) in *. set (x2 := SyncProps.pad c s d) in *.
  assert (Ls : (0 < length s)%nat) by (destruct (not_silent s Hs) as (n & Hn & _); lia).
  assert (EN : fft_len (length x1) (length x2) = N) by (unfold x1, x2; now rewrite !pad_length, map_length). rewrite EN in *.
  pose proof (fft_len_ge (a + length s + b) (c + length s + d)) as HN. pose proof (fft_len_even (a + length s + b) (c + length s + d)) as He. fold N in HN, He. assert (N2 : (2 <= N)%nat) by (destruct N as [|[|?]]; [lia|discriminate|lia]).
  unfold gcc_tdoa. rewrite EN. destruct (Nat.eqb_spec N 0); [lia|]. cbn [orb Nat.eqb INR]. rewrite Rmult_1_r. destruct (Req_EM_T fs 0); [contradiction|]. rewrite E. f_equal. f_equal.
  pose proof (Nat.div_mod N 2 ltac:(lia)) as Dm. pose proof (Nat.mod_upper_bound N 2 ltac:(lia)).
  set (p0 := Z.to_nat ((Z.of_nat a - Z.of_nat c + t) mod Z.of_nat N)). pose proof (Z.mod_pos_bound (Z.of_nat a - Z.of_nat c + t) (Z.of_nat N) ltac:(lia)) as B.
  assert (Hp0 : (p0 < 2 * (N / 2 + 1))%nat) by (unfold p0; lia).
  assert (Z0 : ((Z.of_nat p0 - t - (Z.of_nat a - Z.of_nat c)) mod Z.of_nat N = 0)%Z).
  { unfold p0. rewrite Z2Nat.id by lia. rewrite <- Z.sub_add_distr. rewrite Zminus_mod_idemp_l. replace (Z.of_nat a - Z.of_nat c + t - (t + (Z.of_nat a - Z.of_nat c)))%Z with 0%Z by ring. apply Z.mod_0_l. lia. }
  assert (V : forall m, (m < 2 * (N / 2 + 1))%nat -> nth m (map Rabs r) 0 = Rabs ((if phat then g / Rabs g else g) / INR N) * Rabs (G N (gw phat N s) (Z.of_nat m - t - (Z.of_nat a - Z.of_nat c)))). { intros m Hm. rewrite (nth_map_in Rabs r m 0) by lia. rewrite Nr by auto. apply Rabs_mult. }
  assert (K : 0 < Rabs ((if phat then g / Rabs g else g) / INR N)). { apply Rabs_pos_lt. apply Rmult_integral_contrapositive_currified; [|apply Rinv_neq_0_compat, not_0_INR; lia]. destruct phat; auto. apply Rmult_integral_contrapositive_currified; auto. apply Rinv_neq_0_compat. now apply Rabs_no_R0. }
  assert (G0 : G N (gw phat N s) (Z.of_nat p0 - t - (Z.of_nat a - Z.of_nat c)) = G N (gw phat N s) 0) by (rewrite <- G_mod, Z0 by lia; reflexivity).
  assert (Am : argmax (map Rabs r) = p0).
  { apply argmax_first; rewrite ?map_length, ?Lr; auto.
    - intros m Hm. rewrite !V by auto. apply Rmult_le_compat_l; [lra|]. rewrite G0. destruct (Z.eq_dec ((Z.of_nat m - t - (Z.of_nat a - Z.of_nat c)) mod Z.of_nat N) 0) as [Em|Nm]; [rewrite <- (G_mod N _ (Z.of_nat m - t - _)), Em by lia; lra|]. apply Rlt_le, gw_peak; auto. lia.
    - intros m Hm. rewrite !V by lia. apply Rmult_lt_compat_l; [lra|]. rewrite G0. apply gw_peak; auto; [lia|]. intros Em. assert (Q : ((Z.of_nat p0 - Z.of_nat m) mod Z.of_nat N = 0)%Z).
      { replace (Z.of_nat p0 - Z.of_nat m)%Z with ((Z.of_nat p0 - t - (Z.of_nat a - Z.of_nat c)) - (Z.of_nat m - t - (Z.of_nat a - Z.of_nat c)))%Z by ring. rewrite Zminus_mod, Z0, Em. reflexivity. }
      rewrite Z.mod_small in Q by (unfold p0 in *; lia). lia. }
  rewrite Am. unfold p0. rewrite !INR_IZR_INZ, <- minus_IZR. f_equal. rewrite Z2Nat.id by lia. reflexivity.
Qed.
Print Assumptions C123_tdoa_wrap.
(** So it is the delay of the first signal with respect to the second up to half the length of the
    transform, and always so for signals of the same length unless one follows the other by the
    whole length. *)
Theorem C123_tdoa : forall a b c d s g phat fs, ~ silent s -> g <> 0 -> fs <> 0 ->
  let N := fft_len (a + length s + b) (c + length s + d) in
  (phat = true -> forall k, (k <= N / 2)%nat -> dft N (fun j => RtoC (nth j s 0)) k <> C0) ->
  (- (Z.of_nat (N / 2) + 1) <= Z.of_nat a - Z.of_nat c <= Z.of_nat (N / 2) - 2)%Z \/ (a + b = c + d /\ (0 < b + c))%nat ->
  gcc_tdoa (SyncProps.pad a (map (Rmult g) s) b) (SyncProps.pad c s d) 1 fs phat = Some ((INR a - INR c) / fs).
Proof.
  intros a b c d s g phat fs Hs Hg Hfs N Hz Hr. rewrite (C123_tdoa_wrap a b c d s g phat fs Hs Hg Hfs Hz). fold N. f_equal. f_equal.
  assert (Ls : (0 < length s)%nat) by (destruct (not_silent s Hs) as (n & Hn & _); lia).
  pose proof (fft_len_ge (a + length s + b) (c + length s + d)) as HN. pose proof (fft_len_le (a + length s + b) (c + length s + d)) as HN'. pose proof (fft_len_even (a + length s + b) (c + length s + d)) as He. fold N in HN, HN', He.
  assert (Dm : (N = 2 * (N / 2))%nat). { apply Nat.even_spec in He. destruct He as [q Hq]. rewrite Hq. rewrite (Nat.mul_comm 2 q), Nat.div_mul; lia. }
  assert (R : (- (Z.of_nat (N / 2) + 1) <= Z.of_nat a - Z.of_nat c <= Z.of_nat (N / 2) - 2)%Z) by (destruct Hr as [Hr|Hr]; [exact Hr|lia]).
  rewrite Z.mod_small by lia. rewrite !INR_IZR_INZ, <- minus_IZR. f_equal. lia.
Qed.
Print Assumptions C123_tdoa.
(** With interpolation the range does not grow with the number of samples: delays up to half the
    length of the transform divided by the factor are found. *)
Theorem C123_tdoa_interp : forall a b c d s g interp fs, ~ silent s -> g <> 0 -> fs <> 0 -> (2 <= interp)%nat ->
  let N := fft_len (a + length s + b) (c + length s + d) in
  (forall k, (k <= N / 2)%nat -> dft N (fun j => RtoC (nth j s 0)) k <> C0) ->
  (- (Z.of_nat (N / 2) + 1) <= Z.of_nat interp * (Z.of_nat a - Z.of_nat c) <= Z.of_nat (N / 2))%Z ->
  gcc_tdoa (SyncProps.pad a (map (Rmult g) s) b) (SyncProps.pad c s d) interp fs true = Some ((INR a - INR c) / fs).
Proof.
  intros a b c d s g I fs Hs Hg Hfs HI N Hz Hr. destruct (gcc_interp a b c d s g I Hs Hg HI) as (r & E & Lr & Nr).
  { rewrite !pad_length, map_length. exact Hz. }
  set (x1 := SyncProps.pad a _ b) in *. set (x2 := SyncProps.pad c s d) in *.
  assert (Ls : (0 < length s)%nat) by (destruct (not_silent s Hs) as (n & Hn & _); lia).
  assert (EN : fft_len (length x1) (length x2) = N) by (unfold x1, x2; now rewrite !pad_length, map_length). rewrite EN in *.
  pose proof (fft_len_ge (a + length s + b) (c + length s + d)) as HN. pose proof (fft_len_even (a + length s + b) (c + length s + d)) as He. fold N in HN, He. assert (N2 : (2 <= N)%nat) by (destruct N as [|[|?]]; [lia|discriminate|lia]).
  assert (PI' : INR I <> 0) by (apply not_0_INR; lia).
  unfold gcc_tdoa. rewrite EN. destruct (Nat.eqb_spec N 0); [lia|]. destruct (Nat.eqb_spec I 0); [lia|]. cbn [orb]. destruct (Req_EM_T (fs * INR I) 0) as [Z|_]; [apply Rmult_integral in Z; tauto|]. rewrite E. f_equal.
  assert (Dm : (N = 2 * (N / 2))%nat). { apply Nat.even_spec in He. destruct He as [q Hq]. rewrite Hq. rewrite (Nat.mul_comm 2 q), Nat.div_mul; lia. }
  set (t := (N / 2 + 1)%nat) in *. set (p0 := Z.to_nat (Z.of_nat I * (Z.of_nat a - Z.of_nat c) + Z.of_nat t)).
  assert (Ep : (Z.of_nat p0 - Z.of_nat t - Z.of_nat I * (Z.of_nat a - Z.of_nat c) = 0)%Z) by (unfold p0, t in *; lia).
  assert (Hp0 : (p0 < 2 * t)%nat) by (unfold p0, t in *; lia).
  assert (V : forall m, (m < 2 * t)%nat -> nth m (map Rabs r) 0 = Rabs (g / Rabs g / INR (I * N)) * Rabs (GI I N (Z.of_nat m - Z.of_nat t - Z.of_nat I * (Z.of_nat a - Z.of_nat c)))). { intros m Hm. rewrite (nth_map_in Rabs r m 0) by lia. rewrite Nr by auto. apply Rabs_mult. }
  assert (K : 0 < Rabs (g / Rabs g / INR (I * N))). { apply Rabs_pos_lt. apply Rmult_integral_contrapositive_currified; [|apply Rinv_neq_0_compat, not_0_INR; nia]. apply Rmult_integral_contrapositive_currified; auto. apply Rinv_neq_0_compat. now apply Rabs_no_R0. }
  assert (Am : argmax (map Rabs r) = p0).
  { apply argmax_unique; rewrite ?map_length, ?Lr; auto. intros m Hm Hne. rewrite !V by auto. apply Rmult_lt_compat_l; [lra|]. rewrite Ep. apply Rlt_le_trans with (GI I N 0); [|apply Rle_abs]. apply GI_peak; [lia|lia|].
    set (q := (Z.of_nat m - _ - _)%Z). assert (Q0 : (q <> 0)%Z) by (unfold q in *; lia). assert (QB : (- Z.of_nat (I * N) < q < Z.of_nat (I * N))%Z). { assert (2 * N <= I * N)%nat by nia. unfold q, p0, t in *. lia. }
    destruct (Z.lt_ge_cases q 0); [replace q with (q + Z.of_nat (I * N) + -1 * Z.of_nat (I * N))%Z by ring; rewrite Z.mod_add by lia|]; rewrite Z.mod_small by lia; lia. }
  rewrite Am. replace (INR p0) with (INR I * (INR a - INR c) + INR t).
  - field. auto.
  - rewrite !INR_IZR_INZ, <- minus_IZR, <- mult_IZR, <- plus_IZR. f_equal. unfold p0, t in *. lia.
Qed.
Print Assumptions C123_tdoa_interp.
(** Whatever the signals, the result is at most (N/2 + 1) / interp samples from zero. *)
Theorem C123_tdoa_range : forall x1 x2 interp fs phat v, 0 < fs -> gcc_tdoa x1 x2 interp fs phat = Some v ->
  let N := fft_len (length x1) (length x2) in
  - (INR (N / 2 + 1) / INR interp) <= v * fs <= INR (N / 2) / INR interp.
Proof.
  intros x1 x2 I fs phat v Hfs H N. unfold gcc_tdoa in H. fold N in H. destruct (Nat.eqb_spec N 0) as [|HN]; [discriminate|]. destruct (Nat.eqb_spec I 0) as [|HI]; [discriminate|]. cbn [orb] in H.
  destruct (Req_EM_T (fs * INR I) 0) as [|Hz]; [discriminate|]. apply WienerProofs.some_inj in H. set (i := match _ with Some r => _ | None => _ end) in H. subst v. assert (PI' : 0 < INR I) by (apply lt_0_INR; lia).
  assert (Hi : (i < 2 * (N / 2 + 1))%nat).
  { unfold i. destruct (gcc x1 x2 I phat) as [r|] eqn:E; [|lia]. assert (L : (length r <= 2 * (N / 2 + 1))%nat).
    - unfold gcc in E. fold N in E. destruct (if phat then whiten (rfft N x1) else _) as [Y1|]; [|discriminate]. cbn [bind] in E. destruct (if phat then whiten (rfft N x2) else _) as [Y2|]; [|discriminate]. cbn [bind] in E. apply WienerProofs.some_inj in E. rewrite <- E. rewrite app_length, skipn_length, firstn_length. lia.
    - destruct r as [|x r]; [cbn; lia|]. pose proof (argmax_lt (map Rabs (x :: r)) ltac:(discriminate)) as A. rewrite map_length in A. lia. }
  replace ((INR i - INR (N / 2 + 1)) / (fs * INR I) * fs) with ((INR i - INR (N / 2 + 1)) / INR I) by (field; split; lra).
  assert (0 <= INR i) by apply pos_INR. assert (INR i <= 2 * INR (N / 2 + 1) - 1). { apply Rle_trans with (INR (2 * (N / 2 + 1) - 1)); [apply le_INR; lia|]. rewrite minus_INR by lia. rewrite mult_INR. cbn. lra. }
  assert (EN : INR (N / 2 + 1) = INR (N / 2) + 1) by (rewrite plus_INR; cbn; ring). unfold Rdiv. rewrite Ropp_mult_distr_l. split; apply Rmult_le_compat_r; try (apply Rlt_le, Rinv_0_lt_compat, PI'); lra.
Qed.
Print Assumptions C123_tdoa_range.
Lemma sp_one : forall N k, (0 < N)%nat -> dft N (fun j => RtoC (nth j [1] 0)) k = C1.
Proof.
  intros N k HN. unfold dft. rewrite (csum_delta N 0) by (auto; intros [|[|i]] Hi Hne; try lia; cbn; apply C_eq; cbn; ring). cbn [nth]. rewrite Nat.mul_0_l. cbn [Z.of_nat Z.opp]. rewrite omega_0. apply C_eq; cbn; ring.
Qed.
Lemma one_loud : ~ silent [1].
Proof. intros Z. specialize (Z 0%nat). cbn in Z. lra. Qed.
Lemma sp_one_nz : forall N k, (0 < N)%nat -> dft N (fun j => RtoC (nth j [1] 0)) k <> C0.
Proof. intros N k HN E. rewrite sp_one in E by auto. apply (f_equal fst) in E. cbn in E. lra. Qed.
Example C123_tdoa_case : gcc_tdoa [0; 0; -5; 0] [1; 0; 0; 0] 1 16000 true = Some (2 / 16000) /\ gcc_tdoa [0; -5; 0; 0] [1; 0; 0; 0] 3 16000 true = Some (1 / 16000).
Proof.
  split.
  - pose proof (C123_tdoa 2 1 0 3 [1] (-5) true 16000 one_loud) as H. unfold SyncProps.pad in H. cbn -[gcc_tdoa] in H. replace (-5 * 1) with (-5) in H by ring. rewrite H; [f_equal; f_equal; lra|lra|lra|intros _ k Hk; apply sp_one_nz; lia|right; lia].
  - pose proof (C123_tdoa_interp 1 2 0 3 [1] (-5) 3 16000 one_loud) as H. unfold SyncProps.pad in H. cbn -[gcc_tdoa] in H. replace (-5 * 1) with (-5) in H by ring. rewrite H; [f_equal; f_equal; lra|lra|lra|lia|intros k Hk; apply sp_one_nz; lia|lia].
Qed.
(** The documentation promises the delay of the second signal with respect to the first. *)
Theorem C123_sign_refuted : exists x1 x2 tau, (forall k, SimulateSpec.at_time x2 k = SimulateSpec.at_time x1 (k - tau)) /\ gcc_tdoa x1 x2 1 1 true = Some (IZR (- tau)) /\ (tau <> 0)%Z.
Proof.
  exists [1; 0; 0], [0; 1; 0], 1%Z. split; [|split; [|lia]].
  - intros k. unfold SimulateSpec.at_time. destruct (Z.ltb_spec k 0); destruct (Z.ltb_spec (k - 1) 0); try lia; auto.
    + replace (Z.to_nat k) with 0%nat by lia. reflexivity.
    + replace (Z.to_nat k) with (S (Z.to_nat (k - 1))) by lia. destruct (Z.to_nat (k - 1)) as [|[|[|n]]]; try reflexivity; rewrite !nth_overflow by (cbn [length]; lia); reflexivity.
  - pose proof (C123_tdoa 0 2 1 1 [1] 1 true 1 one_loud) as H. unfold SyncProps.pad in H. cbn -[gcc_tdoa] in H. replace (1 * 1) with 1 in H by ring. rewrite H; [f_equal; cbn; lra|lra|lra|intros _ k Hk; apply sp_one_nz; lia|right; lia].
Qed.
Print Assumptions C123_sign_refuted.
(** One sample at the end against one sample at the start: the lag appears twice in the array,
    and the wrong one comes first. *)
Theorem C123_last_lag_refuted : exists x1 x2 tau, length x1 = length x2 /\ (forall k, SimulateSpec.at_time x1 k = SimulateSpec.at_time x2 (k - tau)) /\ gcc_tdoa x1 x2 1 1 true = Some (-3) /\ tau = 1%Z.
Proof.
  exists [0; 1], [1; 0], 1%Z. split; [reflexivity|]. split; [|split; [|reflexivity]].
  - intros k. unfold SimulateSpec.at_time. destruct (Z.ltb_spec k 0); destruct (Z.ltb_spec (k - 1) 0); try lia; auto.
    + replace (Z.to_nat k) with 0%nat by lia. reflexivity.
    + replace (Z.to_nat k) with (S (Z.to_nat (k - 1))) by lia. destruct (Z.to_nat (k - 1)) as [|[|n]]; try reflexivity; rewrite !nth_overflow by (cbn [length]; lia); reflexivity.
  - pose proof (C123_tdoa_wrap 1 0 0 1 [1] 1 true 1 one_loud) as H. unfold SyncProps.pad in H. cbn -[gcc_tdoa] in H. replace (1 * 1) with 1 in H by ring. rewrite H; [f_equal; cbn; lra|lra|lra|intros _ k Hk; apply sp_one_nz; lia].
Qed.
Print Assumptions C123_last_lag_refuted.
(** With interpolation by 2, a delay of 4 in signals of 6 samples is out of reach. *)
Theorem C123_interp_refuted : exists x1 x2 tau, length x1 = length x2 /\ (forall k, SimulateSpec.at_time x1 k = SimulateSpec.at_time x2 (k - tau)) /\
  gcc_tdoa x1 x2 1 1 true <> gcc_tdoa x1 x2 2 1 true /\ gcc_tdoa x1 x2 2 1 true <> Some (IZR tau) /\ gcc_tdoa x1 x2 1 1 false = Some (IZR tau).
Proof.
  exists [0; 0; 0; 0; 2; 0], [2; 0; 0; 0; 0; 0], 4%Z. split; [reflexivity|].
  assert (R : gcc_tdoa [0; 0; 0; 0; 2; 0] [2; 0; 0; 0; 0; 0] 2 1 true <> Some (IZR 4)). { intros E. pose proof (C123_tdoa_range _ _ _ _ _ _ Rlt_0_1 E) as B. cbn in B. lra. }
  assert (T : ~ silent [2]) by (intros Z; specialize (Z 0%nat); cbn in Z; lra).
  assert (E : forall phat, gcc_tdoa [0; 0; 0; 0; 2; 0] [2; 0; 0; 0; 0; 0] 1 1 phat = Some (IZR 4)).
  { intros phat. pose proof (C123_tdoa 4 1 0 5 [2] 1 phat 1 T) as H. unfold SyncProps.pad in H. cbn -[gcc_tdoa] in H. replace (1 * 2) with 2 in H by ring. rewrite H; [f_equal; lra|lra|lra| |right; lia].
    intros _ k Hk Z. assert (Q : dft 12 (fun j => RtoC (nth j [1] 0)) k = C0); [|now apply sp_one_nz in Q; [|lia]]. replace (dft 12 (fun j => RtoC (nth j [1] 0)) k) with (RtoC (1/2) * dft 12 (fun j => RtoC (nth j [2] 0)) k)%C; [unfold dft in *; cbn [nth] in *; rewrite Z; ring|]. unfold dft. rewrite <- csum_scal. apply csum_ext. intros [|[|j]] _; cbn [nth]; apply C_eq; cbn; field. }
  split; [|split; [rewrite E; congruence|split; [exact R|apply E]]].
  intros k. unfold SimulateSpec.at_time. destruct (Z.ltb_spec k 0); destruct (Z.ltb_spec (k - 4) 0); try lia; auto.
  - assert (C : (Z.to_nat k = 0 \/ Z.to_nat k = 1 \/ Z.to_nat k = 2 \/ Z.to_nat k = 3)%nat) by lia. destruct C as [->|[->|[->| ->]]]; reflexivity.
  - replace (Z.to_nat k) with (4 + Z.to_nat (k - 4))%nat by lia. destruct (Z.to_nat (k - 4)) as [|[|[|[|[|[|n]]]]]]; try reflexivity; rewrite !nth_overflow by (cbn [length]; lia); reflexivity.
Qed.
Print Assumptions C123_interp_refuted.
(** A signal of mean zero is reported as shifted with respect to itself: the phase transform
    divides zero by zero. *)
Theorem C123_zero_mean_refuted : exists x, gcc_tdoa x x 1 1 true = Some (-3).
Proof.
  exists [1; -1]. unfold gcc_tdoa. change (fft_len (length [1; -1]) (length [1; -1])) with 4%nat. cbn [Nat.eqb orb]. cbn [INR]. destruct (Req_EM_T (1 * 1) 0) as [Z|_]; [lra|].
  assert (W : whiten (rfft 4 [1; -1]) = None).
  { unfold rfft. cbn [Nat.div Nat.divmod fst Nat.add seq map]. unfold whiten. cbn [mapM]. destruct (C_eq_dec _ C0) as [|N]; [reflexivity|]. exfalso. apply N. unfold dft. rewrite (csum_ext 4 _ (fun j => RtoC (nth j [1; -1] 0))) by (intros; rewrite Nat.mul_0_r; cbn [Z.of_nat Z.opp]; rewrite omega_0; ring). rewrite csum_RtoC. apply C_eq; cbn; ring. }
  unfold gcc. change (fft_len (length [1; -1]) (length [1; -1])) with 4%nat. rewrite W. cbn [bind]. f_equal. cbn. lra.
Qed.
Print Assumptions C123_zero_mean_refuted.

(** ** tdoa_loc *)
(** Times of arrival at [mics] from [x], up to a common offset. *)
Definition arrivals (x : vec) (c off : R) (mics : list vec) : vec := map (fun r => vdist x r / c + off) mics.
Lemma arrivals_in : forall x c off mics r t, In (r, t) (combine mics (arrivals x c off mics)) -> t = vdist x r / c + off.
Proof. intros x c off mics r t. induction mics as [|a mics IH]; cbn; [tauto|]. intros [E|H]; [|auto]. apply pair_equal_spec in E. destruct E as [<- <-]. reflexivity. Qed.
Lemma system_spec : forall dim mics x c off A b, c <> 0 -> Forall (fun r => length r = dim) mics -> length x = dim ->
  tdoa_system mics (arrivals x c off mics) c = Some (A, b) ->
  exists r0 r1 l, In r1 mics /\ vdist x r1 <> vdist x r0 /\ nth 0 mics [] = r0 /\ In r0 mics /\ (forall r, In r l -> In r mics /\ vdist x r <> vdist x r0) /\
    A = map (fun r => vminus (map (fun z => 2 * z / (vdist x r - vdist x r0)) (vminus r r0)) (map (fun z => 2 * z / (vdist x r1 - vdist x r0)) (vminus r1 r0))) l /\
    resid A b x = 0 /\ (forall r, In r mics -> vdist x r <> vdist x r0 -> r = r1 \/ In r l).
Proof.
  intros dim mics x c off A b Hc HF Lx H. unfold tdoa_system in H. destruct (kept mics (arrivals x c off mics)) as [k|] eqn:K; [|discriminate]. cbn [bind] in H.
  assert (K' := K). destruct (kept_spec _ _ _ K) as (_ & r0 & rest & Em & l' & -> & HP). assert (E0 : nth 0 (arrivals x c off mics) 0 = vdist x r0 / c + off) by (rewrite Em; reflexivity). rewrite E0 in *.
  destruct l' as [|[r1 t1] l]; [discriminate|]. destruct (Req_EM_T c 0); [contradiction|]. apply WienerProofs.some_inj in H. apply pair_equal_spec in H. destruct H as [HA Hb].
  assert (T : forall p, In p ((r1, t1) :: l) -> In (fst p) mics /\ c * snd p = vdist x (fst p) - vdist x r0 /\ vdist x (fst p) <> vdist x r0).
  { intros [r t] Hp. destruct (HP _ Hp) as (I1 & Nz & t' & I2 & E). cbn [fst snd] in *. split; [exact I1|]. apply arrivals_in in I2. rewrite I2 in E. assert (Q : c * t = vdist x r - vdist x r0) by (rewrite E; field; exact Hc). split; [exact Q|]. intros Z. apply Nz. apply (Rmult_eq_reg_l c); auto. rewrite Q, Z. ring. }
  destruct (T _ (or_introl eq_refl)) as (J1 & T1 & N1). cbn [fst snd] in *. assert (In r0 mics) by (rewrite Em; now left). rewrite Forall_forall in HF.
  exists r0, r1, (map fst l). split; [exact J1|]. split; [exact N1|]. split; [now rewrite Em|]. split; [assumption|]. split; [|split; [|split]].
  - intros r Hr. apply in_map_iff in Hr. destruct Hr as (p & <- & Hp). destruct (T p (or_intror Hp)) as (A1 & _ & A3). split; auto.
  - rewrite <- HA, map_map. apply map_ext_in. intros p Hp. destruct (T p (or_intror Hp)) as (_ & A2 & _). now rewrite A2, T1.
  - apply resid_zero. rewrite <- HA, <- Hb. intros q Hq. assert (In q (map (fun p => (vminus (map (fun x => 2 * x / (c * snd p)) (vminus (fst p) r0)) (map (fun x => 2 * x / (c * t1)) (vminus r1 r0)), c * t1 - c * snd p + (vnorm (fst p) ^ 2 - vnorm r0 ^ 2) / (c * snd p) - (vnorm r1 ^ 2 - vnorm r0 ^ 2) / (c * t1))) l)).
    { clear -Hq. induction l as [|p l IH]; cbn in *; [tauto|]. destruct Hq as [Hq|Hq]; auto. }
    apply in_map_iff in H0. destruct H0 as (p & <- & Hp). cbn [fst snd]. destruct (T p (or_intror Hp)) as (A1 & A2 & A3). rewrite A2, T1. rewrite (row_dot dim) by auto.
    assert (S : forall r, In r mics -> 2 * dot r x = vsq x + vnorm r ^ 2 - vdist x r ^ 2). { intros r Hr. replace (vnorm r ^ 2) with (vsq r) by (rewrite <- vnorm_sq; ring). replace (vdist x r ^ 2) with (vsq (vminus x r)) by (rewrite <- vdist_sq; ring). rewrite vsq_vminus by (rewrite (HF r Hr); auto). rewrite (dot_comm x r). ring. }
    pose proof (S _ A1) as S1. pose proof (S _ J1) as S2. pose proof (S r0 ltac:(assumption)) as S3. set (d := vdist x (fst p)) in *. set (d0 := vdist x r0) in *. set (d1 := vdist x r1) in *.
    replace (2 / (d - d0) * (dot (fst p) x - dot r0 x)) with ((vnorm (fst p) ^ 2 - vnorm r0 ^ 2 - d ^ 2 + d0 ^ 2) / (d - d0)) by (replace (vnorm (fst p) ^ 2 - vnorm r0 ^ 2 - d ^ 2 + d0 ^ 2) with (2 * dot (fst p) x - 2 * dot r0 x) by lra; field; lra).
    replace (2 / (d1 - d0) * (dot r1 x - dot r0 x)) with ((vnorm r1 ^ 2 - vnorm r0 ^ 2 - d1 ^ 2 + d0 ^ 2) / (d1 - d0)) by (replace (vnorm r1 ^ 2 - vnorm r0 ^ 2 - d1 ^ 2 + d0 ^ 2) with (2 * dot r1 x - 2 * dot r0 x) by lra; field; lra).
    field. split; lra.
  - intros r Hr Hd. unfold kept in K'. destruct (negb _); [discriminate|]. rewrite Em in K', Hr. cbn [arrivals map combine nth] in K'. apply WienerProofs.some_inj in K'. apply (f_equal (@tl _)) in K'. cbn [tl] in K'.
    assert (In (r, vdist x r / c + off - (vdist x r0 / c + off)) ((r1, t1) :: l)); [|destruct H0 as [E|H0]; [apply pair_equal_spec in E; left; symmetry; tauto|right; apply in_map_iff; eexists; split; [|exact H0]; reflexivity]].
    rewrite <- K'. apply filter_In. cbn [snd]. destruct Hr as [<-|Hr]; [contradiction|]. split.
    + clear -Hr. induction rest as [|a rest IH]; cbn in *; [tauto|]. destruct Hr as [<-|Hr]; [left; reflexivity|right; auto].
    + destruct (Req_EM_T _ 0) as [Z|]; auto. exfalso. apply Hd. apply (Rmult_eq_reg_r (/ c)); [unfold Rdiv in Z; lra|now apply Rinv_neq_0_compat].
Qed.
Lemma resid_unique : forall dim mics x c off A b y, c <> 0 -> Forall (fun r => length r = dim) mics -> length x = dim ->
  (forall v kappa, length v = dim -> (forall r, In r mics -> let r0 := nth 0 mics [] in vdist x r <> vdist x r0 -> dot (vminus r r0) v = kappa * (vdist x r - vdist x r0)) -> v = repeat 0 dim) ->
  tdoa_system mics (arrivals x c off mics) c = Some (A, b) -> length y = dim -> resid A b y = 0 -> y = x.
Proof.
  intros dim mics x c off A b loc Hc HF Lx Hr E Ll Rl. destruct (system_spec dim mics x c off A b Hc HF Lx E) as (r0 & r1 & l & J1 & N1 & E0 & J0 & Hl & EA & Rx & Cov).
  assert (HF' := HF). rewrite Forall_forall in HF'. assert (LA : length A = length b). { unfold tdoa_system in E. destruct (kept _ _) as [[|[? ?] [|[? ?] ?]]|]; try discriminate. cbn [bind] in E. destruct (Req_EM_T c 0); [discriminate|]. apply WienerProofs.some_inj, pair_equal_spec in E. destruct E as [<- <-]. now rewrite !map_length. }
  assert (D : forall a, In a A -> dot a loc = dot a x). { intros a Ha. destruct (In_nth _ _ [] Ha) as (i & Hi & Ei). assert (I : In (a, nth i b 0) (combine A b)) by (rewrite <- Ei, <- combine_nth by auto; apply nth_In; rewrite combine_length; lia). pose proof (proj1 (resid_zero A b loc) Rl _ I) as P1. pose proof (proj1 (resid_zero A b x) Rx _ I) as P2. cbn [fst snd] in P1, P2. congruence. }
  set (v := vminus loc x). assert (Lv : length v = dim) by (unfold v; rewrite vminus_length; congruence).
  assert (V : v = repeat 0 dim).
  { apply (Hr v (dot (vminus r1 r0) v / (vdist x r1 - vdist x r0)) Lv). intros r Ir r0' Hd. unfold r0' in *. rewrite E0 in *. destruct (Cov r Ir Hd) as [->|Il]; [field; lra|].
    set (a := vminus (map (fun z => 2 * z / (vdist x r - vdist x r0)) (vminus r r0)) (map (fun z => 2 * z / (vdist x r1 - vdist x r0)) (vminus r1 r0))). assert (Ia : In a A) by (rewrite EA; apply in_map_iff; exists r; split; auto).
    pose proof (D a Ia) as Da. assert (Z : dot a v = 0) by (unfold v; rewrite dot_vminus_r by congruence; lra). unfold a in Z. rewrite (row_dot dim) in Z by auto. rewrite !dot_vminus_l by (rewrite !HF' by auto; auto).
    assert (P : vdist x r - vdist x r0 <> 0) by lra. assert (P1 : vdist x r1 - vdist x r0 <> 0) by lra. apply (Rmult_eq_reg_l (2 / (vdist x r - vdist x r0))); [|apply Rmult_integral_contrapositive_currified; [lra|now apply Rinv_neq_0_compat]].
    apply Rminus_diag_uniq. rewrite <- Z. field. auto. }
  apply vec_ext; [congruence|]. intros i. assert (Q : nth i v 0 = 0) by (rewrite V; apply nth_repeat). unfold v in Q. rewrite nth_vminus in Q by congruence. lra.
Qed.
(** Exact times of arrival, not all equal, and microphones whose baselines determine the position
    together with the delays: the source is found. *)
Theorem C123_locate : forall dim mics x c off loc, c <> 0 -> Forall (fun r => length r = dim) mics -> length x = dim -> (exists r, In r mics /\ vdist x r <> vdist x (nth 0 mics [])) ->
  (forall v kappa, length v = dim -> (forall r, In r mics -> let r0 := nth 0 mics [] in vdist x r <> vdist x r0 -> dot (vminus r r0) v = kappa * (vdist x r - vdist x r0)) -> v = repeat 0 dim) ->
  tdoa_loc dim mics (map (fun r => vdist x r / c + off) mics) c loc <-> loc = x.
Proof.
  intros dim mics x c off loc Hc HF Lx (r & Ir & Hd) Hr. split.
  - intros (A & b & E & Ll & Hm). destruct (system_spec dim mics x c off A b Hc HF Lx E) as (r0 & r1 & l & _ & _ & _ & _ & _ & _ & Rx & _). destruct (Hm x Lx) as [M _]. pose proof (resid_nonneg A b loc). apply (resid_unique dim mics x c off A b loc); auto. lra.
  - intros ->. assert (X : exists A b, tdoa_system mics (arrivals x c off mics) c = Some (A, b)).
    { unfold tdoa_system, kept. unfold arrivals at 1. rewrite map_length, Nat.eqb_refl. cbn [negb]. destruct mics as [|r0 rest]; [destruct Ir|]. cbn [arrivals map combine nth bind]. set (F := filter _ _). assert (IF : In (r, vdist x r / c + off - (vdist x r0 / c + off)) F).
      { unfold F. apply filter_In. destruct Ir as [->|Ir]; [exfalso; now apply Hd|]. split; [clear -Ir; induction rest as [|a rest IH]; cbn in *; [tauto|]; destruct Ir as [<-|Ir]; [now left|right; auto]|]. cbn [snd]. destruct (Req_EM_T _ 0) as [Z|]; auto. exfalso. apply Hd. cbn [nth]. apply (Rmult_eq_reg_r (/ c)); [unfold Rdiv in Z; lra|now apply Rinv_neq_0_compat]. }
      destruct F as [|[r1 t1] F']; [destruct IF|]. destruct (Req_EM_T c 0); [contradiction|]. eauto. }
    destruct X as (A & b & E). exists A, b. split; [exact E|]. destruct (system_spec dim mics x c off A b Hc HF Lx E) as (r0 & r1 & l & _ & _ & _ & _ & _ & _ & Rx & _). split; [exact Lx|]. intros y Ly. rewrite Rx. split; [apply resid_nonneg|]. intros Ry. rewrite (resid_unique dim mics x c off A b y); auto. lra.
Qed.
Print Assumptions C123_locate.
(** A planar array, in space: whatever the delays, the component of the result along the normal of
    the plane is zero. *)
Theorem C123_planar : forall dim mics tdoa c loc v, Forall (fun r => length r = dim) mics -> length v = dim ->
  (forall r, In r mics -> dot (vminus r (nth 0 mics [])) v = 0) -> tdoa_loc dim mics tdoa c loc -> dot loc v = 0.
Proof.
  intros dim mics tdoa c loc v HF Lv Hv (A & b & E & Ll & Hm). rewrite Forall_forall in HF. unfold tdoa_system in E. destruct (kept mics tdoa) as [k|] eqn:K; [|discriminate]. cbn [bind] in E. destruct (kept_spec _ _ _ K) as (_ & r0 & rest & Em & l' & -> & HP).
  destruct l' as [|[r1 t1] l]; [discriminate|]. destruct (Req_EM_T c 0); [discriminate|]. apply WienerProofs.some_inj, pair_equal_spec in E. destruct E as [EA Eb]. rewrite Em in Hv. cbn [nth] in Hv. rewrite <- Em in Hv. assert (J0 : In r0 mics) by (rewrite Em; now left).
  assert (J1 : In r1 mics) by apply (HP _ (or_introl eq_refl)).
  assert (Z : forall a, In a A -> length a = dim /\ dot a v = 0). { intros a Ha. rewrite <- EA in Ha. apply in_map_iff in Ha. destruct Ha as (p & <- & Hp). destruct (HP p (or_intror Hp)) as (Jp & _). split; [rewrite !div_vscal, vminus_length; rewrite !vscal_length, !vminus_length; rewrite ?(HF _ Jp), ?(HF _ J0), ?(HF _ J1); auto|]. rewrite (row_dot dim) by auto. rewrite <- !dot_vminus_l by (rewrite !HF by auto; auto). rewrite !Hv by auto. ring. }
  assert (Same : forall s, resid A b (vadd loc (vscal s v)) = resid A b loc). { intros s. unfold resid. f_equal. apply map_ext_in. intros [a d] Hp. cbn [fst snd]. destruct (Z a ltac:(eapply in_combine_l; eassumption)) as [La Da]. rewrite dot_vadd_r by (rewrite vscal_length; congruence). rewrite dot_vscal_r, Da. f_equal. ring. }
  assert (M : forall s, vsq loc <= vsq loc + 2 * s * dot loc v + s * s * vsq v). { intros s. destruct (Hm (vadd loc (vscal s v))) as [_ H]; [rewrite vadd_length; rewrite ?vscal_length; congruence|]. specialize (H (Same s)). rewrite vsq_vadd in H by (rewrite vscal_length; congruence). rewrite dot_vscal_r, vsq_vscal in H. lra. }
  pose proof (vsq_nonneg v) as Pv. set (q := dot loc v) in *. set (w := vsq v) in *. destruct (Req_dec q 0) as [|N]; auto. exfalso. pose proof (M (- q / (w + 1))) as Q. assert (B : 0 < w + 1) by lra.
  assert (2 * (- q / (w + 1)) * q + - q / (w + 1) * (- q / (w + 1)) * w = - (q * q) * (w + 2) / ((w + 1) * (w + 1))) by (field; lra). assert (0 < q * q * (w + 2) / ((w + 1) * (w + 1))). { apply Rmult_lt_0_compat; [apply Rmult_lt_0_compat; [|lra]|apply Rinv_0_lt_compat, Rmult_lt_0_compat; lra]. destruct (Rdichotomy _ _ N); nra. }
  unfold Rdiv in *. lra.
Qed.
Print Assumptions C123_planar.
Lemma sqrt_is : forall a b, 0 <= b -> a = b * b -> sqrt a = b.
Proof. intros a b Hb ->. now apply sqrt_square. Qed.
Ltac dist_is v := unfold vdist, vnorm; apply sqrt_is; [lra|unfold vsq, dot, vminus; cbn; ring].
Lemma filter_delays : forall (p q r : vec * R) l, (snd p <> 0) -> (snd q <> 0) -> (snd r <> 0) -> filter (fun p => if Req_EM_T (snd p) 0 then false else true) (p :: q :: r :: l) = p :: q :: r :: filter (fun p => if Req_EM_T (snd p) 0 then false else true) l.
Proof. intros p q r l A B C. cbn [filter]. destruct (Req_EM_T (snd p) 0); [contradiction|]. destruct (Req_EM_T (snd q) 0); [contradiction|]. destruct (Req_EM_T (snd r) 0); [contradiction|]. reflexivity. Qed.
(** Four microphones in the plane, a source at (0, 12). *)
Definition mics2 : list vec := [[0; 0]; [5; 0]; [9; 12]; [0; -8]].
Example C123_locate_case : forall loc, tdoa_loc 2 mics2 (map (fun r => vdist [0; 12] r / 340 + 7) mics2) 340 loc <-> loc = [0; 12].
Proof.
  assert (D0 : vdist [0; 12] [0; 0] = 12) by dist_is 12. assert (D1 : vdist [0; 12] [5; 0] = 13) by dist_is 13. assert (D2 : vdist [0; 12] [9; 12] = 9) by dist_is 9. assert (D3 : vdist [0; 12] [0; -8] = 20) by dist_is 20.
  intros loc. apply C123_locate; [lra|repeat constructor|reflexivity|exists [5; 0]; split; [cbn; tauto|cbn [nth mics2]; rewrite D0, D1; lra]|].
  intros [|v1 [|v2 [|? ?]]] kappa Lv H; try discriminate. cbn [nth mics2] in H. pose proof (H [5; 0] ltac:(cbn; tauto)) as H1. pose proof (H [9; 12] ltac:(cbn; tauto)) as H2. pose proof (H [0; -8] ltac:(cbn; tauto)) as H3. rewrite D0, D1 in H1. rewrite D0, D2 in H2. rewrite D0, D3 in H3. unfold dot, vminus in *. cbn in H1, H2, H3. specialize (H1 ltac:(lra)). specialize (H2 ltac:(lra)). specialize (H3 ltac:(lra)). cbn. f_equal; [lra|f_equal; lra].
Qed.
Definition mics3 : list vec := [[0; 0; 0]; [5; 0; 0]; [0; 9; 0]; [-16; 0; 0]].
(** A source 12 m above the plane of four microphones on the floor is put on the floor. *)
Theorem C123_planar_refuted : exists mics x c loc, Forall (fun r => length r = 3%nat) mics /\ tdoa_loc 3 mics (map (fun r => vdist x r / c) mics) c loc /\ x = [0; 0; 12] /\ loc = [0; 0; 0].
Proof.
  exists mics3, [0; 0; 12], 1, [0; 0; 0]. split; [repeat constructor|]. split; [|split; reflexivity].
  assert (D0 : vdist [0; 0; 12] [0; 0; 0] = 12) by dist_is 12. assert (D1 : vdist [0; 0; 12] [5; 0; 0] = 13) by dist_is 13. assert (D2 : vdist [0; 0; 12] [0; 9; 0] = 15) by dist_is 15. assert (D3 : vdist [0; 0; 12] [-16; 0; 0] = 20) by dist_is 20.
  assert (N1 : vnorm [5; 0; 0] = 5) by dist_is 5. assert (N2 : vnorm [0; 9; 0] = 9) by dist_is 9. assert (N3 : vnorm [-16; 0; 0] = 16) by dist_is 16. assert (N0 : vnorm [0; 0; 0] = 0) by dist_is 0.
  unfold tdoa_loc. unfold tdoa_system, kept, mics3. cbn [map length Nat.eqb negb nth combine]. rewrite D0, D1, D2, D3. rewrite filter_delays by (cbn [snd]; lra). cbn [filter bind]. destruct (Req_EM_T 1 0); [lra|]. do 2 eexists. split; [reflexivity|]. cbn [map fst snd]. rewrite N0, N1, N2, N3. split; [reflexivity|]. intros [|y1 [|y2 [|y3 [|? ?]]]] Ly; try discriminate.
  assert (Z : forall A b, resid A b [0; 0; 0] = 0 -> resid A b [0; 0; 0] <= resid A b [y1; y2; y3]) by (intros A b Z; rewrite Z; apply resid_nonneg). split.
  - apply Z. unfold resid, dot, vminus. cbn. field.
  - intros _. unfold vsq, dot. cbn. nra.
Qed.
Print Assumptions C123_planar_refuted.
(** A source at the same distance from all microphones: no delay is left, and an exception. *)
Theorem C123_equidistant_refuted : exists mics x c, (forall loc, ~ tdoa_loc 2 mics (map (fun r => vdist x r / c) mics) c loc) /\ c = 340 /\
  (forall v, length v = 2%nat -> (forall r, In r mics -> dot (vminus r (nth 0 mics [])) v = 0) -> v = [0; 0]).
Proof.
  exists [[1; 0]; [0; 1]; [-1; 0]; [0; -1]], [0; 0], 340. split; [|split; [reflexivity|]].
  - intros loc (A & b & E & _). assert (D : forall r, In r [[1; 0]; [0; 1]; [-1; 0]; [0; -1]] -> vdist [0; 0] r = 1) by (intros r [<-|[<-|[<-|[<-|[]]]]]; dist_is 1).
    unfold tdoa_system, kept in E. cbn [map length Nat.eqb negb nth combine] in E. rewrite !D in E by (cbn; tauto). cbn [filter snd] in E. destruct (Req_EM_T (1 / 340 - 1 / 340) 0) as [_|N]; [|apply N; ring]. cbn [bind] in E. discriminate.
  - intros [|v1 [|v2 [|? ?]]] Lv H; try discriminate. pose proof (H [0; 1] ltac:(cbn; tauto)) as H1. pose proof (H [-1; 0] ltac:(cbn; tauto)) as H2. unfold dot, vminus in *. cbn in H1, H2. f_equal; [lra|f_equal; lra].
Qed.
Print Assumptions C123_equidistant_refuted.
