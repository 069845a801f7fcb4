(** C63 and the first part of C65: correlations. *)
From Coq Require Import List ZArith Lia Reals Lra Bool.
From Verif Require Import Base BaseProofs Vec Sum Cpx DftModel DftProofs SimulateModel SimulateSpec SimulateProofs SyncModel UtilModel UtilProps LevinsonProps BandsProps.
Import ListNotations.
Local Open Scope R_scope.

(** The cross-correlation at a lag: sum of x1(n + lag) x2(n), signals being zero outside their samples. *)
Definition xcorr (x1 x2 : vec) (lag : Z) : R := bsum (length x2) (fun n => at_time x1 (Z.of_nat n + lag) * nth n x2 0).

Lemma mod_small' : forall a n, (a < n)%nat -> (a mod n)%nat = a. Proof. intros. now apply Nat.mod_small. Qed.
Lemma mod_once : forall a n, (n <= a < 2 * n)%nat -> (a mod n)%nat = (a - n)%nat.
Proof. intros a n H. replace a with (a - n + 1 * n)%nat at 1 by lia. rewrite Nat.mod_add by lia. apply Nat.mod_small. lia. Qed.
(** Multiplying by the conjugate spectrum is circular correlation. *)
Lemma irfft_corr : forall n x y Z j, (j < n)%nat ->
  (forall k, (k <= n / 2)%nat -> nth k Z C0 = (nth k (rfft n x) C0 * Conj (nth k (rfft n y) C0))%C) ->
  nth j (irfft n Z) 0 = bsum n (fun i => nth ((i + j) mod n) x 0 * nth i y 0).
Proof.
  intros n x y Z j Hj HZ. set (y' := map (fun i => nth ((n - i) mod n) y 0) (seq 0 n)).
  assert (Ny : forall i, (i < n)%nat -> nth i y' 0 = nth ((n - i) mod n) y 0) by (intros i Hi; unfold y'; now rewrite nth_map_seq).
  assert (Hk : forall k, (k <= n / 2)%nat -> nth k (rfft n y') C0 = Conj (nth k (rfft n y) C0)).
  { intros k Hk. rewrite !nth_rfft by auto. unfold dft. rewrite csum_conj. apply csum_perm with (s := fun i => ((n - i) mod n)%nat) (t := fun i => ((n - i) mod n)%nat).
    - intros i Hi. destruct (Nat.eq_dec i 0) as [->|]; [rewrite Nat.sub_0_r, Nat.mod_same, Nat.sub_0_r, Nat.mod_same by lia; lia|]. rewrite !(Nat.mod_small (n - i)) by lia. split; [lia|]. rewrite Nat.mod_small by lia. lia.
    - intros i Hi. destruct (Nat.eq_dec i 0) as [->|]; [rewrite Nat.sub_0_r, Nat.mod_same, Nat.sub_0_r, Nat.mod_same by lia; lia|]. rewrite !(Nat.mod_small (n - i)) by lia. split; [lia|]. rewrite Nat.mod_small by lia. lia.
    - intros i Hi. rewrite Ny by auto. rewrite Conj_mul, Conj_RtoC. f_equal. rewrite <- omega_opp. destruct (Nat.eq_dec i 0) as [->|]; [rewrite Nat.sub_0_r, Nat.mod_same by lia; reflexivity|]. rewrite Nat.mod_small by lia. rewrite <- (omega_cycle n (- Z.of_nat (i * k)) (Z.of_nat k)) by lia. f_equal. nia. }
  rewrite (irfft_product n x y' Z j Hj) by (intros k Hle; now rewrite HZ, Hk). rewrite <- (bsum_mod n j (fun i => nth i x 0 * nth ((j + (n - i)) mod n) y' 0)) by lia.
  apply bsum_ext. intros i Hi. f_equal. set (u := ((i + j) mod n)%nat). assert (Hu : (u < n)%nat) by (apply Nat.mod_upper_bound; lia). rewrite Ny by (apply Nat.mod_upper_bound; lia). f_equal.
  unfold u in *. destruct (Nat.lt_ge_cases (i + j) n) as [H|H].
  - rewrite (Nat.mod_small (i + j)) by auto. destruct (Nat.eq_dec i 0) as [->|]; [rewrite (mod_once (j + (n - (0 + j)))) by lia; replace (n - (j + (n - (0 + j)) - n))%nat with n by lia; now rewrite Nat.mod_same by lia|]. rewrite (Nat.mod_small (j + (n - (i + j)))) by lia. rewrite Nat.mod_small by lia. lia.
  - rewrite (mod_once (i + j)) by lia. destruct (Nat.eq_dec i 0) as [->|]; [lia|]. rewrite (mod_once (j + (n - (i + j - n)))) by lia. rewrite Nat.mod_small by lia. lia.
Qed.
Lemma at_time_nat : forall x n, at_time x (Z.of_nat n) = nth n x 0.
Proof. intros. unfold at_time. destruct (Z.ltb_spec (Z.of_nat n) 0); [lia|]. now rewrite Nat2Z.id. Qed.
(** The inverse transform inside [correlate]: lag j, wrapped at the transform length. *)
Lemma corr_fft : forall x1 x2 j, x1 <> [] -> x2 <> [] -> let N := (length x1 + length x2 - 1)%nat in (j < N)%nat ->
  nth j (irfft N (map2 (fun a b => (a * Conj b)%C) (rfft N x1) (rfft N x2))) 0 = xcorr x1 x2 (if (j <? length x1)%nat then Z.of_nat j else (Z.of_nat j - Z.of_nat N)%Z).
Proof.
  intros x1 x2 j H1 H2 N Hj. assert (L1 : (0 < length x1)%nat) by (destruct x1; [congruence|cbn; lia]). assert (L2 : (0 < length x2)%nat) by (destruct x2; [congruence|cbn; lia]).
  rewrite (irfft_corr N x1 x2) by (auto; intros k Hk; rewrite (map2_nth _ _ _ _ C0 C0); auto; rewrite !rfft_length; auto; lia).
  rewrite bsum_trunc with (n := length x2) by (try (intros i Hi; rewrite (nth_overflow x2) by lia; ring); unfold N; lia). unfold xcorr. apply bsum_ext. intros i Hi. f_equal. destruct (Nat.ltb_spec j (length x1)) as [H|H].
  - rewrite Nat.mod_small by (unfold N in *; lia). rewrite <- Nat2Z.inj_add. now rewrite at_time_nat.
  - destruct (Nat.lt_ge_cases (i + j) N) as [Hs|Hs].
    + rewrite Nat.mod_small by auto. rewrite nth_overflow by lia. unfold at_time. destruct (Z.ltb_spec (Z.of_nat i + (Z.of_nat j - Z.of_nat N)) 0); [auto|lia].
    + rewrite mod_once by (unfold N in *; lia). replace (Z.of_nat i + (Z.of_nat j - Z.of_nat N))%Z with (Z.of_nat (i + j - N)) by lia. now rewrite at_time_nat.
Qed.
(** Full cross-correlation, from the most negative to the most positive lag. *)
Theorem C65_correlate : forall x1 x2, x1 <> [] -> (2 <= length x2)%nat -> exists r, correlate x1 x2 1 false = Some r /\ length r = (length x1 + length x2 - 1)%nat /\
  forall p, (p < length r)%nat -> nth p r 0 = xcorr x1 x2 (Z.of_nat p - (Z.of_nat (length x2) - 1)).
Proof.
  intros x1 x2 H1 H2. assert (L1 : (0 < length x1)%nat) by (destruct x1; [congruence|cbn; lia]). unfold correlate. cbn [bind]. set (N := (length x1 + length x2 - 1)%nat). rewrite Nat.mul_1_r, !Nat.mul_1_l. destruct (Nat.eqb_spec (length x2 - 1) 0); [lia|]. set (out := irfft N _). assert (Lo : length out = N) by apply irfft_length. assert (Q := fun j => corr_fft x1 x2 j H1 ltac:(destruct x2; [cbn in H2; lia|congruence])). cbv zeta in Q. fold N in Q. fold out in Q.
  eexists. split; [reflexivity|]. assert (Lr : length (skipn (length out - (length x2 - 1)) out ++ firstn (length x1) out) = N) by (rewrite app_length, skipn_length, firstn_length; unfold N in *; lia). split; [exact Lr|]. rewrite Lr. intros p Hp. rewrite Lo. assert (Ls : length (skipn (N - (length x2 - 1)) out) = (length x2 - 1)%nat) by (rewrite skipn_length; unfold N in *; lia). destruct (Nat.lt_ge_cases p (length x2 - 1)) as [H|H].
  - rewrite app_nth1 by lia. rewrite StftProofs.nth_skipn. rewrite Q by lia. destruct (Nat.ltb_spec (N - (length x2 - 1) + p) (length x1)); [unfold N in *; lia|]. f_equal. lia.
  - rewrite app_nth2 by lia. rewrite StftProofs.nth_firstn by (unfold N in *; lia). rewrite Ls, Q by (unfold N in *; lia). destruct (Nat.ltb_spec (p - (length x2 - 1)) (length x1)); [|unfold N in *; lia]. f_equal. lia.
Qed.
Print Assumptions C65_correlate.
Example C65_correlate_case : xcorr [1; 2; 3] [4; 5] (-1) = 5 /\ xcorr [1; 2; 3] [4; 5] 0 = 14 /\ xcorr [1; 2; 3] [4; 5] 2 = 12 /\ exists r, correlate [1; 2; 3] [4; 5] 1 false = Some r /\ length r = 4%nat.
Proof. split; [cbv -[Rplus Rmult IZR]; lra|]. split; [cbv -[Rplus Rmult IZR]; lra|]. split; [cbv -[Rplus Rmult IZR]; lra|]. destruct (C65_correlate [1; 2; 3] [4; 5]) as (r & E & L & _); [congruence|cbn; lia|]. eauto. Qed.
(** A second signal of one sample: the whole array is returned, followed by a copy of itself. *)
Theorem C65_single_sample_refuted : exists x1 x2 r, x1 <> [] /\ x2 <> [] /\ correlate x1 x2 1 false = Some r /\ length r <> (length x1 + length x2 - 1)%nat.
Proof.
  exists [1; 2], [1]. eexists. split; [congruence|]. split; [congruence|]. split; [reflexivity|]. rewrite app_length, firstn_length. rewrite irfft_length. cbn. lia.
Qed.
Print Assumptions C65_single_sample_refuted.

(** ** C63 *)
(** The autocorrelation sum of a signal at lag m. *)
Definition acsum (x : vec) (m : nat) : R := bsum (length x) (fun n => nth n x 0 * nth (n + m) x 0).
Lemma xcorr_acsum : forall x m, xcorr x x (Z.of_nat m) = acsum x m.
Proof. intros. unfold xcorr, acsum. apply bsum_ext. intros n Hn. rewrite <- Nat2Z.inj_add, at_time_nat. ring. Qed.
Lemma ac_raw : forall x p m, (p < length x)%nat -> autocorr_raw x p m = Some (map (acsum x) (seq 0 (p + 1))).
Proof.
  intros x p m Hp. assert (Hx : x <> []) by (destruct x; [cbn in Hp; lia|congruence]). destruct m; cbn [autocorr_raw].
  - match goal with |- match x with nil => None | cons _ _ => ?X end = _ => transitivity X; [destruct x; [congruence|reflexivity]|] end. f_equal. rewrite rfft_length. replace (2 * length x / 2)%nat with (length x) by (rewrite Nat.mul_comm, Nat.div_mul; lia). replace (2 * (length x + 1 - 1))%nat with (2 * length x)%nat by lia. set (n := (2 * length x)%nat). set (X := rfft n (x ++ repeat 0 (length x))).
    assert (E0 : forall k, nth k (x ++ repeat 0 (length x)) 0 = nth k x 0). { intros k. destruct (Nat.lt_ge_cases k (length x)); [now rewrite app_nth1|]. rewrite app_nth2 by auto. rewrite nth_repeat. now rewrite nth_overflow. }
    apply StftProofs.list_eq; [rewrite firstn_length, irfft_length, map_length, seq_length; unfold n; lia|]. intros j Hj. rewrite firstn_length, irfft_length in Hj. rewrite StftProofs.nth_firstn by lia. rewrite nth_map_seq by lia. rewrite (irfft_corr n (x ++ repeat 0 (length x)) (x ++ repeat 0 (length x))).
    + unfold acsum. rewrite bsum_trunc with (n := length x); [|unfold n; lia|intros i Hi; rewrite (E0 i), (nth_overflow x) by lia; ring]. apply bsum_ext. intros i Hi. rewrite Nat.mod_small by (unfold n; lia). rewrite !E0. ring.
    + lia.
    + intros k Hk. fold X. replace C0 with ((fun z => (z * Conj z)%C) C0) at 1 by (apply C_eq; cbn; ring). apply (map_nth (fun z => (z * Conj z)%C)).
  - assert (E : forall k, In k (seq 0 (p + 1)) -> np_dot (pyfirst x (Z.of_nat (length x) - Z.of_nat k)) (skipn k x) = Some (acsum x k)).
    { intros k Hk. apply in_seq in Hk. unfold pyfirst, slice_bound. destruct (Z.ltb_spec (Z.of_nat (length x) - Z.of_nat k) 0); [lia|]. replace (Nat.min (Z.to_nat (Z.of_nat (length x) - Z.of_nat k)) (length x)) with (length x - k)%nat by lia.
      assert (La : length (firstn (length x - k) x) = (length x - k)%nat) by (rewrite firstn_length; lia). assert (Lb : length (skipn k x) = (length x - k)%nat) by apply skipn_length. unfold np_dot. rewrite La, Lb, Nat.eqb_refl. f_equal. rewrite dot_sum by lia. rewrite La. unfold acsum. rewrite (bsum_trunc (length x - k) (length x)) by (try lia; intros i Hi; replace (nth (i + k) x 0) with 0 by (symmetry; apply nth_overflow; lia); ring). apply bsum_ext. intros i Hi. rewrite StftProofs.nth_firstn by auto. rewrite StftProofs.nth_skipn. do 2 f_equal. lia. }
    rewrite (mapM_ext_in _ (fun k => Some (acsum x k))) by auto. apply mapM_total.
  - unfold np_correlate. match goal with |- bind ?A _ = _ => match A with context [map ?F (seq 0 ?M)] => replace A with (Some (map F (seq 0 M))) by (destruct x; [congruence|reflexivity]) end end. cbn [bind]. f_equal. apply StftProofs.list_eq; [rewrite firstn_length, skipn_length, !map_length, !seq_length; lia|]. intros j Hj. rewrite firstn_length, skipn_length, map_length, seq_length in Hj. rewrite StftProofs.nth_firstn by lia. rewrite StftProofs.nth_skipn. rewrite !nth_map_seq by lia. unfold acsum. apply bsum_ext. intros i Hi. destruct (Nat.leb_spec (length x - 1) (i + (length x - 1 + j))); [|lia]. replace (i + (length x - 1 + j) - (length x - 1))%nat with (i + j)%nat by lia. ring.
  - destruct (Nat.eq_dec (length x) 1) as [E1|E1].
    + destruct x as [|a [|]]; try discriminate. cbn [length] in Hp. replace p with 0%nat by lia. unfold correlate. cbn [bind length]. set (out := irfft _ _). assert (Lo : length out = 1%nat) by apply irfft_length. cbn [Nat.sub Nat.mul Nat.add Nat.eqb skipn]. f_equal. destruct out as [|o [|]] eqn:Eo; try discriminate. cbn [firstn app seq map]. f_equal. transitivity (nth 0 out 0); [now rewrite Eo|]. unfold out. rewrite Nat.mul_1_r. pose proof (corr_fft [a] [a] 0 ltac:(congruence) ltac:(congruence) ltac:(cbn; lia)) as Q. cbv zeta in Q. cbn [length] in Q. rewrite Q. cbn [Nat.ltb Nat.leb]. apply (xcorr_acsum [a] 0).
    + destruct (C65_correlate x x Hx) as (r & E & Lr & Nr); [lia|]. rewrite E. cbn [bind]. f_equal. apply StftProofs.list_eq; [rewrite firstn_length, skipn_length, map_length, seq_length; lia|]. intros j Hj. rewrite firstn_length, skipn_length in Hj. rewrite StftProofs.nth_firstn by lia. rewrite StftProofs.nth_skipn. rewrite nth_map_seq by lia. rewrite Nr by lia. rewrite <- xcorr_acsum. f_equal. lia.
Qed.
(** For lags shorter than the signal every method returns the autocorrelation sums, divided by the length
    or by the number of terms. *)
Theorem C63_autocorr : forall x p biased m, (p < length x)%nat ->
  autocorr x p biased m = Some (map (fun k => acsum x k / INR (if biased then length x else length x - k)) (seq 0 (p + 1))).
Proof.
  intros x p biased m Hp. unfold autocorr. destruct (Nat.eqb_spec (length x) 0); [lia|]. rewrite ac_raw by auto. cbn [bind]. destruct biased; [now rewrite map_map|]. destruct (Nat.leb_spec (length x) p); [lia|]. f_equal. generalize (seq 0 (p + 1)). induction l as [|k l IH]; cbn; auto. now rewrite IH.
Qed.
Print Assumptions C63_autocorr.
Example C63_case : autocorr [1; 2; 3] 1 true ac_fft = Some [14 / 3; 8 / 3] /\ autocorr [1; 2; 3] 1 false ac_pra = Some [14 / 3; 8 / 2].
Proof. rewrite !C63_autocorr by (cbn; lia). unfold acsum. cbn. split; do 2 f_equal; try f_equal; lra. Qed.
(** Longer lags with the Fourier method come out mirrored instead of zero. *)
Theorem C63_long_lag_refuted : exists x p r, autocorr x p true ac_fft = Some r /\ length r = (p + 1)%nat /\ nth p r 0 <> acsum x p / INR (length x).
Proof.
  set (X := rfft 4 ([1; 1] ++ repeat 0 2)). set (Y := irfft 4 (map (fun z => (z * Conj z)%C) X)). assert (LY : length Y = 4%nat) by apply irfft_length. exists [1; 1], 3%nat, (map (fun v => v / INR 2) (firstn 4 Y)). split; [unfold autocorr, autocorr_raw; rewrite rfft_length; reflexivity|]. split; [rewrite map_length, firstn_length; lia|].
  rewrite (nth_map_in _ _ 3 0) by (rewrite firstn_length; lia). rewrite StftProofs.nth_firstn by lia. unfold Y. rewrite (irfft_corr 4 ([1; 1] ++ repeat 0 2) ([1; 1] ++ repeat 0 2)).
  - cbn. unfold acsum. cbn. lra.
  - lia.
  - intros k Hk. fold X. replace C0 with ((fun z => (z * Conj z)%C) C0) at 1 by (apply C_eq; cbn; ring). apply (map_nth (fun z => (z * Conj z)%C)).
Qed.
Print Assumptions C63_long_lag_refuted.
