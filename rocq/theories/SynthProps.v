(** C152: the filters that give octave bands their amplitudes. *)
From Coq Require Import List ZArith Lia Reals Lra Bool Sorted.
From Verif Require Import Base BaseProofs Vec Sum Cpx DftModel DftProofs WallModel SimulateModel SimulateSpec SimulateProofs RirModel RirSpec RirProofs BandsModel BandsProps MinphaseModel MinphaseProps IsmDirModel IsmDirSpec IsmDirProps BackModel SynthModel.
Import ListNotations.
Local Open Scope R_scope.

(** The gain at bin [k]: the sum of the magnitudes of the bands times their coefficients. *)
Definition gain (rows : list vec) (coeffs : vec) (k : nat) : R :=
  Rsum (map2 (fun a row => a * nth k row 0) coeffs rows).

Lemma nth_scaled : forall a r k, nth k (map (Rmult a) r) 0 = a * nth k r 0.
Proof.
  intros a r k. destruct (Nat.lt_ge_cases k (length r)); [|rewrite !nth_overflow by (rewrite ?map_length; auto); ring].
  rewrite (nth_indep _ 0 (a * 0)) by (now rewrite map_length). apply (map_nth (Rmult a)).
Qed.
Lemma gain_rows : forall coeffs rows k, length coeffs = length rows ->
  gain rows coeffs k = Rsum (map (fun row => nth k row 0) (map2 (fun a row => map (Rmult a) row) coeffs rows)).
Proof.
  intros coeffs rows k _. unfold gain. revert rows. induction coeffs as [|a l IH]; intros [|r rows]; try reflexivity.
  cbn [map2 map]. unfold Rsum in *. cbn [fold_right]. now rewrite IH, nth_scaled.
Qed.

Lemma half_delay n : (0 < n)%nat -> ((n - 1) / 2 + (n / 2 + 1) = n)%nat.
Proof. intros Hn. pose proof (half_facts n). pose proof (half_facts (n - 1)). lia. Qed.
Lemma delay_omega n k : (0 < n)%nat -> omega n (Z.of_nat (k * (n / 2 + 1))) = omega n (- Z.of_nat (k * ((n - 1) / 2))).
Proof.
  intros Hn. rewrite <- (omega_cycle n (- Z.of_nat (k * ((n - 1) / 2))) (Z.of_nat k)) by auto. f_equal. pose proof (half_delay n Hn). nia.
Qed.

Lemma synth_ir : forall n rows coeffs t, length coeffs = length rows -> (t < n)%nat ->
  Rsum (map2 (fun a h => a * nth t h 0) coeffs (factory_filters n rows)) =
  nth t (irfft n (map (fun k => (RtoC (gain rows coeffs k) * omega n (Z.of_nat (k * (n / 2 + 1))))%C) (seq 0 (n / 2 + 1)))) 0.
Proof.
  intros n rows coeffs t E Ht. transitivity (Rsum (map (fun row => nth t (irfft n (map (fun k => RtoC (nth k row 0) * omega n (Z.of_nat (k * (n / 2 + 1))))%C (seq 0 (n / 2 + 1)))) 0) (map2 (fun a row => map (Rmult a) row) coeffs rows))).
  - unfold factory_filters. revert rows E. induction coeffs as [|a l IH]; intros [|r rows] E; try discriminate; [reflexivity|]. injection E as E. cbn [map map2]. unfold Rsum. cbn [fold_right].
    specialize (IH rows E). unfold Rsum in IH. rewrite IH. f_equal. rewrite !nth_irfft by auto.
    set (X := map (fun k => (RtoC (nth k r 0) * _)%C) _). set (Y := map (fun k => (RtoC (nth k (map (Rmult a) r) 0) * _)%C) _).
    assert (G : forall k, nth k Y C0 = Cscal a (nth k X C0)).
    { intros k. destruct (Nat.lt_ge_cases k (n / 2 + 1)) as [L|L].
      - unfold X, Y. rewrite !nth_spectrum by auto. rewrite nth_scaled. apply C_eq; cbn; ring.
      - unfold X, Y. rewrite !nth_overflow by (rewrite map_length, seq_length; auto). apply C_eq; cbn; ring. }
    rewrite !G. rewrite (bsum_ext ((n - 1) / 2) (fun k => 2 * fst (nth (k + 1) Y C0 * _)%C) (fun k => a * (2 * fst (nth (k + 1) X C0 * omega n (Z.of_nat (t * (k + 1))))%C))).
    2:{ intros k _. rewrite G. cbn. ring. }
    rewrite (bsum_scal _ a). destruct (Nat.even n); cbn [Cscal fst]; ring.
  - rewrite irfft_gains by auto. f_equal. f_equal. apply map_ext. intros k. do 2 f_equal. symmetry. now apply gain_rows.
Qed.
Lemma factory_count : forall n rows, length (factory_filters n rows) = length rows.
Proof. intros. unfold factory_filters. apply map_length. Qed.
Lemma synth_list : forall n rows coeffs, length coeffs = length rows ->
  map (fun t => Rsum (map2 (fun a h => a * nth t h 0) coeffs (factory_filters n rows))) (seq 0 n) =
  irfft n (map (fun k => (RtoC (gain rows coeffs k) * omega n (Z.of_nat (k * (n / 2 + 1))))%C) (seq 0 (n / 2 + 1))).
Proof.
  intros n rows coeffs E. apply nth_ext with (d := 0) (d' := 0); rewrite map_length, seq_length; [now rewrite irfft_length|]. intros t Ht. rewrite nth_map_seq by auto. now apply synth_ir.
Qed.
Lemma omega_real n k : (0 < n)%nat -> (2 * k = n)%nat -> snd (omega n (Z.of_nat (k * (n / 2 + 1)))) = 0.
Proof.
  intros Hn Hk. set (z := Z.of_nat (k * (n / 2 + 1))). assert (E : omega n (- z) = omega n z).
  { rewrite <- (omega_cycle n (- z) (Z.of_nat (n / 2 + 1))) by auto. f_equal. unfold z. assert (E : Z.of_nat n = (2 * Z.of_nat k)%Z) by lia. rewrite Nat2Z.inj_mul, E. ring. }
  rewrite omega_opp in E. destruct (omega n z) as [p q]. apply (f_equal snd) in E. cbn [Conj snd fst] in *. lra.
Qed.
Lemma synth_response : forall n rows coeffs k, (0 < n)%nat -> (k <= n / 2)%nat ->
  response n (irfft n (map (fun k => (RtoC (gain rows coeffs k) * omega n (Z.of_nat (k * (n / 2 + 1))))%C) (seq 0 (n / 2 + 1)))) k =
  (RtoC (gain rows coeffs k) * omega n (- Z.of_nat (k * ((n - 1) / 2))))%C.
Proof.
  intros n rows coeffs k Hn Hk. rewrite rfft_irfft_any by auto. unfold real_ends. rewrite nth_spectrum by lia. rewrite <- delay_omega by auto.
  destruct (Nat.eqb_spec k 0) as [->|H0]; cbn [orb].
  - rewrite Nat.mul_0_l. cbn [Z.of_nat]. rewrite omega_0. apply C_eq; cbn; ring.
  - destruct (Nat.eqb_spec (2 * k) n) as [H1|H1]; [|reflexivity]. pose proof (omega_real n k Hn H1) as Z. apply C_eq; [reflexivity|]. cbn [RtoC snd Cmul fst]. rewrite Z. ring.
Qed.

(** C152.  synthesis with a coefficient per band returns a filter of n_fft taps whose response is the sum
    of the magnitudes of the bands times their coefficients, delayed by (n_fft - 1) / 2 samples. *)
Theorem C152_linear : forall rows n_fft coeffs, (0 < n_fft)%nat -> length coeffs = length rows ->
  exists h, synthesis (factory_filters n_fft rows) n_fft coeffs false = Some h /\ length h = n_fft /\
  forall k, (k <= n_fft / 2)%nat -> response n_fft h k = (RtoC (gain rows coeffs k) * omega n_fft (- Z.of_nat (k * ((n_fft - 1) / 2))))%C.
Proof.
  intros rows n coeffs Hn E. unfold synthesis, band_coeffs. rewrite factory_count, E, Nat.eqb_refl. cbn [bind]. eexists. split; [reflexivity|]. rewrite synth_list by auto.
  split; [apply irfft_length|]. intros k Hk. now apply synth_response.
Qed.
Print Assumptions C152_linear.
(** C152.  A single coefficient is the same as one coefficient for each band; any other number of
    coefficients is refused. *)
Theorem C152_shapes : forall rows n_fft coeffs min_phase,
  (length coeffs <> length rows -> length coeffs <> 1%nat -> synthesis (factory_filters n_fft rows) n_fft coeffs min_phase = None) /\
  forall a, synthesis (factory_filters n_fft rows) n_fft [a] min_phase = synthesis (factory_filters n_fft rows) n_fft (repeat a (length rows)) min_phase.
Proof.
  intros rows n coeffs mp. unfold synthesis, band_coeffs. rewrite factory_count. split.
  - intros H1 H2. destruct (Nat.eqb_spec (length coeffs) (length rows)); [easy|]. destruct coeffs as [|a [|b l]]; cbn in H2; try easy.
  - intros a. rewrite repeat_length, Nat.eqb_refl. destruct (Nat.eqb_spec (length [a]) (length rows)) as [E|E]; [|reflexivity]. cbn [length] in E. now rewrite <- E.
Qed.
Print Assumptions C152_shapes.

Lemma gain_bounds : forall rows coeffs k lo hi, length coeffs = length rows ->
  (forall row, In row rows -> 0 <= nth k row 0) -> (forall a, In a coeffs -> lo <= a <= hi) ->
  lo * Rsum (map (fun row => nth k row 0) rows) <= gain rows coeffs k <= hi * Rsum (map (fun row => nth k row 0) rows).
Proof.
  intros rows coeffs k lo hi. unfold gain, Rsum. revert rows. induction coeffs as [|a l IH]; intros [|r rows] E Hr Ha; try discriminate; cbn [map2 map fold_right]; [lra|].
  injection E as E. specialize (IH rows E (fun x H => Hr x (or_intror H)) (fun x H => Ha x (or_intror H))). pose proof (Hr r (or_introl eq_refl)). pose proof (Ha a (or_introl eq_refl)). nra.
Qed.
Lemma gain_const : forall rows a k, gain rows (repeat a (length rows)) k = a * Rsum (map (fun row => nth k row 0) rows).
Proof. intros rows a k. unfold gain, Rsum. induction rows as [|r rows IH]; cbn [length repeat map2 map fold_right]; [ring|]. rewrite IH. ring. Qed.

(** C152.  With cosine bands that keep the lowest frequencies the gain at every bin is between the
    smallest and the largest coefficient (without, this holds from the first centre on), and equal
    coefficients give an impulse at sample (n_fft - 1) / 2. *)
Theorem C152_between : forall cs fs keep_dc n_fft rows coeffs lo hi k, Forall (fun c => 0 < c) cs -> StronglySorted Rlt cs ->
  cosine_response cs fs keep_dc n_fft = Some rows -> length coeffs = length cs -> (forall a, In a coeffs -> lo <= a <= hi) ->
  (k <= n_fft / 2)%nat -> keep_dc = true \/ nth 0 cs 0 <= bin_freq fs n_fft k -> lo <= gain rows coeffs k <= hi.
Proof.
  intros cs fs keep n rows coeffs lo hi k Hp Hs Hr Hc Ha Hk Hd. destruct (C54_sum cs fs keep n rows k Hp Hs Hk Hr) as (L & B & S1). specialize (S1 Hd).
  pose proof (gain_bounds rows coeffs k lo hi ltac:(congruence) (fun r H => proj1 (proj2 (B r H))) Ha) as G. rewrite S1 in G. lra.
Qed.
Print Assumptions C152_between.

Theorem C152_impulse : forall cs fs n_fft rows a, Forall (fun c => 0 < c) cs -> StronglySorted Rlt cs -> (0 < n_fft)%nat ->
  cosine_response cs fs true n_fft = Some rows ->
  exists h, synthesis (factory_filters n_fft rows) n_fft (repeat a (length cs)) false = Some h /\ length h = n_fft /\
  forall t, nth t h 0 = if Nat.eqb t ((n_fft - 1) / 2) then a else 0.
Proof.
  intros cs fs n rows a Hp Hs Hn Hr. assert (L : length rows = length cs) by (apply (C54_sum cs fs true n rows 0); auto; lia).
  unfold synthesis, band_coeffs. rewrite factory_count, repeat_length, L, Nat.eqb_refl. cbn [bind]. eexists. split; [reflexivity|].
  split; [now rewrite map_length, seq_length|]. intros t. pose proof (half_delay n Hn) as HD. destruct (Nat.lt_ge_cases t n) as [Ht|Ht].
  2:{ rewrite nth_overflow by (now rewrite map_length, seq_length). destruct (Nat.eqb_spec t ((n - 1) / 2)); [lia|reflexivity]. }
  rewrite synth_list by (now rewrite repeat_length). rewrite <- L. pose proof (irfft_gains n [repeat a (n / 2 + 1)] (fun k => omega n (Z.of_nat (k * (n / 2 + 1)))) t Ht) as _.
  assert (E : map (fun k => (RtoC (gain rows (repeat a (length rows)) k) * omega n (Z.of_nat (k * (n / 2 + 1))))%C) (seq 0 (n / 2 + 1)) =
              map (Cscal a) (map (fun k => (RtoC 1 * omega n (Z.of_nat (k * (n / 2 + 1))))%C) (seq 0 (n / 2 + 1)))).
  { rewrite map_map. apply map_ext_in. intros k Hk. apply in_seq in Hk. rewrite gain_const. destruct (C54_sum cs fs true n rows k Hp Hs ltac:(lia) Hr) as (_ & _ & S1). rewrite S1 by auto. apply C_eq; cbn; ring. }
  rewrite E. rewrite nth_irfft by auto. set (X := map (fun k => (RtoC 1 * _)%C) _).
  assert (G : forall k, nth k (map (Cscal a) X) C0 = Cscal a (nth k X C0)).
  { intros k. assert (Z : Cscal a C0 = C0) by (apply C_eq; cbn; ring). rewrite <- Z at 1. apply map_nth. }
  rewrite !G. rewrite (bsum_ext ((n - 1) / 2) (fun k => 2 * fst (nth (k + 1) (map (Cscal a) X) C0 * _)%C) (fun k => a * (2 * fst (nth (k + 1) X C0 * omega n (Z.of_nat (t * (k + 1))))%C))).
  2:{ intros k _. rewrite G. cbn. ring. }
  rewrite (bsum_scal _ a). transitivity (a * nth t (irfft n X) 0).
  - rewrite nth_irfft by auto. destruct (Nat.even n); cbn [Cscal fst]; ring.
  - unfold X. rewrite irfft_delay by auto. destruct (Nat.eqb t ((n - 1) / 2)); ring.
Qed.
Print Assumptions C152_impulse.

(** ** Minimum phase *)
Lemma Cabs_gain n r z : Cabs (RtoC r * omega n z)%C = Rabs r.
Proof.
  unfold Cabs. assert (E : Cabs2 (RtoC r * omega n z)%C = Rsqr r). { transitivity (Rsqr r * Cabs2 (omega n z)); [unfold Cabs2, Rsqr; cbn; ring|]. rewrite omega_abs2. ring. }
  rewrite E. apply sqrt_Rsqr_abs.
Qed.
Lemma rfft_mag n (h : vec) (g : nat -> R) : (forall k, (k <= n / 2)%nat -> Cabs (response n h k) = g k) -> forall k, (k <= n / 2)%nat -> nth k (map Cabs (rfft n h)) 0 = g k.
Proof.
  intros H k Hk. rewrite (nth_indep _ 0 (Cabs C0)) by (rewrite map_length, rfft_length; lia). rewrite map_nth, nth_rfft by auto. now apply H.
Qed.
Lemma min_call n (h : vec) (g : nat -> R) eps : (0 < n)%nat -> 0 < eps -> (forall k, (k <= n / 2)%nat -> Cabs (response n h k) = g k) ->
  exists h', minimum_phase (map Cabs (rfft n h)) n eps = Some h' /\ length h' = n /\
    (forall k, (2 * k < n)%nat -> Cabs (response n h' k) = Rmax (g k) eps) /\ bsum n (fun t => nth t h' 0) = Rmax (g 0%nat) eps.
Proof.
  intros Hn He Hg. set (m := map Cabs (rfft n h)). assert (Lm : length m = (n / 2 + 1)%nat) by (unfold m; now rewrite map_length, rfft_length).
  assert (Hm : m <> []) by (intros Z; rewrite Z in Lm; cbn in Lm; lia). pose proof (rfft_mag n h g Hg) as G. fold m in G.
  destruct (minimum_phase m n eps) as [h'|] eqn:E.
  - exists h'. split; [reflexivity|]. destruct (C130_magnitude m n eps h' Hm E) as (A & B & D). split; [exact A|]. pose proof (half_facts n). split.
    + intros k Hk. rewrite B by auto. unfold target. rewrite G by lia. reflexivity.
    + rewrite D. unfold target. rewrite G by lia. reflexivity.
  - exfalso. assert (D : minimum_phase m n eps <> None); [|congruence]. apply C130_defined; auto. split; [lia|]. split; [lia|]. intros k _. unfold target. eapply Rlt_le_trans; [exact He|apply Rmax_r].
Qed.

(** C152.  With minimum phase the filter has the same magnitudes, not less than 1e-7, below half the
    sampling frequency. *)
Theorem C152_minimum_phase : forall rows n_fft coeffs, (0 < n_fft)%nat -> length coeffs = length rows ->
  exists h, synthesis (factory_filters n_fft rows) n_fft coeffs true = Some h /\ length h = n_fft /\
  (forall k, (2 * k < n_fft)%nat -> Cabs (response n_fft h k) = Rmax (Rabs (gain rows coeffs k)) (1 / 10000000)) /\
  Rsum h = Rmax (Rabs (gain rows coeffs 0)) (1 / 10000000).
Proof.
  intros rows n coeffs Hn E. unfold synthesis, band_coeffs. rewrite factory_count, E, Nat.eqb_refl. cbn [bind]. rewrite synth_list by auto.
  destruct (min_call n (irfft n (map (fun k => (RtoC (gain rows coeffs k) * omega n (Z.of_nat (k * (n / 2 + 1))))%C) (seq 0 (n / 2 + 1)))) (fun k => Rabs (gain rows coeffs k)) (1 / 10000000)) as (h & A & B & D & F); auto; [lra| |].
  - intros k Hk. rewrite synth_response by auto. apply Cabs_gain.
  - exists h. repeat split; auto. rewrite <- F, <- B. clear. unfold Rsum. induction h as [|x l IH]; [reflexivity|]. cbn [length fold_right]. rewrite IH. rewrite bsum_shift. reflexivity.
Qed.
Print Assumptions C152_minimum_phase.

(** C152.  Octave bands: at the centre of a band the gain is the coefficient of that band. *)
Lemma rows_nonneg : forall rows k, (forall row, In row rows -> 0 <= nth k row 0) -> 0 <= Rsum (map (fun row => nth k row 0) rows).
Proof.
  intros rows k. unfold Rsum. induction rows as [|r rows IH]; intros H; cbn [map fold_right]; [lra|]. pose proof (H r (or_introl eq_refl)). specialize (IH (fun x Hx => H x (or_intror Hx))). lra.
Qed.
Lemma rows_member : forall rows k b, (forall row, In row rows -> 0 <= nth k row 0) -> (b < length rows)%nat -> nth k (nth b rows []) 0 <= Rsum (map (fun row => nth k row 0) rows).
Proof.
  induction rows as [|r rows IH]; intros k b H Hb; [cbn in Hb; lia|]. unfold Rsum. cbn [map fold_right]. fold (Rsum (map (fun row => nth k row 0) rows)).
  pose proof (H r (or_introl eq_refl)). assert (H' : forall row, In row rows -> 0 <= nth k row 0) by (intros; apply H; now right). destruct b as [|b]; cbn [nth].
  - pose proof (rows_nonneg rows k H'). lra.
  - specialize (IH k b H' ltac:(cbn in Hb; lia)). lra.
Qed.
Lemma gain_none : forall rows coeffs k, (forall row, In row rows -> 0 <= nth k row 0) -> Rsum (map (fun row => nth k row 0) rows) = 0 -> gain rows coeffs k = 0.
Proof.
  intros rows coeffs k. unfold gain. revert coeffs. induction rows as [|r rows IH]; intros [|a l] H S0; try reflexivity. unfold Rsum in *. cbn [map map2 fold_right] in *.
  assert (H' : forall row, In row rows -> 0 <= nth k row 0) by (intros; apply H; now right). pose proof (rows_nonneg rows k H') as N. unfold Rsum in N. pose proof (H r (or_introl eq_refl)).
  rewrite IH by (auto; lra). replace (nth k r 0) with 0 by lra. ring.
Qed.
Lemma gain_single : forall rows coeffs k b, length coeffs = length rows -> (forall row, In row rows -> 0 <= nth k row 0) -> (b < length rows)%nat ->
  Rsum (map (fun row => nth k row 0) rows) = nth k (nth b rows []) 0 -> gain rows coeffs k = nth b coeffs 0 * nth k (nth b rows []) 0.
Proof.
  induction rows as [|r rows IH]; intros [|a l] k b E H Hb S0; try discriminate; [cbn in Hb; lia|]. injection E as E. assert (H' : forall row, In row rows -> 0 <= nth k row 0) by (intros; apply H; now right).
  unfold gain, Rsum in *. cbn [map map2 fold_right] in *. fold (Rsum (map (fun row => nth k row 0) rows)) in *. fold (Rsum (map2 (fun a0 row => a0 * nth k row 0) l rows)). fold (gain rows l k). pose proof (H r (or_introl eq_refl)) as Hr. destruct b as [|b]; cbn [nth] in *.
  - rewrite gain_none; auto; lra.
  - pose proof (rows_member rows k b H' ltac:(cbn in Hb; lia)) as M. assert (Z : nth k r 0 = 0) by lra. unfold gain, Rsum. rewrite (IH l k b); auto; [|cbn in Hb; lia|unfold Rsum in *; lra]. rewrite Z. ring.
Qed.
Theorem C152_centre : forall cs fs keep_dc n_fft rows coeffs b k, Forall (fun c => 0 < c) cs -> StronglySorted Rlt cs ->
  (forall i, (i + 1 < length cs)%nat -> nth (i + 1) cs 0 = 2 * nth i cs 0) ->
  cosine_response cs fs keep_dc n_fft = Some rows -> length coeffs = length cs -> (b < length cs)%nat ->
  (k <= n_fft / 2)%nat -> bin_freq fs n_fft k = nth b cs 0 -> gain rows coeffs k = nth b coeffs 0.
Proof.
  intros cs fs keep n rows coeffs b k Hp Hs Ho Hr Hc Hb Hk Hf. destruct (C54_sum cs fs keep n rows k Hp Hs Hk Hr) as (L & B & S1).
  assert (Hn : (2 <= length cs)%nat). { unfold cosine_response in Hr. destruct (Nat.ltb_spec (length cs) 2); [discriminate|auto]. }
  assert (Hpos : 0 < nth b cs 0) by (rewrite Forall_forall in Hp; apply Hp, nth_In; auto).
  assert (M : nth k (nth b rows []) 0 = 1).
  { unfold cosine_response in Hr. destruct (Nat.ltb_spec (length cs) 2); [lia|]. destruct (forallb _ _); [|discriminate]. apply the_value in Hr. subst rows. rewrite nth_map_seq by auto. rewrite nth_map_seq by lia. fold (bin_freq fs n k). rewrite Hf.
    rewrite mag_spec by auto. destruct (Nat.eqb_spec b (length cs - 1)) as [Z|Z]; (destruct (Rle_dec (nth b cs 0) (nth b cs 0)) as [_|]; [|lra]); [reflexivity|].
    rewrite Ho by lia. destruct (Rlt_dec (nth b cs 0) (2 * nth b cs 0)); [|lra]. replace (2 * PI * nth b cs 0 / (2 * nth b cs 0)) with PI by (field; lra). rewrite cos_PI. lra. }
  assert (N : forall row, In row rows -> 0 <= nth k row 0) by (intros r Hr'; apply (proj1 (proj2 (B r Hr')))).
  assert (D : nth 0 cs 0 <= nth b cs 0).
  { clear -Hp Ho Hb. induction b as [|b IH]; [lra|]. specialize (IH ltac:(lia)). replace (S b) with (b + 1)%nat in * by lia. rewrite (Ho b) by lia. assert (0 < nth b cs 0) by (rewrite Forall_forall in Hp; apply Hp, nth_In; lia). lra. }
  rewrite (gain_single rows coeffs k b); [rewrite M; ring|congruence|auto|congruence|]. rewrite M. apply S1. right. now rewrite Hf.
Qed.
Print Assumptions C152_centre.

(** ** Minimum phase band filters *)
Lemma mapM_all : forall {A B} (f : A -> option B) (P : A -> B -> Prop) l, (forall x, In x l -> exists y, f x = Some y /\ P x y) -> exists ys, mapM f l = Some ys /\ length ys = length l /\ forall i dx dy, (i < length l)%nat -> P (nth i l dx) (nth i ys dy).
Proof.
  intros A B f P l. induction l as [|x l IH]; intros H; [exists []; repeat split; cbn; intros; lia|]. destruct (H x (or_introl eq_refl)) as (y & E & Hy). destruct IH as (ys & E2 & L & Hys); [intros; apply H; now right|].
  exists (y :: ys). cbn [mapM]. rewrite E. cbn [bind]. rewrite E2. cbn [bind]. split; [reflexivity|]. split; [cbn; lia|]. intros [|i] dx dy Hi; cbn [nth]; [exact Hy|]. apply Hys. cbn in Hi. lia.
Qed.
Lemma nth_map_lt : forall {A B} (f : A -> B) l b d d', (b < length l)%nat -> nth b (map f l) d' = f (nth b l d).
Proof. intros. rewrite (nth_indep _ d' (f d)) by (now rewrite map_length). apply map_nth. Qed.
(** C152.  With min_phase the filter of each band has the magnitudes of the band, not less than 0.02. *)
Theorem C152_filters : forall rows n_fft, (0 < n_fft)%nat ->
  exists hs, factory_filters_min n_fft rows = Some hs /\ length hs = length rows /\
  forall b, (b < length rows)%nat -> length (nth b hs []) = n_fft /\
    (forall k, (2 * k < n_fft)%nat -> Cabs (response n_fft (nth b hs []) k) = Rmax (Rabs (nth k (nth b rows []) 0)) (2 / 100)) /\
    Rsum (nth b hs []) = Rmax (Rabs (nth 0 (nth b rows []) 0)) (2 / 100).
Proof.
  intros rows n Hn. unfold factory_filters_min.
  destruct (mapM_all (fun h => minimum_phase (map Cabs (rfft n h)) n (2 / 100)) (fun h h' => length h' = n /\ (forall k, (2 * k < n)%nat -> Cabs (response n h' k) = Rmax (Cabs (response n h k)) (2 / 100)) /\ bsum n (fun t => nth t h' 0) = Rmax (Cabs (response n h 0)) (2 / 100)) (factory_filters n rows)) as (hs & E & L & H).
  - intros h _. apply (min_call n h (fun k => Cabs (response n h k))); auto. lra.
  - exists hs. rewrite factory_count in *. split; [exact E|]. split; [exact L|]. intros b Hb. destruct (H b [] [] Hb) as (A & B & D). split; [exact A|].
    assert (G : forall k, (k <= n / 2)%nat -> Cabs (response n (nth b (factory_filters n rows) []) k) = Rabs (nth k (nth b rows []) 0)).
    { intros k Hk. unfold factory_filters. rewrite (nth_map_lt _ rows b [] []) by auto.
      pose proof (synth_response n [nth b rows []] [1] k Hn Hk) as R0. assert (G1 : forall k, gain [nth b rows []] [1] k = nth k (nth b rows []) 0) by (intros; unfold gain, Rsum; cbn [map2 fold_right]; ring).
      rewrite (map_ext _ (fun k => (RtoC (nth k (nth b rows []) 0) * omega n (Z.of_nat (k * (n / 2 + 1))))%C)) in R0 by (intros; now rewrite G1). rewrite R0, G1. apply Cabs_gain. }
    pose proof (half_facts n). split.
    + intros k Hk. rewrite B by auto. rewrite G by lia. reflexivity.
    + rewrite <- G by lia. rewrite <- D, <- A. generalize (nth b hs []). clear. intros h. unfold Rsum. induction h as [|x l IH]; [reflexivity|]. cbn [length fold_right]. rewrite IH, bsum_shift. reflexivity.
Qed.
Print Assumptions C152_filters.
(** The minimum phase bands do not sum to the signal: they amplify a constant signal by 1.02. *)
Theorem C152_leak_refuted : exists cs fs n_fft rows hs, Forall (fun c => 0 < c) cs /\ StronglySorted Rlt cs /\ cosine_response cs fs true n_fft = Some rows /\
  factory_filters_min n_fft rows = Some hs /\ Rsum (map Rsum hs) = 102 / 100.
Proof.
  destruct (two_bands_defined true) as (rows & H). destruct (C152_filters rows 4 ltac:(lia)) as (hs & E & L & B). exists [1; 2], 4, 4%nat, rows, hs. assert (Hp : Forall (fun c => 0 < c) [1; 2]) by (repeat constructor; lra). assert (Hs : StronglySorted Rlt [1; 2]) by (repeat constructor; lra).
  repeat split; auto. destruct (C54_sum [1; 2] 4 true 4 rows 0 Hp Hs ltac:(lia) H) as (Lr & R1 & S1). specialize (S1 (or_introl eq_refl)). cbn [length] in Lr. rewrite Lr in *.
  destruct (B 0%nat ltac:(lia)) as (_ & _ & D0). destruct (B 1%nat ltac:(lia)) as (_ & _ & D1).
  destruct hs as [|h0 [|h1 [|]]]; cbn in L; try discriminate. cbn [map nth] in *. unfold Rsum at 1. cbn [fold_right]. rewrite D0, D1.
  assert (M0 : nth 0 (nth 0 rows []) 0 = 1).
  { clear -H Hp Hs. unfold cosine_response in H. cbn [length] in H. change ((2 <? 2)%nat) with false in H. cbn iota in H. destruct (forallb _ _); [|discriminate]. apply the_value in H. subst rows. rewrite nth_map_seq by (cbn; lia). rewrite nth_map_seq by (cbn; lia).
    rewrite mag_spec by (auto; cbn; lia). cbn [length Nat.sub Nat.eqb nth]. replace (INR 0 / INR 4 * 4) with 0 by (cbn; field). destruct (Rle_dec 1 0); [lra|reflexivity]. }
  destruct rows as [|r0 [|r1 [|]]]; cbn in Lr; try discriminate. cbn [map nth] in *. unfold Rsum in S1. cbn [fold_right] in S1. rewrite M0 in *. replace (nth 0 r1 0) with 0 by lra.
  rewrite Rabs_R1, Rabs_R0. rewrite Rmax_left, Rmax_right by lra. lra.
Qed.
Print Assumptions C152_leak_refuted.
(** Polarity is lost with minimum phase: opposite coefficients give the same filter. *)
Theorem C152_polarity_refuted : exists cs fs n_fft rows coeffs h, cosine_response cs fs true n_fft = Some rows /\ length coeffs = length cs /\
  synthesis (factory_filters n_fft rows) n_fft coeffs true = Some h /\ synthesis (factory_filters n_fft rows) n_fft (map Ropp coeffs) true = Some h /\ Rsum h = 1.
Proof.
  destruct (two_bands_defined true) as (rows & H). assert (Hp : Forall (fun c => 0 < c) [1; 2]) by (repeat constructor; lra). assert (Hs : StronglySorted Rlt [1; 2]) by (repeat constructor; lra).
  destruct (C54_sum [1; 2] 4 true 4 rows 0 Hp Hs ltac:(lia) H) as (Lr & _ & _). cbn [length] in Lr.
  destruct (C152_minimum_phase rows 4 [1; 1] ltac:(lia) ltac:(now rewrite Lr)) as (h & E & L & B & S0). exists [1; 2], 4, 4%nat, rows, [1; 1], h. repeat split; auto.
  - rewrite <- E. unfold synthesis, band_coeffs. rewrite factory_count, map_length, Lr. cbn [length Nat.eqb bind]. rewrite !synth_list by (rewrite ?map_length, Lr; reflexivity). f_equal.
    apply nth_ext with (d := 0) (d' := 0); rewrite !map_length, !rfft_length; [reflexivity|]. intros k Hk. change (4 / 2 + 1)%nat with 3%nat in Hk.
    assert (G : forall co k, (k <= 4 / 2)%nat -> nth k (map Cabs (rfft 4 (irfft 4 (map (fun k => (RtoC (gain rows co k) * omega 4 (Z.of_nat (k * (4 / 2 + 1))))%C) (seq 0 (4 / 2 + 1)))))) 0 = Rabs (gain rows co k)).
    { intros co j Hj. apply (rfft_mag 4 _ (fun k => Rabs (gain rows co k))); auto. intros i Hi. rewrite synth_response by (auto; lia). apply Cabs_gain. }
    rewrite !G by (change (4 / 2)%nat with 2%nat; lia). destruct rows as [|r0 [|r1 [|]]]; cbn in Lr; try discriminate. unfold gain, Rsum. cbn [map map2 fold_right]. rewrite <- (Rabs_Ropp (1 * _ + _)). f_equal. ring.
  - rewrite S0. change [1; 1] with (repeat 1 2). rewrite <- Lr, gain_const. destruct (C54_sum [1; 2] 4 true 4 rows 0 Hp Hs ltac:(lia) H) as (_ & _ & S1). rewrite S1 by auto. rewrite Rmult_1_r, Rabs_R1. apply Rmax_left. lra.
Qed.
Print Assumptions C152_polarity_refuted.
