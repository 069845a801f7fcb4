(** C152: octave band filters in image source responses with impulse response directivities. *)
From Coq Require Import List ZArith Lia Reals Lra Bool Sorted.
From Verif Require Import Base BaseProofs Vec Sum Cpx DftModel DftProofs WallModel SimulateModel SimulateSpec SimulateProofs RirModel RirSpec RirProofs BandsModel BandsProps MinphaseModel MinphaseProps IsmDirModel IsmDirSpec IsmDirProps SynthModel SynthProps.
Import ListNotations.
Local Open Scope R_scope.

(** The filter of [synthesis] as compute_ism_rir uses it (the number of amplitudes is that of the bands). *)
Definition band_filter (rows : list vec) (n_fft : nat) (min_phase : bool) (amps : vec) : vec :=
  match synthesis (factory_filters n_fft rows) n_fft amps min_phase with Some h => h | None => repeat 0 n_fft end.

Lemma nth_repeat_lt : forall {A} (a d : A) n i, (i < n)%nat -> nth i (repeat a n) d = a.
Proof. intros A a d n. induction n as [|n IH]; intros i Hi; [lia|]. destruct i; cbn; [reflexivity|]. apply IH. lia. Qed.
Lemma band_filter_length : forall rows n, (0 < n)%nat -> forall amps, length (band_filter rows n false amps) = n.
Proof.
  intros rows n Hn amps. unfold band_filter, synthesis. destruct (band_coeffs _ amps) as [c|]; cbn [bind]; [now rewrite map_length, seq_length|apply repeat_length].
Qed.
Lemma conv_impulse : forall y h a m i, y <> [] -> h <> [] -> (forall t, nth t h 0 = if Nat.eqb t m then a else 0) ->
  nth i (conv y h) 0 = if (m <=? i)%nat then a * nth (i - m) y 0 else 0.
Proof.
  intros y h a m i Hy Hh H. rewrite conv_nth by auto. destruct (Nat.leb_spec m i) as [L|L].
  - transitivity (bsum (length y) (fun k => if Nat.eqb k (i - m) then a * nth (i - m) y 0 else 0)).
    + rewrite bsum_Rsum. apply Rsum_map_ext. intros k Hk. unfold at_time. destruct (Z.ltb_spec (Z.of_nat i - Z.of_nat k) 0) as [C|C].
      * destruct (Nat.eqb_spec k (i - m)); [lia|ring].
      * rewrite H. destruct (Nat.eqb_spec (Z.to_nat (Z.of_nat i - Z.of_nat k)) m), (Nat.eqb_spec k (i - m)); try lia; [|ring]. subst k. ring.
    + destruct (Nat.lt_ge_cases (i - m) (length y)) as [C|C].
      * rewrite (bsum_delta (length y) (i - m)); auto; [now rewrite Nat.eqb_refl|]. intros k Hk Hne. destruct (Nat.eqb_spec k (i - m)); [easy|reflexivity].
      * rewrite bsum_zero_ext; [rewrite nth_overflow by auto; ring|]. intros k Hk. destruct (Nat.eqb_spec k (i - m)); [lia|reflexivity].
  - apply Rsum_map_zero. intros k _. unfold at_time. destruct (Z.ltb_spec (Z.of_nat i - Z.of_nat k) 0); [ring|]. rewrite H. destruct (Nat.eqb_spec (Z.to_nat (Z.of_nat i - Z.of_nat k)) m); [lia|ring].
Qed.
Lemma series_snoc : forall l h, l <> [] -> in_series (l ++ [h]) = conv (in_series l) h.
Proof. intros [|x l] h Hl; [easy|]. cbn [app in_series]. now rewrite fold_left_app. Qed.
Lemma conv_nonempty : forall a b, a <> [] -> b <> [] -> conv a b <> [].
Proof. intros a b Ha Hb E. apply (f_equal (@length R)) in E. rewrite conv_length in E by auto. destruct a, b; try easy. cbn in E. lia. Qed.
Lemma series_nonempty : forall l, (forall h, In h l -> h <> []) -> in_series l <> [].
Proof.
  intros [|x l] H; cbn [in_series]; [discriminate|]. assert (Hx : x <> []) by (apply H; now left). assert (Hl : forall h, In h l -> h <> []) by (intros; apply H; now right). clear H. revert x Hx.
  induction l as [|y l IH]; intros x Hx; cbn [fold_left]; [auto|]. apply IH; [intros; apply Hl; now right|]. apply conv_nonempty; auto. apply Hl. now left.
Qed.
Lemma started_impulse : forall F y h a m s i, y <> [] -> h <> [] -> (m <= s)%nat -> (forall t, nth t h 0 = if Nat.eqb t m then a else 0) ->
  started F (conv y h) (i + s) = a * started F y (i + (s - m)).
Proof.
  intros F y h a m s i Hy Hh Hm H. unfold started. cbv zeta. destruct (Z.ltb_spec (Z.of_nat (i + s) - F) 0) as [C|C]; destruct (Z.ltb_spec (Z.of_nat (i + (s - m)) - F) 0) as [D|D]; try lia; try ring.
  - rewrite (conv_impulse y h a m) by auto. destruct (Nat.leb_spec m (Z.to_nat (Z.of_nat (i + s) - F))); [lia|ring].
  - rewrite (conv_impulse y h a m) by auto. destruct (Nat.leb_spec m (Z.to_nat (Z.of_nat (i + s) - F))); [|lia]. do 2 f_equal. lia.
Qed.
Lemma dir_nonempty : forall d a h, well_formed d -> In h (dir_filters d a) -> h <> [].
Proof. intros [[g|nb g|nb g]|] a h W H; cbn in H; try easy. destruct H as [<-|[]]. destruct W as [W1 W2]. intros E. specialize (W2 a). rewrite E in W2. cbn in W2. lia. Qed.
Lemma row_repeat : forall (att : list R) nb b, (b < nb)%nat -> row [] (repeat att nb) b = att.
Proof. intros att [|[|nb]] b Hb; [lia|reflexivity|]. unfold row. cbn [repeat]. change (nth b (repeat att (S (S nb))) [] = att). now apply nth_repeat_lt. Qed.

(** C152.  Walls with the same attenuation in all octave bands, no air absorption, and an impulse response
    directivity: the response of the octave band simulation is that of the single band simulation,
    earlier by n_fft / 2 - (n_fft - 1) / 2 samples: one if the length of the filters is even. *)
Theorem C152_shift : forall cs band_fs n_fft rows filt synth1 n1 images att visible mic mic_dir src_dir directions c fs fdl gran threads,
  Forall (fun c => 0 < c) cs -> StronglySorted Rlt cs -> (0 < n_fft)%nat -> cosine_response cs band_fs true n_fft = Some rows ->
  length visible = length images -> length directions = length images ->
  (forall im, In im images -> length im = 3%nat) -> length mic = 3%nat -> length att = length images ->
  well_formed mic_dir -> well_formed src_dir -> has_taps mic_dir || has_taps src_dir = true ->
  (forall x, length (synth1 x) = n1) -> (0 < n1)%nat ->
  (0 < gran)%nat -> (0 < threads)%nat -> (0 < fs)%Z -> (fdl mod 2 = 1)%nat -> 0 < c ->
  (exists j, (j < length images)%nat /\ nth j visible false = true) ->
  forall bands single,
  compute_ism_rir_dir filt (band_filter rows n_fft false) n_fft false images (repeat att (length cs)) visible mic mic_dir src_dir directions None c fs fdl gran threads bands ->
  compute_ism_rir_dir filt synth1 n1 false images [att] visible mic mic_dir src_dir directions None c fs fdl gran threads single ->
  forall i, nth i bands 0 = nth (i + (n_fft / 2 - (n_fft - 1) / 2)) single 0.
Proof.
  intros cs bfs n rows filt synth1 n1 images att visible mic mic_dir src_dir directions c fs fdl gran T Hp Hs Hn Hr H1 H2 H3 H4 Ha W1 W2 HT L1 N1 Hg Ht Hfs Hfd Hc HV bands single RB RS i.
  assert (N2 : (2 <= length cs)%nat) by (unfold cosine_response in Hr; destruct (Nat.ltb_spec (length cs) 2); [discriminate|auto]).
  assert (NB : n_bands_of (repeat att (length cs)) None = length cs) by (cbn; apply repeat_length).
  destruct (C108_octave_bands filt (band_filter rows n false) n false images (repeat att (length cs)) visible mic mic_dir src_dir directions None c fs fdl gran T) as [_ B]; auto;
    [intros a Hin; apply repeat_spec in Hin; now subst|destruct (length cs); [lia|discriminate]|exact I|now apply band_filter_length|rewrite NB; lia|].
  destruct (C108_full_band filt synth1 n1 false images [att] visible mic mic_dir src_dir directions None c fs fdl gran T) as [_ S1]; auto; [intros a [<-|[]]; auto|discriminate|exact I|].
  rewrite (B bands RB i), (S1 single RS). apply Rsum_map_ext. intros j _. destruct (nth j visible false); [|reflexivity]. cbv zeta. rewrite NB.
  set (d := vdist (nth j images []) mic). set (hd := angles (vminus (nth j images []) mic)). set (em := angles (nth j directions [])).
  set (A := image_amplitude [att] None 0 j d * dir_gain mic_dir hd * dir_gain src_dir em).
  replace (map (fun b => image_amplitude (repeat att (length cs)) None b j d * dir_gain mic_dir hd * dir_gain src_dir em) (seq 0 (length cs))) with (repeat A (length cs)).
  2:{ apply nth_ext with (d := 0) (d' := 0); rewrite repeat_length, ?map_length, ?seq_length; [reflexivity|]. intros b Hb. rewrite nth_map_seq by auto. rewrite nth_repeat_lt by auto. unfold A, image_amplitude. now rewrite row_repeat. }
  destruct (C152_impulse cs bfs n rows A Hp Hs Hn Hr) as (h & E & Lh & Hh). unfold band_filter. rewrite E.
  set (rest := rest_filter images mic c fs fdl gran j). assert (Rn : rest <> []) by (unfold rest, rest_filter; destruct fdl; [discriminate|]; cbn [seq map]; discriminate).
  rewrite !app_assoc. change [rest; h] with ([rest] ++ [h]). rewrite app_assoc, series_snoc by (intros Z; apply app_eq_nil in Z as [_ Z]; discriminate).
  rewrite (started_impulse _ _ h A ((n - 1) / 2) (n / 2)); auto.
  - rewrite <- app_assoc. apply series_nonempty. intros f Hf. apply in_app_or in Hf as [Hf|Hf]; [now apply dir_nonempty in Hf|]. apply in_app_or in Hf as [Hf|Hf]; [now apply dir_nonempty in Hf|]. destruct Hf as [<-|[]]. exact Rn.
  - intros Z. rewrite Z in Lh. cbn in Lh. lia.
  - apply Nat.div_le_mono; lia.
Qed.
Print Assumptions C152_shift.

(** An arrival after one sample of travel (and one of filter delay) comes one sample early with octave
    bands: n_fft / 2 samples are cut but the filters delay by n_fft / 2 - 1 (ism.py:230-234). *)
Theorem C152_early_refuted : exists cs band_fs n_fft rows filt images att visible mic mic_dir directions c fs fdl gran threads bands single,
  cosine_response cs band_fs true n_fft = Some rows /\
  compute_ism_rir_dir filt (band_filter rows n_fft false) n_fft false images (repeat att (length cs)) visible mic mic_dir None directions None c fs fdl gran threads bands /\
  compute_ism_rir_dir filt (band_filter rows n_fft false) n_fft false images [att] visible mic mic_dir None directions None c fs fdl gran threads single /\
  nth 1 bands 0 = 1 /\ nth 1 single 0 = 0 /\ nth 2 single 0 = 1.
Proof.
  destruct (two_bands_defined true) as (rows & H). assert (Hp : Forall (fun c => 0 < c) [1; 2]) by (repeat constructor; lra). assert (Hs : StronglySorted Rlt [1; 2]) by (repeat constructor; lra).
  set (filt := fun (_ : nat) (x : list R) => x). set (D := Some (DTaps 1 (fun _ => [1]))).
  assert (I3 : forall im, In im [[1; 0; 0]] -> length im = 3%nat) by (intros im [<-|[]]; reflexivity).
  assert (WD : well_formed D) by (cbn; split; [lia|reflexivity]).
  assert (V : exists j, (j < length [[1; 0; 0]])%nat /\ nth j [true] false = true) by (exists 0%nat; cbn; auto).
  pose proof (band_filter_length rows 4 ltac:(lia)) as LB.
  destruct (C108_octave_bands filt (band_filter rows 4 false) 4 false [[1; 0; 0]] (repeat [1] 2) [true] [0; 0; 0] D None [[1; 0; 0]] None 1 1 3 1 1) as [(bands & RB) _]; auto; try lia; try lra; try exact I; try discriminate; [cbn; intros a [<-|[<-|[]]]; reflexivity|].
  destruct (C108_full_band filt (band_filter rows 4 false) 4 false [[1; 0; 0]] [[1]] [true] [0; 0; 0] D None [[1; 0; 0]] None 1 1 3 1 1) as [(single & RS) BS]; auto; try lia; try lra; try exact I; try discriminate; [cbn; intros a [<-|[]]; reflexivity|].
  exists [1; 2], 4, 4%nat, rows, filt, [[1; 0; 0]], [1], [true], [0; 0; 0], D, [[1; 0; 0]], 1, 1%Z, 3%nat, 1%nat, 1%nat, bands, single. split; [exact H|]. split; [exact RB|]. split; [exact RS|].
  assert (SH : nth 1 bands 0 = nth 2 single 0).
  { apply (C152_shift [1; 2] 4 4 rows filt (band_filter rows 4 false) 4 [[1; 0; 0]] [1] [true] [0; 0; 0] D None [[1; 0; 0]] 1 1 3 1 1 Hp Hs) with (bands := bands) (i := 1%nat); auto; try lia; try lra; try exact I. }
  assert (DV : vdist [1; 0; 0] [0; 0; 0] = 1). { unfold vdist, vnorm. transitivity (sqrt 1); [f_equal; cbn; ring|apply sqrt_1]. }
  assert (FL : Zfloor (1 / 1 * 1) = 1%Z) by (apply Zfloor_unique; lra).
  assert (F0 : Zfloor 0 = 0%Z) by (apply Zfloor_unique; lra).
  assert (V1 : forall i, nth i single 0 = started 1 (map (fd_tap 3 1 0) (seq 0 3)) i).
  { intros i. rewrite (BS single RS i). cbn [length seq map nth]. unfold Rsum. cbn [fold_right]. cbv zeta. rewrite DV. unfold rest_filter. cbn [nth]. rewrite DV. unfold D. cbn [dir_filters app in_series fold_left dir_gain]. rewrite conv_one by discriminate.
    rewrite FL. replace (1 / 1 * 1 - 1) with 0 by field. unfold image_amplitude. cbn [row nth]. cbn [seq map]. field. }
  rewrite SH, !V1. unfold started. cbv zeta. cbn [Z.of_nat Pos.of_succ_nat Pos.succ Z.sub Z.opp Z.add Z.pos_sub Z.ltb Z.compare Z.to_nat Pos.to_nat Pos.iter_op seq map nth].
  assert (T0 : fd_tap 3 1 0 0 = 0). { unfold fd_tap, hann_at. cbn [Z.of_nat Nat.sub]. replace (2 * PI * 0 / INR 2) with 0 by (cbn; field). rewrite cos_0. ring. }
  assert (T1 : fd_tap 3 1 0 1 = 1).
  { unfold fd_tap, hann_at. replace (2 * PI * IZR (Z.of_nat 1) / INR (3 - 1)) with PI by (cbn; field). rewrite cos_PI. change ((3 - 1) / 2)%nat with 1%nat. replace (INR 1 - INR 1 - 0) with 0 by ring.
    unfold lerp_grid. cbv zeta. replace (0 * INR 1) with 0 by ring. rewrite F0. replace (0 / INR 1) with 0 by (cbn; field). assert (S0 : sinc 0 = 1) by (unfold sinc; destruct (Req_EM_T 0 0); [reflexivity|easy]). rewrite !S0. field. }
  cbn. rewrite T0, T1. auto.
Qed.
Print Assumptions C152_early_refuted.
(** The hypotheses of the theorems above. *)
Example C152_case : exists rows, cosine_response [1; 2] 4 true 4 = Some rows /\ (forall i, (i + 1 < 2)%nat -> nth (i + 1) [1; 2] 0 = 2 * nth i [1; 2] 0) /\
  bin_freq 4 4 1 = 1 /\ gain rows [5; 7] 1 = 5 /\ gain rows [5; 7] 2 = 7.
Proof.
  destruct (two_bands_defined true) as (rows & H). assert (Hp : Forall (fun c => 0 < c) [1; 2]) by (repeat constructor; lra). assert (Hs : StronglySorted Rlt [1; 2]) by (repeat constructor; lra).
  assert (O : forall i, (i + 1 < 2)%nat -> nth (i + 1) [1; 2] 0 = 2 * nth i [1; 2] 0) by (intros [|i] Hi; [cbn; lra|lia]).
  exists rows. repeat split; auto; [unfold bin_freq; cbn; field| |].
  - apply (C152_centre [1; 2] 4 true 4 rows [5; 7] 0 1 Hp Hs O H); cbn; auto; try lia. unfold bin_freq. cbn. field.
  - apply (C152_centre [1; 2] 4 true 4 rows [5; 7] 1 2 Hp Hs O H); cbn; auto; try lia. unfold bin_freq. cbn. field.
Qed.
