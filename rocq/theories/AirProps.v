(** C160: air absorption of a room. *)
From Coq Require Import List ZArith Lia Reals Lra Bool String Sorted.
From Verif Require Import Base BaseProofs Vec ParamModel ParamProofs BandsModel AirModel.
Import ListNotations.
Local Open Scope R_scope.

(** ** Specification *)
(** n octave bands, the first at c0 *)
Definition octaves (c0 : R) (n : nat) : vec := map (fun i => c0 * 2 ^ i) (seq 0 n).
(** values one octave apart, continued along the line through the last two *)
Definition continued (ys : vec) (i : nat) : R :=
  let m := List.length ys in
  if Nat.ltb i m then nth i ys 0 else nth (m - 1) ys 0 + INR (i - (m - 1)) * (nth (m - 1) ys 0 - nth (m - 2) ys 0).
Definition between (x : R) : R := Rmax 0 (Rmin 1 x).
(** the table of the documentation, 1/1000 per metre from 125 Hz to 8 kHz *)
Inductive documented (T H : R) : vec -> Prop :=
| cold_dry : T < 15 -> H < 50 -> documented T H [0.1; 0.2; 0.5; 1.1; 2.7; 9.4; 29.0]
| cold_mid : T < 15 -> 50 <= H < 70 -> documented T H [0.1; 0.2; 0.5; 0.8; 1.8; 5.9; 21.1]
| cold_wet : T < 15 -> 70 <= H -> documented T H [0.1; 0.2; 0.5; 0.7; 1.4; 4.4; 15.8]
| warm_dry : 15 <= T -> H < 50 -> documented T H [0.1; 0.3; 0.6; 1.0; 1.9; 5.8; 20.3]
| warm_mid : 15 <= T -> 50 <= H < 70 -> documented T H [0.1; 0.3; 0.6; 1.0; 1.7; 4.1; 13.5]
| warm_wet : 15 <= T -> 70 <= H -> documented T H [0.1; 0.3; 0.6; 1.1; 1.7; 3.5; 10.6].

(** ** Proofs *)
Lemma octaves_length c0 n : List.length (octaves c0 n) = n.
Proof. unfold octaves. now rewrite map_length, seq_length. Qed.
Lemma octaves_nth c0 n i : (i < n)%nat -> nth i (octaves c0 n) 0 = c0 * 2 ^ i.
Proof. intros H. unfold octaves. rewrite (nth_indep _ 0 (c0 * 2 ^ 0)) by (rewrite map_length, seq_length; exact H). rewrite (map_nth (fun i => c0 * 2 ^ i)). now rewrite seq_nth. Qed.
Lemma octaves_pos c0 n : 0 < c0 -> Forall (fun c => 0 < c) (octaves c0 n).
Proof. intros H. apply Forall_forall. intros c Hc. apply in_map_iff in Hc. destruct Hc as (i & <- & _). apply Rmult_lt_0_compat; [exact H|]. apply pow_lt. lra. Qed.
Lemma octaves_sorted c0 n : 0 < c0 -> StronglySorted Rlt (octaves c0 n).
Proof.
  intros H. unfold octaves. generalize 0%nat. induction n as [|n IH]; intros s; cbn [seq map]; constructor; [apply IH|]. apply Forall_forall. intros c Hc. apply in_map_iff in Hc. destruct Hc as (i & <- & Hi). apply in_seq in Hi.
  apply Rmult_lt_compat_l; [exact H|]. apply Rlt_pow; [lra|lia].
Qed.
Lemma log2_octave c0 i : 0 < c0 -> log2 (c0 * 2 ^ i) = log2 c0 + INR i.
Proof.
  intros H. unfold log2. assert (L : 0 < ln 2) by (rewrite <- ln_1; apply ln_increasing; lra). rewrite ln_mult by (try apply pow_lt; lra). rewrite <- Rpower_pow by lra. unfold Rpower. rewrite ln_exp. field. lra.
Qed.
Lemma interp_octave c0 ys k : 0 < c0 -> (2 <= List.length ys)%nat -> interp_at (combine (map log2 (octaves c0 (List.length ys))) ys) (log2 (c0 * 2 ^ k)) = Some (continued ys k).
Proof.
  intros H0 Hm. set (m := List.length ys) in *. set (L := combine _ _). assert (HL : List.length L = m) by (unfold L; rewrite combine_length, map_length, octaves_length; unfold m; lia).
  assert (HS : StronglySorted below L) by (apply combine_sorted; [now apply octaves_pos|now apply octaves_sorted|now rewrite octaves_length]).
  assert (Hg : forall k, (k < m)%nat -> nth k L (0, 0) = (log2 c0 + INR k, nth k ys 0)).
  { intros j Hj. unfold L. rewrite (nth_indep _ (0, 0) (log2 0, 0)) by (fold L; lia). rewrite combine_nth by (rewrite map_length, octaves_length; reflexivity). rewrite map_nth, octaves_nth by exact Hj. now rewrite log2_octave. }
  unfold continued. fold m. destruct (Nat.ltb_spec k m) as [Hk|Hk].
  - pose proof (interp_node L k (0, 0) HS ltac:(lia) ltac:(lia)) as Q. rewrite Hg in Q by exact Hk. cbn [fst snd] in Q. rewrite log2_octave by exact H0. exact Q.
  - rewrite log2_octave by exact H0. unfold interp_at. fold (isbelow (log2 c0 + INR k)). rewrite (count_below L _ m (0, 0)); [|exact HS|lia| |].
    + rewrite HL. replace (Nat.max 1 (Nat.min (m - 1) m)) with (m - 1)%nat by lia. replace (m - 1 - 1)%nat with (m - 2)%nat by lia. rewrite !Hg by lia. cbn [fst snd].
      assert (E : INR (m - 1) = INR (m - 2) + 1) by (rewrite <- S_INR; f_equal; lia). destruct (Req_EM_T _ _) as [D|_]; [lra|]. apply (f_equal (@Some R)). rewrite (minus_INR k (m - 1)) by lia. rewrite E. field. lra.
    + intros j Hj. rewrite Hg by exact Hj. cbn [fst]. assert (INR j < INR k) by (apply lt_INR; lia). lra.
    + intros j Hj. lia.
Qed.
Lemma clip_between x : clip01 x = between x.
Proof. unfold clip01, between, Rmax, Rmin. destruct (Rlt_dec x 0), (Rlt_dec 1 x), (Rle_dec 1 x); destruct (Rle_dec _ _); lra. Qed.
Lemma bank_octaves c0 n ys : 0 < c0 -> (2 <= List.length ys)%nat ->
  bank_call (octaves c0 n) {| coeffs := ys; cfreqs := Some (octaves c0 (List.length ys)) |} = Some (map (fun i => between (continued ys i)) (seq 0 n)).
Proof.
  intros H0 Hm. unfold bank_call. cbn [coeffs cfreqs]. destruct ys as [|a [|a' t]] eqn:E; [cbn in Hm; lia|cbn in Hm; lia|]. rewrite <- E in *. rewrite octaves_length, Nat.eqb_refl. cbn [negb].
  rewrite existsb_pos by (apply Forall_app; split; now apply octaves_pos). rewrite sort_of_sorted by (apply combine_sorted; [now apply octaves_pos|now apply octaves_sorted|now rewrite octaves_length]).
  unfold octaves at 2. generalize (seq 0 n). intros l. induction l as [|i l IH]; [reflexivity|]. cbn [map mapM]. rewrite interp_octave by assumption. cbn [bind]. rewrite IH. cbn [bind]. now rewrite clip_between.
Qed.

(** C160.  The bands of a room are octaves from the base frequency: at least one fits below the sampling frequency, and no more than fit. *)
Theorem C160_bands : forall base fs n, 0 < base -> Z.of_nat n = n_octaves fs base -> base <= fs ->
  snd (octave_bands base false 0 n) = octaves base n /\ base * 2 ^ n <= fs < base * 2 ^ (n + 1).
Proof.
  intros base fs n H0 Hn Hf. split.
  - unfold octave_bands, octave_centers, octaves. cbn [snd]. replace (octave_count false n) with n by (unfold octave_count; cbn; lia). apply map_ext. intros i. f_equal. rewrite <- Rpower_pow by lra. f_equal. field.
  - unfold n_octaves in Hn. destruct (base_Int_part (log2 (fs / base))) as [B1 B2]. rewrite <- Hn, <- INR_IZR_INZ in B1, B2.
    assert (L : 0 < ln 2) by (rewrite <- ln_1; apply ln_increasing; lra). assert (P : 0 < fs / base) by (apply Rdiv_lt_0_compat; lra).
    assert (E : fs = base * exp (ln (fs / base))) by (rewrite exp_ln by exact P; field; lra). set (x := ln (fs / base)) in *. unfold log2 in B1, B2. fold x in B1, B2.
    assert (B1' : INR n * ln 2 <= x) by (apply (Rmult_le_compat_r (ln 2)) in B1; [|lra]; unfold Rdiv in B1; rewrite Rmult_assoc, Rinv_l in B1 by lra; lra).
    assert (B2' : x < INR (n + 1) * ln 2) by (rewrite plus_INR; cbn [INR]; assert (Q : x / ln 2 < INR n + 1) by lra; apply (Rmult_lt_compat_r (ln 2)) in Q; [|lra]; unfold Rdiv in Q; rewrite Rmult_assoc, Rinv_l in Q by lra; lra).
    assert (PW : forall k, 2 ^ k = exp (INR k * ln 2)) by (intros k; rewrite <- Rpower_pow by lra; reflexivity). rewrite E, !PW. split.
    + apply Rmult_le_compat_l; [lra|]. destruct B1' as [B|B]; [left; now apply exp_increasing|right; now rewrite B].
    + apply Rmult_lt_compat_l; [lra|]. now apply exp_increasing.
Qed.
Print Assumptions C160_bands.

(** C160.  A room whose bands are the octaves from 125 Hz takes the coefficients of the documented table for its temperature and humidity;
    above 8 kHz the values are continued along the line through those of 4 and 8 kHz. *)
Theorem C160_table : forall p n, exists row, documented (ph_T p) (ph_H p) row /\
  set_air_absorption (octaves 125 n) p None None = Some (map (fun i => between (continued (map (fun x => x / 1000) row) i)) (seq 0 n)).
Proof.
  intros [T H] n. cbn [ph_T ph_H].
  assert (OC : [125; 250; 500; 1000; 2000; 4000; 8000] = octaves 125 7) by (unfold octaves; cbn [seq map pow]; repeat (apply (f_equal2 (@cons R)); [ring|]); reflexivity).
  assert (G : forall row, List.length row = 7%nat -> get_air_absorption {| ph_T := T; ph_H := H |} = Some (map (fun x => x / 1000) row, [125; 250; 500; 1000; 2000; 4000; 8000]) ->
    set_air_absorption (octaves 125 n) {| ph_T := T; ph_H := H |} None None = Some (map (fun i => between (continued (map (fun x => x / 1000) row) i)) (seq 0 n))).
  { intros row Hl E. unfold set_air_absorption. rewrite E. cbn [bind fst snd]. rewrite OC. replace 7%nat with (List.length (map (fun x => x / 1000) row)) by (now rewrite map_length). apply bank_octaves; [lra|]. rewrite map_length. lia. }
  assert (D : exists row, documented T H row /\ List.length row = 7%nat /\ get_air_absorption {| ph_T := T; ph_H := H |} = Some (map (fun x => x / 1000) row, [125; 250; 500; 1000; 2000; 4000; 8000])).
  { unfold get_air_absorption, air_key. cbn [ph_T ph_H]. destruct (Rlt_dec T 15), (Rlt_dec H 50); [|destruct (Rlt_dec H 70)| |destruct (Rlt_dec H 70)];
    (eexists; split; [|split; [|reflexivity]]; [|reflexivity]); constructor; lra. }
  destruct D as (row & D1 & D2 & D3). exists row. split; [exact D1|]. now apply G.
Qed.
Print Assumptions C160_table.

(** C160.  Coefficients given for the lowest bands are used for them, limited to the range from 0 to 1, and continued linearly above; a
    single one holds for all bands; more coefficients than bands raise. *)
Theorem C160_given : forall c0 n p ys, 0 < c0 -> (0 < n)%nat ->
  ((2 <= List.length ys <= n)%nat -> set_air_absorption (octaves c0 n) p (Some ys) None = Some (map (fun i => between (continued ys i)) (seq 0 n))) /\
  (forall a, ys = [a] -> set_air_absorption (octaves c0 n) p (Some ys) None = Some (repeat a n)) /\
  ((2 <= List.length ys)%nat -> (n < List.length ys)%nat -> set_air_absorption (octaves c0 n) p (Some ys) None = None).
Proof.
  intros c0 n p ys H0 Hn. unfold set_air_absorption. split; [|split].
  - intros [H2 Hm]. rewrite <- (bank_octaves c0 n ys H0 H2). unfold bank_call. cbn [coeffs cfreqs]. assert (F : firstn (List.length ys) (octaves c0 n) = octaves c0 (List.length ys)).
    { unfold octaves. rewrite firstn_map. f_equal. replace n with (List.length ys + (n - List.length ys))%nat at 1 by lia. rewrite seq_app, firstn_app, seq_length, Nat.sub_diag, firstn_all2 by (rewrite seq_length; lia). cbn [firstn]. apply app_nil_r. }
    now rewrite F.
  - intros a ->. unfold bank_call. cbn [coeffs]. now rewrite octaves_length.
  - intros H2 Hm. unfold bank_call. cbn [coeffs cfreqs]. destruct ys as [|a [|a' t]] eqn:E; [cbn in H2; lia|cbn in H2; lia|]. rewrite <- E in *. rewrite firstn_length, octaves_length. destruct (Nat.eqb_spec (Nat.min (List.length ys) n) (List.length ys)) as [Q|_]; [lia|reflexivity].
Qed.
Print Assumptions C160_given.

(** C160.  The documentation says that missing values at the end are replicated from the last one: they are extrapolated, to zero in this
    case. *)
Theorem C160_replicated_refuted : exists c0 n ys y, 0 < c0 /\ (2 <= List.length ys < n)%nat /\ (forall p, set_air_absorption (octaves c0 n) p (Some ys) None = Some y) /\
  0 < last ys 0 /\ last y 0 = 0.
Proof.
  exists 125, 4%nat, [0.3; 0.2], (map (fun i => between (continued [0.3; 0.2] i)) (seq 0 4)). split; [lra|]. split; [cbn; lia|]. split.
  - intros p. apply C160_given; [lra|lia|cbn; lia].
  - split; [cbn; lra|]. cbn [seq map last]. unfold between, continued. cbn [List.length Nat.ltb Nat.leb Nat.sub nth INR]. rewrite Rmin_right by lra. apply Rmax_left. lra.
Qed.
Print Assumptions C160_replicated_refuted.

(** C160.  The example of the documentation: the coefficients above one are changed to one. *)
Theorem C160_example_refuted : exists ys y, ys = [0.1; 0.2; 0.4; 1.3; 2.8; 9.4; 23.0] /\ (forall p, set_air_absorption (octaves 125 7) p (Some ys) None = Some y) /\
  nth 2 y 0 = 0.4 /\ nth 3 y 0 = 1 /\ nth 6 y 0 = 1.
Proof.
  eexists. exists (map (fun i => between (continued [0.1; 0.2; 0.4; 1.3; 2.8; 9.4; 23.0] i)) (seq 0 7)). split; [reflexivity|]. split.
  - intros p. apply C160_given; [lra|lia|cbn; lia].
  - cbn [seq map nth]. unfold between, continued. cbn [List.length Nat.ltb Nat.leb nth]. split; [rewrite Rmin_right, Rmax_right; lra|]. split; rewrite Rmin_left, Rmax_right; lra.
Qed.
Print Assumptions C160_example_refuted.

(** ** Examples *)
(** 16 kHz *)
Example C160_bands_ex : n_octaves 16000 125 = 7%Z.
Proof.
  unfold n_octaves. replace (16000 / 125) with (1 * 2 ^ 7) by field. rewrite log2_octave by lra. replace (log2 1) with 0 by (unfold log2; rewrite ln_1; unfold Rdiv; ring). rewrite Rplus_0_l. rewrite INR_IZR_INZ. unfold Int_part. rewrite <- (up_tech (IZR (Z.of_nat 7)) 7); [reflexivity| |]; cbn; lra.
Qed.
(** 25 degrees, 40 percent, bands up to 16 kHz: the last coefficient is extrapolated from 5.8 and 20.3 *)
Example C160_table_ex : exists y, set_air_absorption (octaves 125 8) {| ph_T := 25; ph_H := 40 |} None None = Some y /\ nth 5 y 0 = 5.8 / 1000 /\ nth 7 y 0 = 34.8 / 1000.
Proof.
  destruct (C160_table {| ph_T := 25; ph_H := 40 |} 8) as (row & D & E). eexists. split; [exact E|]. cbn [ph_T ph_H] in D. inversion D; try lra. cbn [seq map nth]. unfold between, continued. cbn [List.length map Nat.ltb Nat.leb Nat.sub nth INR].
  split; rewrite Rmin_right, Rmax_right; lra.
Qed.
Example C160_given_ex : exists y, set_air_absorption (octaves 125 3) {| ph_T := 20; ph_H := 0 |} (Some [0.1; 0.2]) None = Some y /\ nth 2 y 0 = 0.3.
Proof.
  eexists. split; [apply (proj1 (C160_given 125 3 {| ph_T := 20; ph_H := 0 |} [0.1; 0.2] ltac:(lra) ltac:(lia))); cbn; lia|]. cbn [seq map nth]. unfold between, continued. cbn [List.length Nat.ltb Nat.leb Nat.sub nth INR]. rewrite Rmin_right, Rmax_right; lra.
Qed.
