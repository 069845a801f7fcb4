(** Octave bands (C52), the cosine filter bank (C54, C85). *)
From Coq Require Import List ZArith Lia Reals Lra Bool Sorted R_Ifp.
From Verif Require Import Base BaseProofs Vec Sum Cpx DftModel DftProofs SimulateModel SimulateSpec SimulateProofs StftProofs ParamModel ParamProofs BandsModel.
Import ListNotations.
Local Open Scope R_scope.

(** ** C52: octave bands tile the spectrum *)
Definition per_octave (third : bool) : nat := if third then 3%nat else 1%nat.
Lemma Rpower2_lt : forall a b, a < b -> Rpower 2 a < Rpower 2 b.
Proof. intros. apply Rpower_lt; lra. Qed.
Lemma Rpower2_pos : forall a, 0 < Rpower 2 a.
Proof. intros. apply exp_pos. Qed.
Lemma centers_length : forall fc third start n, length (octave_centers fc third start n) = octave_count third n.
Proof. intros. unfold octave_centers. now rewrite map_length, seq_length. Qed.
Lemma nth_centers : forall fc third start n i, (i < octave_count third n)%nat -> nth i (octave_centers fc third start n) 0 = fc * Rpower 2 (start + INR i / INR (per_octave third)).
Proof.
  intros fc third start n i Hi. unfold octave_centers. rewrite nth_map_seq by auto. do 2 f_equal. destruct third; cbn; field.
Qed.
Lemma nth_bands : forall fc third start n i, (i < octave_count third n)%nat -> nth i (fst (octave_bands fc third start n)) (0, 0) =
  (fc * Rpower 2 (start + (INR i - / 2) / INR (per_octave third)), fc * Rpower 2 (start + (INR i + / 2) / INR (per_octave third))).
Proof.
  intros fc third start n i Hi. unfold octave_bands. cbn [fst]. set (fd := Rpower 2 _).
  rewrite nth_indep with (d' := (fun f => (f / fd, f * fd)) 0) by (rewrite map_length, centers_length; auto).
  rewrite (map_nth (fun f => (f / fd, f * fd))), nth_centers by auto. f_equal.
  - unfold Rdiv at 1. rewrite Rmult_assoc. f_equal. unfold fd. rewrite <- Rpower_Ropp, <- Rpower_plus. f_equal. destruct third; cbn; field.
  - rewrite Rmult_assoc. f_equal. unfold fd. rewrite <- Rpower_plus. f_equal. destruct third; cbn; field.
Qed.
Theorem C52_tile : forall fc third start n i, 0 < fc -> (i < octave_count third n)%nat ->
  let '(bands, centers) := octave_bands fc third start n in
  let f := nth i centers 0 in let '(lo, hi) := nth i bands (0, 0) in
  lo < f < hi /\ lo * hi = f * f /\
  ((i + 1 < octave_count third n)%nat -> hi = fst (nth (i + 1) bands (0, 0))) /\
  ((i + per_octave third < octave_count third n)%nat -> nth (i + per_octave third) centers 0 = 2 * f).
Proof.
  intros fc third start n i Hc Hi. pose proof (nth_bands fc third start n) as Hb. destruct (octave_bands fc third start n) as [bands centers] eqn:E.
  assert (Ec : centers = octave_centers fc third start n) by (injection E; auto). cbn [fst] in Hb. subst centers. rewrite (Hb i Hi), nth_centers by auto. cbv zeta.
  assert (Hd : 0 < INR (per_octave third)) by (destruct third; cbn; lra). split; [|split; [|split]].
  - split; apply Rmult_lt_compat_l; auto; apply Rpower2_lt; apply Rplus_lt_compat_l; apply Rmult_lt_compat_r; try lra; now apply Rinv_0_lt_compat.
  - set (a := Rpower 2 _). set (b := Rpower 2 (start + (INR i + _) / _)). set (m := Rpower 2 (start + INR i / _)). assert (a * b = m * m). { unfold a, b, m. rewrite <- !Rpower_plus. f_equal. field. lra. } nra.
  - intros Hi'. rewrite (Hb (i + 1)%nat Hi'). cbn [fst]. do 3 f_equal. rewrite plus_INR. cbn. field_simplify; try lra.
  - intros Hi'. rewrite nth_centers by auto. rewrite plus_INR. replace (start + (INR i + INR (per_octave third)) / INR (per_octave third)) with (start + INR i / INR (per_octave third) + 1) by (field; lra).
    rewrite Rpower_plus, Rpower_1 by lra. ring.
Qed.
Print Assumptions C52_tile.
(** How many: the requested number, or 3n-2 third octaves (not 3n). *)
Theorem C52_count : forall fc third start n, length (snd (octave_bands fc third start n)) = (if third then 3 * n - 2 else n)%nat /\ length (fst (octave_bands fc third start n)) = (if third then 3 * n - 2 else n)%nat.
Proof. intros. unfold octave_bands. cbn [fst snd]. rewrite map_length, centers_length. unfold octave_count. destruct third; split; lia. Qed.
Print Assumptions C52_count.
(** The filter banks take as many octaves as fit: the highest centre is at most half the sampling
    frequency and the next one would be above. *)
Theorem C52_nyquist : forall fs base, 0 < base -> 2 * base <= fs -> let n := Z.to_nat (n_octaves fs base) in
  (0 < n)%nat /\ nth (n - 1) (snd (octave_bands base false 0 n)) 0 <= fs / 2 < 2 * nth (n - 1) (snd (octave_bands base false 0 n)) 0.
Proof.
  intros fs base Hb Hf n. unfold n_octaves in n. destruct (base_Int_part (log2 (fs / base))) as [I1 I2]. set (z := Int_part (log2 (fs / base))) in *.
  assert (Hr : 2 <= fs / base) by (apply Rmult_le_reg_r with base; auto; unfold Rdiv; rewrite Rmult_assoc, Rinv_l by lra; lra).
  assert (L2 : log2 2 = 1) by (unfold log2; field; apply Rgt_not_eq, log2_pos_den).
  assert (1 <= log2 (fs / base)) by (rewrite <- L2; apply log2_le; lra).
  assert (Hz : (1 <= z)%Z) by (assert (IZR 0 < IZR z) by lra; apply lt_IZR in H0; lia).
  assert (Hn : (0 < n)%nat) by (unfold n; lia). split; auto. unfold octave_bands. cbn [snd]. rewrite nth_centers by (cbn; lia). cbn [per_octave INR].
  assert (En : INR (n - 1) = IZR z - 1). { rewrite minus_INR by lia. cbn. unfold n. rewrite INR_IZR_INZ, Z2Nat.id by lia. ring. }
  rewrite En. replace (0 + (IZR z - 1) / 1) with (IZR z - 1) by field.
  assert (Hp : fs / base = Rpower 2 (log2 (fs / base))). { unfold Rpower, log2. replace (ln (fs / base) / ln 2 * ln 2) with (ln (fs / base)) by (field; apply Rgt_not_eq, log2_pos_den). rewrite exp_ln; lra. }
  assert (Ef : fs = base * Rpower 2 (log2 (fs / base))) by (rewrite <- Hp; field; lra).
  assert (E1 : Rpower 2 (IZR z - 1) = Rpower 2 (IZR z) / 2). { unfold Rminus. rewrite Rpower_plus, Rpower_Ropp, Rpower_1 by lra. reflexivity. }
  assert (Rpower 2 (IZR z) <= Rpower 2 (log2 (fs / base))) by (apply Rle_Rpower; lra).
  assert (Rpower 2 (log2 (fs / base)) < Rpower 2 (IZR z) * 2). { rewrite <- (Rpower_1 2) at 3 by lra. rewrite <- Rpower_plus. apply Rpower2_lt. lra. }
  rewrite E1. set (A := Rpower 2 (IZR z)) in *. set (B := Rpower 2 (log2 (fs / base))) in *. clearbody A B. split; nra.
Qed.
Print Assumptions C52_nyquist.
(** The centres are increasing, positive frequencies: what resampling materials needs. *)
Theorem C52_centers_increasing : forall fc third start n, 0 < fc -> (0 < n)%nat -> good_centers (snd (octave_bands fc third start n)).
Proof.
  intros fc third start n Hc Hn. unfold octave_bands. cbn [snd]. split; [|split].
  - intros E. apply (f_equal (@length R)) in E. rewrite centers_length in E. cbn in E. unfold octave_count in E. destruct third; lia.
  - apply Forall_forall. intros x Hx. unfold octave_centers in Hx. apply in_map_iff in Hx. destruct Hx as (i & <- & _). apply Rmult_lt_0_compat; auto using Rpower2_pos.
  - unfold octave_centers. set (d := if third then 3 else 1). assert (Hd : 0 < d) by (unfold d; destruct third; lra). generalize (octave_count third n) as m. generalize 0%nat as s. intros s m. revert s. induction m as [|m IH]; intros s; cbn; constructor; auto.
    apply Forall_forall. intros x Hx. apply in_map_iff in Hx. destruct Hx as (i & <- & Hi). apply in_seq in Hi. apply Rmult_lt_compat_l; auto. apply Rpower2_lt. apply Rmult_lt_compat_r; [now apply Rinv_0_lt_compat|]. apply Rplus_lt_compat_l. apply lt_INR. lia.
Qed.
Print Assumptions C52_centers_increasing.
Example C52_case : nth 3 (snd (octave_bands 125 false 0 7)) 0 = 1000.
Proof. unfold octave_bands. cbn [snd]. rewrite nth_centers by (cbn; lia). cbn [per_octave INR]. replace (0 + (1 + 1 + 1) / 1) with (1 + 1 + 1) by field. rewrite !Rpower_plus, Rpower_1 by lra. lra. Qed.

(** ** C54: cosine bank sums to one *)
Lemma sorted_lt : forall l i j, StronglySorted Rlt l -> (i < j < length l)%nat -> nth i l 0 < nth j l 0.
Proof.
  intros l i j Hs. revert i j. induction Hs as [|x t Hs' IH Hf]; intros i j H; [cbn in H; lia|]. cbn [length] in H. destruct i, j; try lia; cbn [nth]; [|apply IH; lia]. rewrite Forall_forall in Hf. apply Hf, nth_In. lia.
Qed.
Lemma Some_inj : forall {A} (a b : A), Some a = Some b -> a = b.
Proof. intros A a b H. congruence. Qed.
Section Cos.
Variables (cs : vec) (fs : R) (keep : bool).
Let n := length cs.
Hypothesis Hn : (2 <= n)%nat.
Hypothesis Hp : Forall (fun c => 0 < c) cs.
Hypothesis Hs : StronglySorted Rlt cs.
Let c (i : nat) := nth i cs 0.
Lemma c_lt : forall i j, (i < j < n)%nat -> c i < c j.
Proof.
  intros i j H. now apply sorted_lt.
Qed.
Lemma c_pos : forall i, (i < n)%nat -> 0 < c i.
Proof. intros i Hi. rewrite Forall_forall in Hp. apply Hp. now apply nth_In. Qed.
Lemma mag_spec : forall b f, (b < n)%nat -> cosine_mag cs fs keep b f =
  if Nat.eqb b (n - 1) then (if Rle_dec (c b) f then 1 else if Rle_dec (c (b - 1)) f then / 2 * (1 + cos (2 * PI * f / c b)) else 0)
  else if Rle_dec (c b) f then (if Rlt_dec f (c (b + 1)) then / 2 * (1 - cos (2 * PI * f / c (b + 1))) else 0)
  else if Nat.eqb b 0 then (if keep then 1 else if Rle_dec (c 0 / 2) f then / 2 * (1 + cos (2 * PI * f / c 0)) else 0)
  else if Rle_dec (c (b - 1)) f then / 2 * (1 + cos (2 * PI * f / c b)) else 0.
Proof.
  intros b f Hb. unfold cosine_mag, cosine_band. fold n. fold (c b) (c 0%nat) (c 1%nat) (c (n - 2)%nat) (c (b - 1)%nat) (c (b + 1)%nat). destruct (Nat.eqb_spec b 0) as [E0|E0].
  - rewrite E0. destruct (Nat.eqb_spec 0 (n - 1)); [lia|]. cbn [negb andb]. replace (0 + 1)%nat with 1%nat by lia. destruct keep.
    all: repeat match goal with |- context [Rle_dec ?x ?y] => destruct (Rle_dec x y) | |- context [Rlt_dec ?x ?y] => destruct (Rlt_dec x y) end; try reflexivity; lra.
  - cbn [andb]. destruct (Nat.eqb_spec b (n - 1)) as [E1|E1]; cbn [negb].
    + replace (c (n - 2)%nat) with (c (b - 1)%nat) by (f_equal; lia).
      repeat match goal with |- context [Rle_dec ?x ?y] => destruct (Rle_dec x y) | |- context [Rlt_dec ?x ?y] => destruct (Rlt_dec x y) end; try reflexivity; lra.
    + repeat match goal with |- context [Rle_dec ?x ?y] => destruct (Rle_dec x y) | |- context [Rlt_dec ?x ?y] => destruct (Rlt_dec x y) end; try reflexivity; lra.
Qed.
Lemma locate : forall f m, (m < n)%nat -> f < c 0%nat \/ (exists j, (j < m)%nat /\ c j <= f < c (j + 1)%nat) \/ c m <= f.
Proof.
  intros f m. induction m as [|m IH]; intros Hm; [destruct (Rlt_le_dec f (c 0%nat)); auto|]. destruct IH as [H|[(j & Hj & H)|H]]; [lia|auto|right; left; exists j; split; [lia|auto]|].
  destruct (Rlt_le_dec f (c (S m))); auto. right. left. exists m. split; [lia|]. replace (m + 1)%nat with (S m) by lia. auto.
Qed.
Lemma c_le : forall i j, (i <= j < n)%nat -> c i <= c j.
Proof. intros i j H. destruct (Nat.eq_dec i j) as [->|]; [lra|]. left. apply c_lt. lia. Qed.
(** Two neighbouring bands share every frequency. *)
Lemma sum_two : forall (g : nat -> R) j, (j + 1 < n)%nat -> (forall b, (b < n)%nat -> b <> j -> b <> (j + 1)%nat -> g b = 0) -> bsum n g = g j + g (j + 1)%nat.
Proof.
  intros g j Hj Hz. rewrite (bsum_ext n g (fun b => (if Nat.eqb b j then g b else 0) + (if Nat.eqb b (j + 1) then g b else 0))).
  2: intros b Hb; destruct (Nat.eqb_spec b j); destruct (Nat.eqb_spec b (j + 1)); try lia; try ring; rewrite Hz by auto; ring.
  rewrite bsum_plus. f_equal.
  - rewrite (bsum_delta n j); [now rewrite Nat.eqb_refl|lia|]. intros i Hi Hne. destruct (Nat.eqb_spec i j); [lia|auto].
  - rewrite (bsum_delta n (j + 1)); [now rewrite Nat.eqb_refl|lia|]. intros i Hi Hne. destruct (Nat.eqb_spec i (j + 1)); [lia|auto].
Qed.
Lemma cosine_sum_above : forall f, c 0%nat <= f -> bsum n (fun b => cosine_mag cs fs keep b f) = 1.
Proof.
  intros f Hf. destruct (locate f (n - 1) ltac:(lia)) as [H|[(j & Hj & H)|H]]; [lra| |].
  - rewrite (sum_two _ j); [|lia|].
    + rewrite !mag_spec by lia. destruct (Nat.eqb_spec j (n - 1)); [lia|]. destruct (Rle_dec (c j) f); [|lra]. destruct (Rlt_dec _ _); [|lra].
      replace (j + 1 - 1)%nat with j by lia. destruct (Nat.eqb_spec (j + 1) (n - 1)).
      * destruct (Rle_dec (c (j + 1)%nat) f); [lra|]. destruct (Rle_dec _ _); [|lra]. lra.
      * destruct (Rle_dec (c (j + 1)%nat) f); [lra|]. destruct (Nat.eqb_spec (j + 1) 0); [lia|]. destruct (Rle_dec _ _); [|lra]. lra.
    + intros b Hb H1 H2. rewrite mag_spec by lia. assert (Hd : (b < j)%nat \/ (j + 1 < b)%nat) by lia. destruct Hd as [Hd|Hd].
      * pose proof (c_le (b + 1) j ltac:(lia)). pose proof (c_le b j ltac:(lia)). destruct (Nat.eqb_spec b (n - 1)); [lia|]. destruct (Rle_dec (c b) f); [|lra]. destruct (Rlt_dec _ _); [lra|auto].
      * pose proof (c_le (j + 1) (b - 1) ltac:(lia)). pose proof (c_le (j + 1) b ltac:(lia)). destruct (Nat.eqb_spec b 0); [lia|].
        destruct (Rle_dec (c b) f); [lra|]. destruct (Rle_dec (c (b - 1)%nat) f); [lra|]. destruct (Nat.eqb _ _); auto.
  - rewrite (bsum_delta n (n - 1)); [|lia|].
    + rewrite mag_spec by lia. rewrite Nat.eqb_refl. destruct (Rle_dec _ _); [auto|lra].
    + intros b Hb Hne. rewrite mag_spec by lia. destruct (Nat.eqb_spec b (n - 1)); [lia|]. pose proof (c_le (b + 1) (n - 1) ltac:(lia)). pose proof (c_le b (n - 1) ltac:(lia)). destruct (Rle_dec _ _); [|lra]. destruct (Rlt_dec _ _); [lra|auto].
Qed.
Lemma cosine_sum_below : forall f, f < c 0%nat -> bsum n (fun b => cosine_mag cs fs keep b f) = if keep then 1 else if Rle_dec (c 0%nat / 2) f then / 2 * (1 + cos (2 * PI * f / c 0%nat)) else 0.
Proof.
  intros f Hf. rewrite (bsum_delta n 0); [|lia|].
  - rewrite mag_spec by lia. destruct (Nat.eqb_spec 0 (n - 1)); [lia|]. destruct (Rle_dec _ _); [lra|]. now rewrite Nat.eqb_refl.
  - intros b Hb Hne. rewrite mag_spec by lia. pose proof (c_le 0 b ltac:(lia)). pose proof (c_le 0 (b - 1) ltac:(lia)). destruct (Rle_dec (c b) f); [lra|]. destruct (Rle_dec (c (b - 1)%nat) f); [lra|]. destruct (Nat.eqb_spec b 0); [lia|]. destruct (Nat.eqb _ _); auto.
Qed.
Lemma mag_range : forall b f, (b < n)%nat -> 0 <= cosine_mag cs fs keep b f <= 1.
Proof.
  intros b f Hb. rewrite mag_spec by auto. repeat match goal with |- context [cos ?t] => let H := fresh in pose proof (COS_bound t) as H; let x := fresh in set (x := cos t) in *; clearbody x end.
  repeat match goal with |- context [if ?d then _ else _] => destruct d end; lra.
Qed.
End Cos.
Definition bin_freq (fs : R) (n_fft k : nat) : R := INR k / INR n_fft * fs.
(** Every bin: the magnitudes of all bands lie between 0 and 1 and sum to one (with keep_dc, at every
    bin; without, at every bin from the first centre on). *)
Theorem C54_sum : forall cs fs keep_dc n_fft rows k, Forall (fun c => 0 < c) cs -> StronglySorted Rlt cs -> (k <= n_fft / 2)%nat ->
  cosine_response cs fs keep_dc n_fft = Some rows ->
  length rows = length cs /\ (forall row, In row rows -> length row = (n_fft / 2 + 1)%nat /\ 0 <= nth k row 0 <= 1) /\
  (keep_dc = true \/ nth 0 cs 0 <= bin_freq fs n_fft k -> Rsum (map (fun row => nth k row 0) rows) = 1).
Proof.
  intros cs fs keep n_fft rows k Hp Hs Hk H. unfold cosine_response in H. destruct (Nat.ltb_spec (length cs) 2) as [|Hn]; [discriminate|]. destruct (forallb _ _); [|discriminate]. apply Some_inj in H. subst rows.
  split; [now rewrite map_length, seq_length|]. split.
  - intros row Hr. apply in_map_iff in Hr. destruct Hr as (b & <- & Hb). apply in_seq in Hb. split; [now rewrite map_length, seq_length|]. rewrite nth_map_seq by lia. apply mag_range; auto. lia.
  - intros Hd. rewrite map_map. transitivity (Rsum (map (fun b => cosine_mag cs fs keep b (bin_freq fs n_fft k)) (seq 0 (length cs)))).
    { f_equal. apply map_ext_in. intros b Hb. rewrite nth_map_seq by lia. reflexivity. }
    rewrite <- bsum_Rsum. destruct (Rle_lt_dec (nth 0 cs 0) (bin_freq fs n_fft k)); [now apply cosine_sum_above|]. rewrite cosine_sum_below by auto. destruct Hd as [-> | Hd]; [auto|lra].
Qed.
Print Assumptions C54_sum.
(** Without keep_dc, the default of OctaveBandsFactory, the constant component is in no band. *)
Theorem C54_no_dc : forall cs fs n_fft rows, Forall (fun c => 0 < c) cs -> StronglySorted Rlt cs ->
  cosine_response cs fs false n_fft = Some rows -> Rsum (map (fun row => nth 0 row 0) rows) = 0.
Proof.
  intros cs fs n_fft rows Hp Hs H. unfold cosine_response in H. destruct (Nat.ltb_spec (length cs) 2) as [|Hn]; [discriminate|]. destruct (forallb _ _); [|discriminate]. apply Some_inj in H. subst rows.
  rewrite map_map. transitivity (Rsum (map (fun b => cosine_mag cs fs false b 0) (seq 0 (length cs)))).
  { f_equal. apply map_ext_in. intros b Hb. rewrite nth_map_seq by lia. f_equal. cbn. unfold Rdiv. ring. }
  rewrite <- bsum_Rsum. assert (0 < nth 0 cs 0) by (rewrite Forall_forall in Hp; apply Hp, nth_In; lia). rewrite cosine_sum_below by auto. destruct (Rle_dec _ _); [lra|auto].
Qed.
Print Assumptions C54_no_dc.
Lemma two_bands_defined : forall keep, exists rows, cosine_response [1; 2] 4 keep 4 = Some rows.
Proof.
  intros keep. unfold cosine_response. cbn [length]. change ((2 <? 2)%nat) with false. cbn iota. change (4 / 2 + 1)%nat with 3%nat.
  assert (E : forall b l, (exists k, In k (seq 0 3) /\ 0 < cosine_mag [1; 2] 4 keep b (INR k / INR 4 * 4)) ->
    existsb (fun m => if Rlt_dec 0 m then true else false) (map (fun k => cosine_mag [1; 2] 4 keep b (INR k / INR 4 * 4)) (seq 0 3)) && l = l).
  { intros b l (k & Hk & Hm). replace (existsb _ _) with true; auto. symmetry. apply existsb_exists. exists (cosine_mag [1; 2] 4 keep b (INR k / INR 4 * 4)). split; [now apply (in_map (fun k => cosine_mag [1; 2] 4 keep b (INR k / INR 4 * 4)))|]. destruct (Rlt_dec _ _); auto. }
  assert (Hp : Forall (fun c => 0 < c) [1; 2]) by (repeat constructor; lra).
  assert (G0 : exists k, In k (seq 0 3) /\ 0 < cosine_mag [1; 2] 4 keep 0 (INR k / INR 4 * 4)).
  { exists 1%nat. split; [cbn; auto|]. rewrite mag_spec by (auto; cbn; lia). cbn [length Nat.sub Nat.eqb]. cbn [nth Nat.add]. replace (INR 1 / INR 4 * 4) with 1 by (cbn; field).
    destruct (Rle_dec 1 1); [|lra]. destruct (Rlt_dec 1 2); [|lra]. replace (2 * PI * 1 / 2) with PI by field. rewrite cos_PI. lra. }
  assert (G1 : exists k, In k (seq 0 3) /\ 0 < cosine_mag [1; 2] 4 keep 1 (INR k / INR 4 * 4)).
  { exists 2%nat. split; [cbn; auto|]. rewrite mag_spec by (auto; cbn; lia). cbn [length Nat.sub Nat.eqb]. cbn [nth Nat.add]. replace (INR 2 / INR 4 * 4) with 2 by (cbn; field).
    destruct (Rle_dec 2 2); lra. }
  cbn [seq map forallb]. cbn [seq map] in E. rewrite (E 0%nat), (E 1%nat) by auto. eauto.
Qed.
Theorem C54_no_dc_refuted : exists cs fs n_fft rows, Forall (fun c => 0 < c) cs /\ StronglySorted Rlt cs /\ cosine_response cs fs false n_fft = Some rows /\ Rsum (map (fun row => nth 0 row 0) rows) <> 1.
Proof.
  destruct (two_bands_defined false) as (rows & H). exists [1; 2], 4, 4%nat, rows. assert (Hp : Forall (fun c => 0 < c) [1; 2]) by (repeat constructor; lra). assert (Hs : StronglySorted Rlt [1; 2]) by (repeat constructor; lra).
  repeat split; auto. rewrite (C54_no_dc [1; 2] 4 4 rows); auto; lra.
Qed.
Print Assumptions C54_no_dc_refuted.
Example C54_case : exists rows, cosine_response [1; 2] 4 true 4 = Some rows /\ Rsum (map (fun row => nth 1 row 0) rows) = 1.
Proof.
  destruct (two_bands_defined true) as (rows & H). exists rows. split; auto. apply (C54_sum [1; 2] 4 true 4 rows 1); auto; repeat constructor; lra.
Qed.

(** ** C85: the bands of OctaveBandsFactory sum to the signal *)
Lemma Rsum_bsum_swap : forall (l : list vec) n (g : vec -> nat -> R), Rsum (map (fun r => bsum n (g r)) l) = bsum n (fun k => Rsum (map (fun r => g r k) l)).
Proof. unfold Rsum. induction l as [|r l IH]; intros n g; cbn [map fold_right]; [symmetry; now apply bsum_zero_ext|]. now rewrite IH, bsum_plus. Qed.
Lemma Rsum_map_mult : forall {A} (l : list A) f k, Rsum (map (fun a => k * f a) l) = k * Rsum (map f l).
Proof. unfold Rsum. induction l as [|a l IH]; intros f k; cbn; [ring|]. rewrite IH. ring. Qed.
Lemma Rsum_map_mult_r : forall {A} (l : list A) f k, Rsum (map (fun a => f a * k) l) = Rsum (map f l) * k.
Proof. unfold Rsum. induction l as [|a l IH]; intros f k; cbn; [ring|]. rewrite IH. ring. Qed.
Lemma nth_spectrum : forall m (f : nat -> C) k, (k < m)%nat -> nth k (map f (seq 0 m)) C0 = f k.
Proof. intros. now rewrite nth_map_seq. Qed.
(** irfft is linear in real gains applied to a common spectrum. *)
Lemma irfft_gains : forall n (rows : list vec) (D : nat -> C) t, (t < n)%nat ->
  Rsum (map (fun row => nth t (irfft n (map (fun k => RtoC (nth k row 0) * D k)%C (seq 0 (n / 2 + 1)))) 0) rows) =
  nth t (irfft n (map (fun k => RtoC (Rsum (map (fun row => nth k row 0%R) rows)) * D k)%C (seq 0 (n / 2 + 1)))) 0.
Proof.
  intros n rows D t Ht. rewrite nth_irfft by auto.
  assert (Hlow : forall k, (k < (n - 1) / 2)%nat -> (k + 1 < n / 2 + 1)%nat).
  { intros k Hk. assert (((n - 1) / 2 <= n / 2)%nat) by (apply Nat.div_le_mono; lia). lia. }
  induction rows as [|r rows IH]; cbn [map].
  - change (Rsum []) with 0. symmetry. rewrite !nth_spectrum by lia.
    rewrite (bsum_zero_ext ((n - 1) / 2)). 2: { intros k Hk. rewrite nth_spectrum by auto. cbn. ring. }
    destruct (Nat.even n); cbn; ring.
  - change (Rsum (?a :: ?l)) with (a + Rsum l) at 1. rewrite IH, nth_irfft by auto. rewrite !nth_spectrum by lia.
    rewrite <- Rmult_plus_distr_l. f_equal.
    set (S1 := bsum _ _). set (S2 := bsum _ _). set (S3 := bsum _ _).
    assert (E : S3 = S1 + S2). { unfold S1, S2, S3. rewrite <- bsum_plus. apply bsum_ext. intros k Hk. rewrite !nth_spectrum by auto. change (Rsum (?a :: ?l)) with (a + Rsum l). rewrite RtoC_add. cbn. ring. }
    rewrite E. change (Rsum (?a :: ?l)) with (a + Rsum l). rewrite RtoC_add. destruct (Nat.even n); cbn; ring.
Qed.
Lemma irfft_delay : forall n t, (0 < n)%nat -> (t < n)%nat ->
  nth t (irfft n (map (fun k => (RtoC 1 * omega n (Z.of_nat (k * (n / 2 + 1))))%C) (seq 0 (n / 2 + 1)))) 0 = if Nat.eqb t ((n - 1) / 2) then 1 else 0.
Proof.
  intros n t Hn Ht. set (m := ((n - 1) / 2)%nat). assert (Hm : (m + (n / 2 + 1) = n)%nat).
  { unfold m. pose proof (Nat.div_mod n 2 ltac:(lia)). pose proof (Nat.mod_upper_bound n 2 ltac:(lia)). pose proof (Nat.div_mod (n - 1) 2 ltac:(lia)). pose proof (Nat.mod_upper_bound (n - 1) 2 ltac:(lia)). lia. }
  set (e := map (fun i => if Nat.eqb i m then 1 else 0) (seq 0 n)).
  assert (He : forall i, (i < n)%nat -> nth i e 0 = if Nat.eqb i m then 1 else 0) by (intros i Hi; unfold e; now rewrite nth_map_seq).
  rewrite <- (He t Ht), <- (irfft_rfft n e t Ht). f_equal. f_equal. unfold rfft. apply map_ext_in. intros k Hk. apply in_seq in Hk.
  unfold dft. rewrite (csum_delta n m); [|lia|].
  - rewrite He, Nat.eqb_refl by lia. f_equal. rewrite <- (omega_cycle n (- Z.of_nat (m * k)) (Z.of_nat k)) by auto. f_equal. nia.
  - intros i Hi Hne. rewrite He by auto. destruct (Nat.eqb_spec i m); [lia|]. apply C_eq; cbn; ring.
Qed.
Lemma nth_conv_same : forall x h t, h <> [] -> (t < length x)%nat -> nth t (conv_same x h) 0 = nth (t + (length h - 1) / 2) (conv x h) 0.
Proof. intros x h t Hh Ht. unfold conv_same. rewrite nth_firstn by auto. rewrite nth_skipn. f_equal. lia. Qed.
Theorem C85_factory_sum : forall cs fs n_fft rows x t, Forall (fun c => 0 < c) cs -> StronglySorted Rlt cs -> (0 < n_fft)%nat ->
  cosine_response cs fs true n_fft = Some rows -> (t < length x)%nat ->
  let ys := factory_analysis (factory_filters n_fft rows) x in
  length ys = length cs /\ (forall y, In y ys -> length y = length x) /\ Rsum (map (fun y => nth t y 0) ys) = nth t x 0.
Proof.
  intros cs fs n rows x t Hp Hs Hn Hr Ht ys. assert (Hl : length rows = length cs) by (apply (C54_sum cs fs true n rows 0); auto; lia).
  assert (Hx : x <> []) by (destruct x; cbn in Ht; [lia|congruence]).
  assert (Hfl : forall h, In h (factory_filters n rows) -> length h = n) by (intros h Hh; unfold factory_filters in Hh; apply in_map_iff in Hh; destruct Hh as (r & <- & _); apply irfft_length).
  split; [unfold ys, factory_analysis, factory_filters; now rewrite !map_length|]. split.
  { intros y Hy. unfold ys, factory_analysis in Hy. apply in_map_iff in Hy. destruct Hy as (h & <- & Hh). apply Hfl in Hh. unfold conv_same. rewrite firstn_length, skipn_length, conv_length; [|auto|destruct h; cbn in Hh; [lia|congruence]].
    rewrite Hh. assert (((n - 1) / 2 <= n - 1)%nat) by (apply Nat.div_le_upper_bound; lia). lia. }
  unfold ys, factory_analysis. rewrite map_map. set (m := ((n - 1) / 2)%nat).
  transitivity (Rsum (map (fun h => bsum (length x) (fun k => if (k <=? t + m)%nat then nth k x 0 * nth (t + m - k) h 0 else 0)) (factory_filters n rows))).
  { f_equal. apply map_ext_in. intros h Hh. pose proof (Hfl h Hh) as Hlh. assert (h <> []) by (destruct h; cbn in Hlh; [lia|congruence]). rewrite nth_conv_same by auto. rewrite Hlh. fold m. rewrite conv_nth by auto. rewrite bsum_Rsum. f_equal. apply map_ext_in. intros k Hk. unfold at_time.
    destruct (Z.ltb_spec (Z.of_nat (t + m) - Z.of_nat k) 0); destruct (Nat.leb_spec k (t + m)); try lia; [ring|]. do 2 f_equal. lia. }
  rewrite Rsum_bsum_swap. rewrite (bsum_delta (length x) t); auto.
  - destruct (Nat.leb_spec t (t + m)); [|lia]. rewrite Rsum_map_mult. replace (t + m - t)%nat with m by lia. unfold factory_filters. rewrite map_map. rewrite irfft_gains by (unfold m; assert (((n - 1) / 2 < n)%nat) by (apply Nat.div_lt_upper_bound; lia); lia).
    rewrite (map_ext_in _ (fun k => (RtoC 1 * omega n (Z.of_nat (k * (n / 2 + 1))))%C)). 2: { intros k Hk. apply in_seq in Hk. do 2 f_equal. apply (C54_sum cs fs true n rows k); auto. lia. }
    rewrite irfft_delay; auto. + fold m. rewrite Nat.eqb_refl. ring. + unfold m. apply Nat.div_lt_upper_bound; lia.
  - intros k Hk Hne. destruct (Nat.leb_spec k (t + m)) as [Hle|]. 2: { apply Rsum_map_zero. auto. }
    rewrite Rsum_map_mult. destruct (Nat.lt_ge_cases (t + m - k) n) as [Hlt|Hge].
    + unfold factory_filters. rewrite map_map, irfft_gains by auto. rewrite (map_ext_in _ (fun k => (RtoC 1 * omega n (Z.of_nat (k * (n / 2 + 1))))%C)). 2: { intros j Hj. apply in_seq in Hj. do 2 f_equal. apply (C54_sum cs fs true n rows j); auto. lia. }
      rewrite irfft_delay; auto. fold m. destruct (Nat.eqb_spec (t + m - k) m); [lia|ring].
    + replace (Rsum _) with 0; [ring|]. symmetry. apply Rsum_map_zero. intros h Hh. apply nth_overflow. rewrite Hfl; auto.
Qed.
Print Assumptions C85_factory_sum.
(** energy does not return one value per band but one per sample. *)
Theorem C85_energy_refuted : exists cs fs n_fft rows x, cosine_response cs fs true n_fft = Some rows /\ length (factory_energy (factory_filters n_fft rows) x) <> length cs.
Proof.
  destruct (two_bands_defined true) as (rows & H). exists [1; 2], 4, 4%nat, rows, [1; 1; 1]. split; auto. unfold factory_energy. rewrite map_length, seq_length. cbn. lia.
Qed.
Print Assumptions C85_energy_refuted.
Example C85_case : exists rows, cosine_response [1; 2] 4 true 4 = Some rows /\ Rsum (map (fun y => nth 1 y 0) (factory_analysis (factory_filters 4 rows) [5; 6; 7])) = 6.
Proof.
  destruct (two_bands_defined true) as (rows & H). exists rows. split; auto. apply (C85_factory_sum [1; 2] 4 4 rows [5; 6; 7] 1); auto; try (repeat constructor; lra); cbn; lia.
Qed.
