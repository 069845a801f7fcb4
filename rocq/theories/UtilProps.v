From Coq Require Import List ZArith Lia Reals Lra Bool R_Ifp.
From Flocq Require Import Core.
From Verif Require Import Base BaseProofs Vec Sum Cpx DftModel DftProofs RirModel SimulateModel SimulateSpec SimulateProofs StftProofs SyncModel UtilModel BandsProps.
Import ListNotations.
Local Open Scope R_scope.

(** ** C58 *)
Lemma dot_sum : forall a b, length a = length b -> dot a b = bsum (length a) (fun i => nth i a 0 * nth i b 0).
Proof.
  induction a as [|u a IH]; intros [|v b] H; cbn in H; try discriminate; [reflexivity|]. rewrite dot_cons, IH by lia. cbn [length]. now rewrite bsum_shift.
Qed.
Lemma bsum_trunc : forall n m f, (n <= m)%nat -> (forall i, (n <= i < m)%nat -> f i = 0) -> bsum m f = bsum n f.
Proof.
  intros n m f H Hz. replace m with (n + (m - n))%nat by lia. rewrite bsum_split. rewrite (bsum_zero_ext (m - n)); [ring|]. intros i Hi. apply Hz. lia.
Qed.
Theorem C58_convmtx : forall x v, x <> [] -> v <> [] -> exists H, convmtx x (length v) = Some H /\
  length H = (length x + length v - 1)%nat /\ (forall row, In row H -> length row = length v) /\
  map (fun row => dot row v) H = conv x v.
Proof.
  intros x v Hx Hv. unfold convmtx. assert (Lx : (0 < length x)%nat) by (destruct x; [congruence|cbn; lia]). assert (Lv : (0 < length v)%nat) by (destruct v; [congruence|cbn; lia]). destruct (Nat.eqb_spec (length v) 0); [lia|]. eexists. split; [reflexivity|].
  set (c := x ++ repeat 0 (length v - 1)). assert (Lc : length c = (length x + length v - 1)%nat) by (unfold c; rewrite app_length, repeat_length; lia). unfold toeplitz_cr. rewrite Lc, repeat_length.
  split; [now rewrite map_length, seq_length|]. split.
  { intros row Hr. apply in_map_iff in Hr. destruct Hr as (i & <- & _). now rewrite map_length, seq_length. }
  apply list_eq; [rewrite !map_length, seq_length, conv_length; auto|]. intros i Hi. rewrite !map_length, seq_length in Hi. rewrite map_map. rewrite nth_map_seq by auto. rewrite dot_sum by (now rewrite map_length, seq_length). rewrite map_length, seq_length.
  assert (Ec : forall k, nth k c 0 = nth k x 0). { intros k. unfold c. destruct (Nat.lt_ge_cases k (length x)); [now rewrite app_nth1|]. rewrite app_nth2 by auto. rewrite nth_repeat. now rewrite nth_overflow. }
  rewrite (bsum_ext _ _ (fun j => if (j <=? i)%nat then nth (i - j) x 0 * nth j v 0 else 0)).
  2: { intros j Hj. rewrite nth_map_seq by auto. rewrite Ec, nth_repeat. destruct (j <=? i)%nat; ring. }
  rewrite conv_nth by auto. rewrite <- bsum_Rsum.
  (* both are the sum over 0..i *)
  transitivity (bsum (S i) (fun j => nth (i - j) x 0 * nth j v 0)).
  - destruct (Nat.le_gt_cases (length v) (S i)) as [Hl|Hl].
    + rewrite (bsum_trunc (length v) (S i)) by (auto; intros j Hj; rewrite (nth_overflow v) by lia; ring). apply bsum_ext. intros j Hj. destruct (Nat.leb_spec j i); [auto|lia].
    + rewrite (bsum_trunc (S i) (length v)); [|lia|intros j Hj; destruct (Nat.leb_spec j i); [lia|auto]]. apply bsum_ext. intros j Hj. destruct (Nat.leb_spec j i); [auto|lia].
  - rewrite bsum_rev. transitivity (bsum (S i) (fun k => nth k x 0 * at_time v (Z.of_nat i - Z.of_nat k))).
    + apply bsum_ext. intros k Hk. replace (i - (S i - 1 - k))%nat with k by lia. unfold at_time. destruct (Z.ltb_spec (Z.of_nat i - Z.of_nat k) 0); [lia|]. do 2 f_equal. lia.
    + destruct (Nat.le_gt_cases (length x) (S i)) as [Hl|Hl]; [|symmetry].
      * apply bsum_trunc; auto. intros k Hk. rewrite (nth_overflow x) by lia. ring.
      * apply bsum_trunc; [lia|]. intros k Hk. unfold at_time. destruct (Z.ltb_spec (Z.of_nat i - Z.of_nat k) 0); [ring|lia].
Qed.
Print Assumptions C58_convmtx.
Example C58_case : exists H, convmtx [1; 2] 3 = Some H /\ map (fun row => dot row [3; 4; 5]) H = [3; 10; 13; 10].
Proof. eexists. split; [reflexivity|]. unfold dot, Rsum. cbn. repeat (f_equal; try lra). Qed.

(** ** C60 *)
Section Goertzel.
Variable w : R.
Definition g_step (st : R * R) (v : R) : R * R := (v - (- 2 * cos w) * fst st - 1 * snd st, fst st).
Definition g_out (st : R * R) : C := (cis w * RtoC (fst st) - RtoC (snd st))%C.
Lemma g_step_out : forall st v, g_out (g_step st v) = (cis w * (RtoC v + g_out st))%C.
Proof. intros [s1 s2] v. unfold g_out, g_step. cbn [fst snd]. assert (H : sin w * sin w = 1 - cos w * cos w) by (pose proof (sin2_cos2 w) as E; unfold Rsqr in E; lra). apply C_eq; cbn; [|ring]. ring_simplify. replace (sin w ^ 2) with (sin w * sin w) by ring. rewrite H. ring. Qed.
Lemma g_fold : forall x st, g_out (fold_left g_step x st) = (cis (w * INR (length x)) * g_out st + csum (length x) (fun m => RtoC (nth m x 0) * cis (w * INR (length x - m))))%C.
Proof.
  induction x as [|v x IH]; intros st; cbn [fold_left length].
  - rewrite csum_0. cbn [INR]. rewrite Rmult_0_r, cis_0. ring.
  - rewrite IH, g_step_out, csum_shift. cbn [nth Nat.sub]. rewrite S_INR. replace (w * (INR (length x) + 1)) with (w * INR (length x) + w) by ring. rewrite cis_add. ring.
Qed.
Lemma lfilter_last : forall x s1 s2, let f := fold_left g_step x (s1, s2) in let l := lfilter2 (- 2 * cos w) 1 s1 s2 x in
  ((1 <= length x)%nat -> nth (length x - 1) l 0 = fst f) /\ ((2 <= length x)%nat -> nth (length x - 2) l 0 = snd f) /\ (length x = 1%nat -> snd f = s1).
Proof.
  induction x as [|v x IH]; intros s1 s2; cbv zeta; cbn [length]; [repeat split; intros; lia|]. cbn [lfilter2 fold_left]. change (g_step (s1, s2) v) with (v - (- 2 * cos w) * s1 - 1 * s2, s1).
  set (s := v - (- 2 * cos w) * s1 - 1 * s2). destruct (IH s s1) as (I1 & I2 & I3). destruct x as [|v' x].
  - cbn. repeat split; auto. intros; lia.
  - set (y := v' :: x) in *. assert (Ly : (1 <= length y)%nat) by (unfold y; cbn; lia). repeat split; intros H; try lia.
    + replace (S (length y) - 1)%nat with (S (length y - 1)) by lia. cbn [nth]. auto.
    + destruct (Nat.eq_dec (length y) 1) as [E|E]; [rewrite E; cbn [Nat.sub nth]; symmetry; auto|]. replace (S (length y) - 2)%nat with (S (length y - 2)) by lia. cbn [nth]. apply I2. lia.
Qed.
End Goertzel.
(** For every integer bin the result is the sum of the signal against the complex exponential. *)
Theorem C60_goertzel : forall x k, (2 <= length x)%nat ->
  goertzel x k = Some (csum (length x) (fun j => (RtoC (nth j x 0) * cis (- (2 * PI * IZR k * INR j / INR (length x))))%C)).
Proof.
  intros x k Hl. unfold goertzel. destruct (Nat.ltb_spec (length x) 2); [lia|]. f_equal. set (N := length x) in *. set (w := 2 * PI * (IZR k / INR N)).
  destruct (lfilter_last w x 0 0) as (E1 & E2 & _). fold N in E1, E2. rewrite E1, E2 by lia. change (g_out w (fold_left (g_step w) x (0, 0)) = csum N (fun j => (RtoC (nth j x 0%R) * cis (- (2 * PI * IZR k * INR j / INR N)))%C)).
  rewrite g_fold. replace (g_out w (0, 0)) with C0 by (unfold g_out; apply C_eq; cbn; ring). fold N. transitivity (csum N (fun m => (RtoC (nth m x 0) * cis (w * INR (N - m)))%C)); [ring|]. apply csum_ext. intros m Hm. f_equal.
  replace (w * INR (N - m)) with (- (2 * PI * IZR k * INR m / INR N) + 2 * IZR k * PI). - apply cis_period. - rewrite minus_INR by lia. unfold w. field. apply not_0_INR. lia.
Qed.
Print Assumptions C60_goertzel.
Theorem C60_dft : forall x k, (2 <= length x)%nat -> goertzel x (Z.of_nat k) = Some (dft (length x) (fun j => RtoC (nth j x 0)) k).
Proof.
  intros x k Hl. rewrite C60_goertzel by auto. f_equal. unfold dft. apply csum_ext. intros j Hj. f_equal. unfold omega. f_equal. rewrite opp_IZR, Nat2Z.inj_mul, mult_IZR, <- !INR_IZR_INZ. unfold Rdiv. ring.
Qed.
Print Assumptions C60_dft.
Example C60_case : goertzel [1; 2; 3] 0 = Some (RtoC 6).
Proof. rewrite C60_goertzel by (cbn; lia). f_equal. unfold csum. cbn [length bsum nth]. apply C_eq; cbn; rewrite ?Rmult_0_r, ?Rmult_0_l; unfold Rdiv; rewrite ?Rmult_0_l, ?Rmult_0_r, ?Ropp_0, ?cos_0, ?sin_0; try lra; rewrite ?Rmult_0_l, ?Ropp_0, ?cos_0, ?sin_0; lra. Qed.

(** ** C61 *)
Lemma fmt_dyadic : forall m e, (Z.abs m <= 2 ^ 23)%Z -> (-149 <= e)%Z -> rnd32 (IZR m * bpow radix2 e) = IZR m * bpow radix2 e.
Proof.
  intros m e Hm He. unfold rnd32. apply round_generic; [apply valid_rnd_N|]. apply generic_format_FLT. apply FLT_spec with (Float radix2 m e); auto. cbn. lia.
Qed.
Lemma fmt_int : forall m, (Z.abs m <= 2 ^ 23)%Z -> rnd32 (IZR m) = IZR m.
Proof. intros m Hm. pose proof (fmt_dyadic m 0 Hm ltac:(lia)) as H. cbn [bpow] in H. now rewrite Rmult_1_r in H. Qed.
Lemma rnd32_le : forall x y, x <= y -> rnd32 x <= rnd32 y.
Proof. intros. unfold rnd32. apply round_le; auto; [apply FLT_exp_valid; red; lia|apply valid_rnd_N]. Qed.
Lemma rnd32_opp : forall x, rnd32 (- x) = - rnd32 x.
Proof. intros. unfold rnd32. apply round_NE_opp. Qed.
Lemma Int_part_ge : forall x z, IZR z <= x -> (z <= Int_part x)%Z.
Proof. intros x z H. destruct (base_Int_part x) as [_ H2]. assert (A : IZR (z - 1) < IZR (Int_part x)) by (rewrite minus_IZR; lra). apply lt_IZR in A. lia. Qed.
Lemma Int_part_le : forall x z, x < IZR z + 1 -> (Int_part x <= z)%Z.
Proof. intros x z H. destruct (base_Int_part x) as [H1 _]. assert (A : IZR (Int_part x) < IZR (z + 1)) by (rewrite plus_IZR; lra). apply lt_IZR in A. lia. Qed.
Lemma trunc_opp : forall x, trunc (- x) = (- trunc x)%Z.
Proof.
  intros x. unfold trunc. destruct (Rle_dec 0 x), (Rle_dec 0 (- x)); rewrite ?Ropp_involutive; try lra; try lia. assert (x = 0) by lra. subst. rewrite Ropp_0. assert (E : Int_part 0 = 0%Z) by (pose proof (Int_part_ge 0 0 ltac:(lra)); pose proof (Int_part_le 0 0 ltac:(lra)); lia). rewrite E. reflexivity.
Qed.
Lemma trunc_bound : forall x z, (0 <= z)%Z -> Rabs x <= IZR z -> (- z <= trunc x <= z)%Z.
Proof.
  assert (A : forall x z, 0 <= x -> x <= IZR z -> (0 <= trunc x <= z)%Z). { intros x z H0 H. unfold trunc. destruct (Rle_dec 0 x); [|lra]. split; [apply Int_part_ge; cbn; lra|apply Int_part_le; lra]. }
  intros x z Hz H. destruct (Rle_dec 0 x). - rewrite Rabs_pos_eq in H by auto. specialize (A x z r H). lia. - rewrite Rabs_left in H by lra. specialize (A (- x) z ltac:(lra) H). rewrite trunc_opp in A. lia.
Qed.
Lemma trunc_mono : forall x y, x <= y -> (trunc x <= trunc y)%Z.
Proof.
  assert (A : forall x y, 0 <= x <= y -> (trunc x <= trunc y)%Z). { intros x y [H0 H]. unfold trunc. destruct (Rle_dec 0 x), (Rle_dec 0 y); try lra. destruct (base_Int_part x). apply Int_part_ge. lra. }
  intros x y H. destruct (Rle_dec 0 x); [apply A; lra|]. destruct (Rle_dec y 0). - pose proof (A (- y) (- x) ltac:(lra)). rewrite !trunc_opp in H0. lia.
  - pose proof (A 0 y ltac:(lra)). pose proof (A 0 (- x) ltac:(lra)). rewrite trunc_opp in H1. assert (trunc 0 = 0%Z) by (pose proof (trunc_opp 0) as E; rewrite Ropp_0 in E; lia). lia.
Qed.
Lemma nth_map_in : forall {A B} (f : A -> B) l i a b, (i < length l)%nat -> nth i (map f l) b = f (nth i l a).
Proof. intros. rewrite (nth_indep _ b (f a)) by (now rewrite map_length). apply map_nth. Qed.
(** Samples in [-1,1] never overflow, and larger samples never give smaller integers. *)
Theorem C61_no_overflow : forall signal, Forall (fun s => -1 <= s <= 1) signal -> exists z, to_16b signal = Some z /\
  length z = length signal /\ (forall i, (i < length signal)%nat -> (-32767 <= nth i z 0 <= 32767)%Z) /\
  (forall i j, (i < length signal)%nat -> (j < length signal)%nat -> nth i signal 0 <= nth j signal 0 -> (nth i z 0 <= nth j z 0)%Z).
Proof.
  assert (B : forall s, -1 <= s <= 1 -> (- 32767 <= trunc (rnd32 (32767 * s)) <= 32767)%Z).
  { intros s Hs. apply (trunc_bound _ 32767); [lia|]. apply Rabs_le. pose proof (fmt_int 32767 ltac:(lia)) as F. split.
    - assert (A1 : rnd32 (- IZR 32767) <= rnd32 (32767 * s)) by (apply rnd32_le; lra). rewrite rnd32_opp, F in A1. exact A1. - assert (A1 : rnd32 (32767 * s) <= rnd32 (IZR 32767)) by (apply rnd32_le; lra). rewrite F in A1. exact A1. }
  intros signal H. exists (map (fun s => trunc (rnd32 (32767 * s))) signal). split; [|split; [apply map_length|split]].
  - unfold to_16b. induction H as [|s l Hs _ IH]; auto. cbn [mapM map]. unfold astype_int16 at 1. specialize (B s Hs). destruct ((-32768 <=? trunc (rnd32 (32767 * s))) && (trunc (rnd32 (32767 * s)) <=? 32767))%Z eqn:E; [cbn [bind]; now rewrite IH|]. apply andb_false_elim in E. destruct E as [E|E]; [apply Z.leb_gt in E|apply Z.leb_gt in E]; lia.
  - intros i Hi. rewrite nth_indep with (d' := (fun s => trunc (rnd32 (32767 * s))) 0) by (now rewrite map_length). rewrite (map_nth (fun s => trunc (rnd32 (32767 * s)))). apply B. rewrite Forall_forall in H. apply H. now apply nth_In.
  - intros i j Hi Hj Hle. rewrite (nth_map_in _ _ i 0), (nth_map_in _ _ j 0) by auto. apply trunc_mono, rnd32_le. lra.
Qed.
Print Assumptions C61_no_overflow.
(** Converting 16 bit integers to floats and back moves every non-zero sample one unit towards zero,
    in single precision arithmetic. *)
Lemma round_trip_pos : forall v, (0 < v <= 32768)%Z -> trunc (rnd32 (32767 * (IZR v / 32768))) = (v - 1)%Z.
Proof.
  intros v Hv. set (y := 32767 * (IZR v / 32768)). assert (Hv' : 1 <= IZR v <= 32768) by (split; apply IZR_le; lia). assert (Y : y = IZR v - IZR v / 32768) by (unfold y; lra).
  assert (L : IZR (v - 1) <= rnd32 y). { rewrite <- (fmt_int (v - 1)) by lia. apply rnd32_le. rewrite minus_IZR. lra. }
  assert (U : rnd32 y < IZR v). { set (k := Z.log2 v). pose proof (Z.log2_spec v ltac:(lia)) as [K1 K2]. fold k in K1, K2. assert (Hk : (0 <= k <= 15)%Z). { split; [apply Z.log2_nonneg|]. change 15%Z with (Z.log2 32768). apply Z.log2_le_mono. lia. }
    set (m := (v * 2 ^ (15 - k) - 1)%Z). assert (P1 : (2 ^ 15 = 2 ^ k * 2 ^ (15 - k))%Z) by (rewrite <- Z.pow_add_r by lia; f_equal; lia). assert (P2 : (0 < 2 ^ (15 - k))%Z) by (apply Z.pow_pos_nonneg; lia). assert (P3 : (2 ^ Z.succ k = 2 * 2 ^ k)%Z) by (rewrite Z.pow_succ_r; lia).
    assert (Hm : (Z.abs m <= 2 ^ 23)%Z). { unfold m. assert (0 < v * 2 ^ (15 - k))%Z by nia. assert (v * 2 ^ (15 - k) < 2 ^ 16)%Z by (rewrite P3 in K2; change (2 ^ 16)%Z with (2 * 2 ^ 15)%Z; nia). change (2 ^ 23)%Z with 8388608%Z. change (2 ^ 16)%Z with 65536%Z in *. lia. }
    assert (Hb : bpow radix2 (k - 15) * IZR (2 ^ (15 - k)) = 1). { change 2%Z with (radix_val radix2). rewrite IZR_Zpower by lia. rewrite <- bpow_plus. replace (k - 15 + (15 - k))%Z with 0%Z by lia. reflexivity. }
    assert (Hp : 0 < bpow radix2 (k - 15)) by apply bpow_gt_0.
    assert (W : IZR m * bpow radix2 (k - 15) = IZR v - bpow radix2 (k - 15)). { unfold m. rewrite minus_IZR, mult_IZR. transitivity (IZR v * (bpow radix2 (k - 15) * IZR (2 ^ (15 - k))) - bpow radix2 (k - 15)); [ring|]. rewrite Hb. ring. }
    apply Rle_lt_trans with (IZR m * bpow radix2 (k - 15)); [|lra]. rewrite <- fmt_dyadic by lia. apply rnd32_le. rewrite W, Y.
    assert (bpow radix2 (k - 15) <= IZR v / 32768); [|lra]. assert (Hk2 : bpow radix2 (k - 15) * 32768 = IZR (2 ^ k)). { change 2%Z with (radix_val radix2). rewrite IZR_Zpower by lia. change 32768 with (bpow radix2 15). rewrite <- bpow_plus. f_equal. lia. }
    apply Rmult_le_reg_r with 32768; [lra|]. rewrite Hk2. unfold Rdiv. rewrite Rmult_assoc, Rinv_l by lra. rewrite Rmult_1_r. now apply IZR_le. }
  unfold trunc. assert (0 <= IZR (v - 1)) by (apply IZR_le; lia). destruct (Rle_dec 0 (rnd32 y)); [|lra]. apply Z.le_antisymm; [apply Int_part_le; rewrite minus_IZR; lra|now apply Int_part_ge].
Qed.
Theorem C61_round_trip : forall data, Forall (fun v => (-32768 <= v <= 32767)%Z) data -> exists f, to_float32 (-32768) data = Some f /\
  f = map (fun v => IZR v / 32768) data /\ Forall (fun s => -1 <= s < 1) f /\ to_16b f = Some (map (fun v => (v - Z.sgn v)%Z) data).
Proof.
  intros data H. exists (map (fun v => IZR v / 32768) data).
  assert (E : forall v, (-32768 <= v <= 32767)%Z -> rnd32 (rnd32 (IZR v) / rnd32 (IZR (Z.abs (-32768)))) = IZR v / 32768).
  { intros v Hv. rewrite !fmt_int by lia. change (IZR (Z.abs (-32768))) with 32768. replace (IZR v / 32768) with (IZR v * bpow radix2 (-15)). - apply fmt_dyadic; lia. - cbn. lra. }
  split; [unfold to_float32; cbn [Z.eqb]; f_equal; apply map_ext_in; intros v Hv; rewrite Forall_forall in H; auto|]. split; auto. split.
  { apply Forall_forall. intros s Hs. apply in_map_iff in Hs. destruct Hs as (v & <- & Hv). rewrite Forall_forall in H. specialize (H v Hv). destruct H as [H1 H2]. apply IZR_le in H1, H2. lra. }
  unfold to_16b. induction H as [|v l Hv _ IH]; auto. cbn [map mapM]. assert (T : trunc (rnd32 (32767 * (IZR v / 32768))) = (v - Z.sgn v)%Z).
  { destruct (Z.lt_trichotomy v 0) as [Hn|[->|Hp]].
    - replace (32767 * (IZR v / 32768)) with (- (32767 * (IZR (- v) / 32768))) by (rewrite opp_IZR; lra). rewrite rnd32_opp, trunc_opp, round_trip_pos by lia. rewrite Z.sgn_neg by lia. lia.
    - replace (32767 * (0 / 32768)) with 0 by lra. rewrite (fmt_int 0) by (cbn; lia). pose proof (trunc_opp 0) as Z0. rewrite Ropp_0 in Z0. cbn. lia.
    - rewrite round_trip_pos by lia. rewrite Z.sgn_pos by lia. reflexivity. }
  unfold astype_int16 at 1. rewrite T. destruct ((-32768 <=? v - Z.sgn v) && (v - Z.sgn v <=? 32767))%Z eqn:Eb; [cbn [bind]; now rewrite IH|]. apply andb_false_elim in Eb. destruct (Z.lt_trichotomy v 0) as [Hn|[->|Hp]]; [rewrite Z.sgn_neg in Eb by lia|cbn in Eb|rewrite Z.sgn_pos in Eb by lia]; destruct Eb as [Eb|Eb]; try apply Z.leb_gt in Eb; try discriminate; lia.
Qed.
Print Assumptions C61_round_trip.
Theorem C61_lossless_refuted : exists data f z, Forall (fun v => (-32768 <= v <= 32767)%Z) data /\ to_float32 (-32768) data = Some f /\ to_16b f = Some z /\ z <> data.
Proof.
  assert (H : Forall (fun v => (-32768 <= v <= 32767)%Z) [1]%Z) by (repeat constructor; lia). destruct (C61_round_trip [1]%Z H) as (f & E1 & _ & _ & E2). exists [1]%Z, f, [0]%Z. repeat split; auto. discriminate.
Qed.
Print Assumptions C61_lossless_refuted.
(** Unsigned samples are divided by zero. *)
Theorem C61_unsigned_refuted : exists data, Forall (fun v => (0 <= v <= 255)%Z) data /\ to_float32 0 data = None.
Proof. exists [7]%Z. split; [repeat constructor; lia|reflexivity]. Qed.
Theorem C61_clip : forall signal high low i, low <= high -> (i < length signal)%nat ->
  length (clip signal high low) = length signal /\ low <= nth i (clip signal high low) 0 <= high /\
  (low <= nth i signal 0 <= high -> nth i (clip signal high low) 0 = nth i signal 0) /\
  (high < nth i signal 0 -> nth i (clip signal high low) 0 = high) /\ (nth i signal 0 < low -> nth i (clip signal high low) 0 = low).
Proof.
  intros signal high low i Hl Hi. unfold clip. rewrite map_map. set (f := fun v => if Rlt_dec (if Rlt_dec high v then high else v) low then low else if Rlt_dec high v then high else v).
  split; [apply map_length|]. rewrite nth_indep with (d' := f 0) by (now rewrite map_length). rewrite (map_nth f). unfold f. repeat destruct (Rlt_dec _ _); repeat split; intros; lra.
Qed.
Print Assumptions C61_clip.
Lemma absmax_ge : forall l v, In v l -> Rabs v <= absmax l.
Proof. unfold absmax. induction l as [|a l IH]; intros v Hv; [easy|]. cbn. destruct Hv as [->|Hv]; [apply Rmax_l|]. eapply Rle_trans; [now apply IH|apply Rmax_r]. Qed.
Lemma absmax_in : forall l, l <> [] -> exists v, In v l /\ Rabs v = absmax l.
Proof.
  induction l as [|a l IH]; [congruence|]. intros _. destruct l as [|b l].
  - exists a. split; [now left|]. unfold absmax. cbn. rewrite Rmax_left; auto. apply Rabs_pos.
  - destruct IH as (v & Hv & E); [congruence|]. set (m := b :: l) in *. change (absmax (a :: m)) with (Rmax (Rabs a) (absmax m)). unfold Rmax. destruct (Rle_dec (Rabs a) (absmax m)); [exists v; split; auto; now right|exists a; split; auto; now left].
Qed.
Lemma absmax_nonneg : forall l, 0 <= absmax l.
Proof. unfold absmax. induction l as [|a l IH]; cbn; [lra|]. eapply Rle_trans; [apply IH|apply Rmax_r]. Qed.
(** Normalisation: a positive multiple of the signal whose largest magnitude is one, or the top value of
    the format. *)
Theorem C61_normalize : forall signal bits, (forall b, bits = Some b -> (1 <= b)%nat) -> (exists v, In v signal /\ v <> 0) ->
  let top := match bits with None => 1 | Some b => 2 ^ (b - 1) - 1 end in
  exists s k, normalize signal bits = Some s /\ 0 <= k /\ s = map (fun v => k * v) signal /\ Forall (fun v => Rabs v <= top) s /\ exists v, In v s /\ Rabs v = top.
Proof.
  intros signal bits Hb (v0 & Hv0 & Hn0) top. assert (Hm : 0 < absmax signal) by (pose proof (absmax_ge _ _ Hv0); pose proof (Rabs_pos_lt v0 Hn0); lra). assert (Hs : signal <> []) by (destruct signal; [easy|congruence]). destruct (absmax_in signal Hs) as (vm & Hvm & Em). set (m := absmax signal) in *.
  assert (Ht : 0 <= top). { unfold top. destruct bits as [b|]; [|lra]. pose proof (pow_R1_Rle 2 (b - 1) ltac:(lra)). lra. }
  assert (F : Forall (fun v => Rabs v <= top) (map (fun v => top / m * v) signal)).
  { apply Forall_forall. intros v Hv. apply in_map_iff in Hv. destruct Hv as (u & <- & Hu). pose proof (absmax_ge _ _ Hu) as Hle. fold m in Hle. rewrite Rabs_mult, (Rabs_pos_eq (top / m)) by (apply Rmult_le_pos; auto; apply Rlt_le, Rinv_0_lt_compat; auto). apply Rle_trans with (top / m * m); [apply Rmult_le_compat_l; auto; apply Rmult_le_pos; auto; apply Rlt_le, Rinv_0_lt_compat; auto|]. unfold Rdiv. rewrite Rmult_assoc, Rinv_l by lra. lra. }
  exists (map (fun v => top / m * v) signal), (top / m). split; [|split; [|split; [|split; [|]]]]; auto.
  - unfold normalize. destruct signal as [|a l] eqn:El; [congruence|]. rewrite <- El in *. assert (Em' : absmax signal = m) by (now rewrite El). rewrite Em'. destruct (Req_EM_T m 0); [lra|]. destruct bits as [b|]; f_equal.
    + fold top. rewrite map_map. change (2 ^ (b - 1) - 1) with top. set (g := fun v => v / m * top). unfold clip. rewrite !map_map. apply map_ext_in. intros v Hv. rewrite Forall_forall in F. specialize (F (top / m * v) ltac:(apply in_map_iff; eauto)). assert (Eg : g v = top / m * v) by (unfold g, Rdiv; ring). rewrite Eg. apply Rabs_le_inv in F. assert (Tt : 2 ^ (b - 1) = top + 1) by (unfold top; ring). rewrite Tt.
      destruct (Rlt_dec top (top / m * v)); [lra|]. destruct (Rlt_dec _ _); lra.
    + apply map_ext. intros v. unfold top, Rdiv. ring.
  - apply Rmult_le_pos; auto. apply Rlt_le, Rinv_0_lt_compat; auto.
  - exists (top / m * vm). split; [apply in_map_iff; eauto|]. rewrite Rabs_mult, Em, (Rabs_pos_eq (top / m)) by (apply Rmult_le_pos; auto; apply Rlt_le, Rinv_0_lt_compat; auto). field. lra.
Qed.
Print Assumptions C61_normalize.
Theorem C61_silence_refuted : exists signal, signal <> [] /\ normalize signal None = None.
Proof. exists [0; 0]. split; [congruence|]. unfold normalize, absmax. cbn. rewrite Rabs_R0, !(Rmax_left 0 0) by lra. destruct (Req_EM_T 0 0); [auto|lra]. Qed.
Example C61_case : exists f, to_float32 (-32768) [-32768; -1; 0; 16384]%Z = Some f /\ to_16b f = Some [-32767; 0; 0; 16383]%Z.
Proof. destruct (C61_round_trip [-32768; -1; 0; 16384]%Z) as (f & E & _ & _ & E2); [repeat constructor; lia|]. exists f. split; auto. Qed.
