(** C64: windows. *)
From Coq Require Import List ZArith Lia Reals Lra Bool.
From Verif Require Import Base BaseProofs WindowModel UtilProps BandsProps.
Import ListNotations.
Local Open Scope R_scope.

Lemma full_asym : forall f m N, window f m N asymmetric wfull = Some (map (fun k => f (INR k / INR N)) (seq 0 N)).
Proof. intros. unfold window, normalise, positions. cbn [bind]. now rewrite !map_map. Qed.
Lemma full_sym : forall f m N, N <> 1%nat -> window f m N symmetric wfull = Some (map (fun k => f (INR k / (INR N - 1))) (seq 0 N)).
Proof. intros f m N H. unfold window, normalise, positions. destruct (Nat.eqb_spec N 1); [congruence|]. cbn [bind]. now rewrite !map_map. Qed.
(** Adding the window to itself shifted by half its length gives the constant [c]. *)
Definition overlap_adds (w : nat -> wflag -> wlength -> option (list R)) (c : R) : Prop :=
  forall h, (1 <= h)%nat -> exists l, w (2 * h)%nat asymmetric wfull = Some l /\ length l = (2 * h)%nat /\ forall n, (n < h)%nat -> nth n l 0 + nth (n + h) l 0 = c.
Definition is_symmetric (w : nat -> wflag -> wlength -> option (list R)) : Prop :=
  forall N, (2 <= N)%nat -> exists l, w N symmetric wfull = Some l /\ length l = N /\ forall n, (n < N)%nat -> nth n l 0 = nth (N - 1 - n) l 0.
(** Every window computed, whatever the options, has its values between two bounds. *)
Definition ranges_in (w : nat -> wflag -> wlength -> option (list R)) (lo hi : R) : Prop :=
  forall N flag len l, w N flag len = Some l -> forall v, In v l -> lo <= v <= hi.

Lemma overlap_gen : forall f m c, (forall t, 0 <= t <= / 2 -> f t + f (t + / 2) = c) -> overlap_adds (window f m) c.
Proof.
  intros f m c H h Hh. rewrite full_asym. eexists. split; [reflexivity|]. split; [now rewrite map_length, seq_length|]. intros n Hn. rewrite !nth_map_seq by lia. assert (P : 0 < INR h) by (apply lt_0_INR; lia). assert (N1 : 0 <= INR n <= INR h) by (split; [apply pos_INR|apply le_INR; lia]).
  replace (INR (n + h) / INR (2 * h)) with (INR n / INR (2 * h) + / 2) by (rewrite plus_INR, mult_INR; cbn; field; lra). apply H. rewrite mult_INR. cbn. split.
  - apply Rmult_le_pos; [lra|]. apply Rlt_le, Rinv_0_lt_compat. lra.
  - apply Rmult_le_reg_r with ((1 + 1) * INR h); [lra|]. unfold Rdiv. rewrite Rmult_assoc, Rinv_l by lra. lra.
Qed.
Lemma sym_gen : forall f m, (forall t, f (1 - t) = f t) -> is_symmetric (window f m).
Proof.
  intros f m H N HN. rewrite full_sym by lia. eexists. split; [reflexivity|]. split; [now rewrite map_length, seq_length|]. intros n Hn. rewrite !nth_map_seq by lia. rewrite <- H. f_equal. rewrite !minus_INR by lia. cbn. assert (1 < INR N) by (apply lt_1_INR; lia). field. lra.
Qed.
Lemma range_gen : forall f m lo hi, (forall t, lo <= f t <= hi) -> ranges_in (window f m) lo hi.
Proof.
  intros f m lo hi H N flag len l E v Hv. unfold window in E. destruct (normalise _ _ _) as [t|]; [|discriminate]. cbn [bind] in E. assert (Hl : l = map f t) by (destruct flag, m; try discriminate; now apply Some_inj in E). subst l. apply in_map_iff in Hv. destruct Hv as (u & <- & Hu). apply H.
Qed.
Lemma half_pi_shift : forall t, cos (2 * PI * (t + / 2)) = - cos (2 * PI * t).
Proof. intros t. replace (2 * PI * (t + / 2)) with (2 * PI * t + PI) by field. apply neg_cos. Qed.
Lemma cos_flip : forall (n : nat) t, cos (2 * INR n * PI * (1 - t)) = cos (2 * INR n * PI * t).
Proof. intros n t. replace (2 * INR n * PI * (1 - t)) with (- (2 * INR n * PI * t) + 2 * INR n * PI) by ring. rewrite cos_period. apply cos_neg. Qed.
Lemma cos_flip2 : forall t, cos (2 * PI * (1 - t)) = cos (2 * PI * t).
Proof. intros t. pose proof (cos_flip 1 t) as H. cbn [INR] in H. now rewrite !Rmult_1_r in H. Qed.
Ltac flip n t := let H := fresh in pose proof (cos_flip n t) as H; cbn [INR] in H;
  match type of H with cos (?a * PI * _) = _ => let q := constr:(a) in
    first [replace q with 4 in H by ring | replace q with 6 in H by ring | replace q with 8 in H by ring] end; rewrite H; clear H.

(** With half-length shifts the asymmetric Hann, triangular and squared cosine windows add to one, the
    Hamming window to 1.08. *)
Theorem C64_overlap : overlap_adds hann 1 /\ overlap_adds triang 1 /\ overlap_adds cosine 1 /\ overlap_adds hamming (108 / 100).
Proof.
  repeat split; apply overlap_gen; intros t Ht.
  - rewrite half_pi_shift. field.
  - rewrite (Rabs_left1 (2 * t - 1)) by lra. rewrite (Rabs_pos_eq (2 * (t + / 2) - 1)) by lra. field.
  - replace (PI * (t + / 2 - / 2)) with (PI * (t - / 2) + PI / 2) by field. rewrite cos_plus, cos_PI2, sin_PI2. pose proof (sin2_cos2 (PI * (t - / 2))) as H. unfold Rsqr in H. nra.
  - rewrite half_pi_shift. field.
Qed.
Example C64_overlap_case : exists l, hann 4 asymmetric wfull = Some l /\ nth 0 l 0 = 0 /\ nth 1 l 0 = / 2 /\ nth 2 l 0 = 1 /\ nth 3 l 0 = / 2.
Proof.
  unfold hann. rewrite full_asym. eexists. split; [reflexivity|]. rewrite !nth_map_seq by lia. cbn [INR]. replace (2 * PI * (0 / (1 + 1 + 1 + 1))) with 0 by field. replace (2 * PI * (1 / (1 + 1 + 1 + 1))) with (PI / 2) by field. replace (2 * PI * ((1 + 1) / (1 + 1 + 1 + 1))) with PI by field. replace (2 * PI * ((1 + 1 + 1) / (1 + 1 + 1 + 1))) with (3 * (PI / 2)) by field. rewrite cos_0, cos_PI2, cos_PI, cos_3PI2. repeat split; lra.
Qed.

(** Symmetric windows read the same backwards. *)
Theorem C64_symmetric : is_symmetric hann /\ is_symmetric hamming /\ is_symmetric triang /\ is_symmetric cosine /\ is_symmetric blackman_harris /\ is_symmetric flattop.
Proof.
  repeat split; apply sym_gen; intros t.
  - now rewrite cos_flip2.
  - now rewrite cos_flip2.
  - rewrite <- (Rabs_Ropp (2 * (1 - t) - 1)). do 2 f_equal. ring.
  - rewrite <- cos_neg. do 2 f_equal. field.
  - rewrite cos_flip2. flip 2%nat t. flip 3%nat t. reflexivity.
  - rewrite cos_flip2. flip 2%nat t. flip 3%nat t. flip 4%nat t. reflexivity.
Qed.
Theorem C64_gaussian : forall N std, std <> 0 -> exists l, gaussian N std = Some l /\ length l = N /\ (forall v, In v l -> 0 < v <= 1) /\ forall n, (n < N)%nat -> nth n l 0 = nth (N - 1 - n) l 0.
Proof.
  intros N std H. unfold gaussian. destruct (Req_EM_T std 0); [lra|]. eexists. split; [reflexivity|]. split; [now rewrite map_length, seq_length|]. split.
  - intros v Hv. apply in_map_iff in Hv. destruct Hv as (k & <- & _). split; [apply exp_pos|]. apply Rle_trans with (exp 0); [|rewrite exp_0; lra]. assert (P : - (INR k - (INR N - 1) / 2) ^ 2 / (2 * std ^ 2) <= 0).
    { unfold Rdiv. rewrite Ropp_mult_distr_l_reverse. apply Rge_le, Ropp_0_le_ge_contravar. apply Rmult_le_pos; [rewrite <- Rsqr_pow2; apply Rle_0_sqr|]. apply Rlt_le, Rinv_0_lt_compat. pose proof (Rsqr_pos_lt std n). rewrite Rsqr_pow2 in *. lra. }
    destruct P as [P|P]; [left; now apply exp_increasing|right; now rewrite P].
  - intros k Hk. rewrite !nth_map_seq by lia. f_equal. f_equal. f_equal. rewrite !minus_INR by lia. cbn. field.
Qed.
Theorem C64_bohman : forall N flag, (2 <= N)%nat -> flag <> mdct -> exists l, bohman N flag = Some l /\ length l = N /\ forall n, (n < N)%nat -> nth n l 0 = nth (N - 1 - n) l 0.
Proof.
  intros N flag HN Hf. unfold bohman. set (l := 0 :: _). exists l. split; [destruct flag; try reflexivity; elim Hf; reflexivity|].
  assert (L : length l = N) by (unfold l; cbn [length]; rewrite app_length, !map_length, seq_length; cbn; lia). split; [auto|].
  set (g := fun x => (1 - x) * cos (PI * x) + 1 / PI * sin (PI * x)). set (h := fun k : nat => Rabs (-1 + INR k * (2 / (INR N - 1)))).
  assert (G : forall n, (n < N)%nat -> nth n l 0 = if ((n =? 0) || (n =? N - 1))%nat then 0 else g (h n)).
  { intros n Hn. unfold l. destruct n as [|n]; [reflexivity|]. cbn [nth]. destruct (Nat.eqb_spec (S n) (N - 1)) as [Q|Q].
    - rewrite app_nth2 by (rewrite !map_length, seq_length; lia). rewrite !map_length, seq_length. replace (n - (N - 2))%nat with 0%nat by lia. reflexivity.
    - rewrite app_nth1 by (rewrite !map_length, seq_length; lia). rewrite map_map, nth_map_seq by lia. reflexivity. }
  intros n Hn. rewrite !G by lia. destruct (Nat.eqb_spec n 0), (Nat.eqb_spec n (N - 1)), (Nat.eqb_spec (N - 1 - n) 0), (Nat.eqb_spec (N - 1 - n) (N - 1)); try lia; cbn; auto. f_equal. unfold h. rewrite <- Rabs_Ropp. f_equal. rewrite !minus_INR by lia. cbn. assert (1 < INR N) by (apply lt_1_INR; lia). field. lra.
Qed.

(** Values lie between 0 and 1 (Hamming: 0.08 and 1) for every length, flag and half. *)
Theorem C64_range : ranges_in hann 0 1 /\ ranges_in cosine 0 1 /\ ranges_in hamming (8 / 100) 1.
Proof.
  split; [|split]; apply range_gen; intros t.
  - pose proof (COS_bound (2 * PI * t)). lra.
  - pose proof (COS_bound (PI * (t - / 2))). nra.
  - pose proof (COS_bound (2 * PI * t)). lra.
Qed.
(** The triangular window as well, except for the right half of a symmetric window of odd length. *)
Lemma INR_half : forall N, INR ((N + 1) / 2) <= (INR N + 1) / 2.
Proof. intros N. pose proof (Nat.mul_div_le (N + 1) 2). assert (Q : INR (2 * ((N + 1) / 2)) <= INR (N + 1)) by (apply le_INR; lia). rewrite mult_INR, plus_INR in Q. change (INR 2) with 2 in Q. change (INR 1) with 1 in Q. lra. Qed.
Theorem C64_triang_range : forall N flag len l, (len = wright -> flag = symmetric -> Nat.Even N) -> triang N flag len = Some l -> forall v, In v l -> 0 <= v <= 1.
Proof.
  intros N flag len l Ho E v Hv. unfold triang, window in E.
  assert (P : forall x, In x (positions N len) -> (1 <= N)%nat /\ 0 <= x /\ x <= INR N /\ (flag = symmetric -> x <= INR N - 1)).
  { intros x Hx. unfold positions in Hx. pose proof (INR_half N) as IH. destruct len; apply in_map_iff in Hx; destruct Hx as (k & <- & Hk); apply in_seq in Hk; assert (HN : (1 <= N)%nat) by (destruct N; [cbn in Hk; lia|lia]); pose proof (pos_INR k) as Pk.
    - split; auto. assert (INR k <= INR N - 1) by (apply le_INR in HN; assert (INR k <= INR (N - 1)) by (apply le_INR; lia); rewrite minus_INR in H by lia; cbn in *; lra). repeat split; intros; lra.
    - split; auto. assert (K : (k <= N - 1)%nat) by (pose proof (Nat.mul_div_le (N + 1) 2); lia). apply le_INR in K. rewrite minus_INR in K by lia. cbn in K. repeat split; intros; lra.
    - assert (K : INR (S k) <= INR ((N + 1) / 2)) by (apply le_INR; lia). rewrite S_INR in K. apply le_INR in HN as HN'. cbn in HN'. split; auto. split; [lra|]. split; [lra|]. intros Ef. destruct (Ho eq_refl Ef) as (h & ->).
      replace ((2 * h + 1) / 2)%nat with h in Hk by (replace (2 * h + 1)%nat with (1 + h * 2)%nat by lia; rewrite Nat.div_add by lia; reflexivity). assert (K2 : (k <= h - 1)%nat) by lia. apply le_INR in K2. rewrite minus_INR in K2 by lia. rewrite mult_INR. cbn in *. lra. }
  assert (T : forall t, 0 <= t <= 1 -> 0 <= 1 - Rabs (2 * t - 1) <= 1) by (intros t Ht; unfold Rabs; destruct (Rcase_abs _); lra).
  destruct flag; cbn [normalise bind] in E.
  - apply Some_inj in E. subst l. rewrite map_map in Hv. apply in_map_iff in Hv. destruct Hv as (x & <- & Hx). destruct (P _ Hx) as (HN & H0 & H1 & _). apply T. apply le_INR in HN. change (INR 1) with 1 in HN. split; [apply Rmult_le_pos; [lra|apply Rlt_le, Rinv_0_lt_compat; lra]|]. apply Rmult_le_reg_r with (INR N); [lra|]. unfold Rdiv. rewrite Rmult_assoc, Rinv_l by lra. lra.
  - destruct (Nat.eqb_spec N 1) as [->|HN1].
    + destruct len; discriminate.
    + cbn [bind] in E. apply Some_inj in E. subst l. rewrite map_map in Hv. apply in_map_iff in Hv. destruct Hv as (x & <- & Hx). destruct (P _ Hx) as (HN & H0 & H1 & H2). specialize (H2 eq_refl). apply T. assert (1 < INR N) by (apply lt_1_INR; lia). split; [apply Rmult_le_pos; [lra|apply Rlt_le, Rinv_0_lt_compat; lra]|]. apply Rmult_le_reg_r with (INR N - 1); [lra|]. unfold Rdiv. rewrite Rmult_assoc, Rinv_l by lra. lra.
  - destruct (Nat.eqb N 1); [destruct (positions N len); discriminate|discriminate].
Qed.
Theorem C64_triang_odd_refuted : exists N l, triang N symmetric wright = Some l /\ exists v, In v l /\ v < 0.
Proof. exists 3%nat. eexists. split; [reflexivity|]. exists (1 - Rabs (2 * ((INR 3 / 2 + INR 1) / (INR 3 - 1)) - 1)). split; [cbn; auto|]. cbn [INR]. rewrite Rabs_pos_eq; lra. Qed.

(** From its first value a window climbs strictly up to its middle, where it is one. *)
Definition last_position (N : nat) (flag : wflag) : nat := match flag with symmetric => N - 1 | _ => N end.
Definition climbs (w : nat -> wflag -> wlength -> option (list R)) (first : R) : Prop := forall N flag l, (2 <= N)%nat -> w N flag wfull = Some l ->
  nth 0 l 0 = first /\ (forall n, (2 * S n <= last_position N flag)%nat -> nth n l 0 < nth (S n) l 0) /\ (forall n, (2 * n = last_position N flag)%nat -> nth n l 0 = 1).
Lemma climbs_gen : forall f first, f 0 = first -> f (/ 2) = 1 -> (forall s t, 0 <= s -> s < t -> t <= / 2 -> f s < f t) -> climbs (window f true) first.
Proof.
  intros f first F0 F1 Fm N flag l HN E. assert (G : (2 <= N)%nat -> exists M, INR (last_position N flag) = M /\ 0 < M /\ (last_position N flag <= N)%nat /\ (1 <= last_position N flag)%nat /\ l = map (fun k => f (INR k / M)) (seq 0 N)).
  { intros _. destruct flag; cbn [last_position].
    - rewrite full_asym in E. apply Some_inj in E. exists (INR N). repeat split; auto; try lia. apply lt_0_INR. lia.
    - rewrite full_sym in E by lia. apply Some_inj in E. exists (INR N - 1). rewrite minus_INR by lia. change (INR 1) with 1. assert (1 < INR N) by (apply lt_1_INR; lia). repeat split; auto; try lia; lra.
    - unfold window in E. destruct (normalise _ _ _); discriminate. }
  destruct (G HN) as (M & EM & PM & LN & L1 & ->). split; [|split].
  - rewrite nth_map_seq by lia. cbn [INR]. unfold Rdiv. now rewrite Rmult_0_l.
  - intros n Hn. rewrite !nth_map_seq by lia. apply le_INR in Hn. rewrite mult_INR, EM in Hn. change (INR 2) with 2 in Hn. rewrite S_INR in Hn. pose proof (pos_INR n). apply Fm.
    + apply Rmult_le_pos; [lra|apply Rlt_le, Rinv_0_lt_compat; lra].
    + rewrite S_INR. apply Rmult_lt_compat_r; [apply Rinv_0_lt_compat; lra|lra].
    + rewrite S_INR. apply Rmult_le_reg_r with M; [lra|]. unfold Rdiv. rewrite Rmult_assoc, Rinv_l by lra. lra.
  - intros n Hn. rewrite nth_map_seq by lia. rewrite <- EM, <- Hn, mult_INR. change (INR 2) with 2. assert (0 < INR n) by (apply lt_0_INR; lia). replace (INR n / (2 * INR n)) with (/ 2) by (field; lra). exact F1.
Qed.
Lemma cos_falls : forall s t, 0 <= s -> s < t -> t <= / 2 -> cos (2 * PI * t) < cos (2 * PI * s).
Proof. intros s t H0 H1 H2. pose proof PI_RGT_0 as P. assert (0 <= PI * s) by (apply Rmult_le_pos; lra). assert (PI * s < PI * t) by (apply Rmult_lt_compat_l; lra). assert (PI * t <= PI * / 2) by (apply Rmult_le_compat_l; lra). apply cos_decreasing_1; lra. Qed.
Theorem C64_climbs : climbs hann 0 /\ climbs triang 0 /\ climbs cosine 0 /\ climbs hamming (8 / 100).
Proof.
  assert (H2 : 2 * PI * / 2 = PI) by field. split; [|split; [|split]]; apply climbs_gen.
  - rewrite Rmult_0_r, cos_0. field.
  - rewrite H2, cos_PI. field.
  - intros s t A B D. pose proof (cos_falls s t A B D). lra.
  - rewrite Rabs_left1; lra.
  - rewrite Rabs_right; lra.
  - intros s t A B D. rewrite !Rabs_left1; lra.
  - replace (PI * (0 - / 2)) with (- (PI / 2)) by field. rewrite cos_neg, cos_PI2. ring.
  - replace (PI * (/ 2 - / 2)) with 0 by field. rewrite cos_0. ring.
  - intros s t A B D. pose proof (cos_falls s t A B D) as K.
    assert (Q : forall u, cos (PI * (u - / 2)) ^ 2 = / 2 * (1 - cos (2 * PI * u))).
    { intros u. replace (PI * (u - / 2)) with (PI * u - PI / 2) by field. rewrite cos_minus, cos_PI2, sin_PI2. replace (2 * PI * u) with (2 * (PI * u)) by ring. rewrite cos_2a_sin. field. }
    rewrite !Q. lra.
  - rewrite Rmult_0_r, cos_0. lra.
  - rewrite H2, cos_PI. lra.
  - intros s t A B D. pose proof (cos_falls s t A B D). lra.
Qed.

(** The two halves put together are the whole window, for even lengths. *)
Definition halves (w : nat -> wflag -> wlength -> option (list R)) : Prop := forall N flag, Nat.Even N -> flag <> mdct -> exists l r,
  w N flag wleft = Some l /\ w N flag wright = Some r /\ w N flag wfull = Some (l ++ r).
Lemma halves_gen : forall f m N flag, Nat.Even N -> flag <> mdct -> exists l r,
  window f m N flag wleft = Some l /\ window f m N flag wright = Some r /\ window f m N flag wfull = Some (l ++ r).
Proof.
  intros f m N flag (h & ->) Hf. set (N := (2 * h)%nat) in *. assert (P : positions N wfull = positions N wleft ++ positions N wright).
  { unfold positions, N. replace ((2 * h + 1) / 2)%nat with h by (replace (2 * h + 1)%nat with (1 + h * 2)%nat by lia; rewrite Nat.div_add by lia; reflexivity). replace (2 * h)%nat with (h + h)%nat at 1 by lia. rewrite seq_app, map_app. f_equal. rewrite Nat.add_0_l. replace (seq h h) with (map (fun k => (h + k)%nat) (seq 0 h)) by (clear; apply nth_ext with 0%nat 0%nat; rewrite map_length, ?seq_length; auto; intros n Hn; rewrite (nth_map_in _ _ _ 0%nat) by (rewrite seq_length; auto); rewrite !seq_nth by auto; lia). rewrite map_map. apply map_ext. intros k. rewrite plus_INR, mult_INR. cbn. field. }
  assert (H1 : (N =? 1)%nat = false) by (apply Nat.eqb_neq; unfold N; lia). unfold window, normalise. rewrite H1, P. destruct flag; [| |congruence]; cbn [bind]; do 2 eexists; (split; [reflexivity|]); (split; [reflexivity|]); now rewrite !map_app.
Qed.
Theorem C64_halves : halves hann /\ halves hamming /\ halves triang /\ halves cosine /\ halves blackman_harris /\ halves flattop /\ halves bart /\ halves bart_hann /\ halves blackman.
Proof.
  repeat split; intros N flag HN Hf; now apply halves_gen.
Qed.

(** The mdct flag always raises (float slice bounds). *)
Theorem C64_mdct_refuted : exists w, (w = hann \/ w = cosine) /\ forall N len, w N mdct len = None.
Proof. exists hann. split; [auto|]. intros N len. unfold hann, window. destruct (normalise _ _ _); reflexivity. Qed.
(** bart, bart_hann and blackman divide the normalised time once more: not symmetric. *)
Theorem C64_bart_refuted : exists N l, bart N symmetric wfull = Some l /\ nth 0 l 0 = 0 /\ nth (N - 1) l 0 = 1.
Proof.
  exists 3%nat. unfold bart. rewrite full_sym by lia. eexists. split; [reflexivity|]. rewrite !nth_map_seq by lia. cbn [INR Nat.sub]. split.
  - rewrite Rabs_left1; lra.
  - rewrite Rabs_pos_eq; lra.
Qed.
Theorem C64_blackman_refuted : exists N l, blackman N symmetric wfull = Some l /\ nth 0 l 0 = 0 /\ nth (N - 1) l 0 = 1.
Proof.
  exists 3%nat. unfold blackman. rewrite full_sym by lia. eexists. split; [reflexivity|]. rewrite !nth_map_seq by lia. cbn [INR Nat.sub]. split.
  - replace (2 * PI * (0 / (1 + 1 + 1 - 1)) / (1 + 1 + 1 - 1)) with 0 by field. replace (4 * PI * (0 / (1 + 1 + 1 - 1)) / (1 + 1 + 1 - 1)) with 0 by field. rewrite cos_0. lra.
  - replace (2 * PI * ((1 + 1) / (1 + 1 + 1 - 1)) / (1 + 1 + 1 - 1)) with PI by field. replace (4 * PI * ((1 + 1) / (1 + 1 + 1 - 1)) / (1 + 1 + 1 - 1)) with (2 * PI) by field. rewrite cos_PI, cos_2PI. lra.
Qed.
Theorem C64_bart_hann_refuted : exists N l, bart_hann N symmetric wfull = Some l /\ nth 0 l 0 = 0 /\ nth (N - 1) l 0 = 1.
Proof.
  exists 2%nat. unfold bart_hann. rewrite full_sym by lia. eexists. split; [reflexivity|]. rewrite !nth_map_seq by lia. cbn [INR Nat.sub]. split.
  - replace (2 * PI * (0 / (1 + 1 - 1) / (1 + 1) - / 2)) with (- PI) by field. rewrite cos_neg, cos_PI. rewrite Rabs_left1; lra.
  - replace (1 / (1 + 1 - 1) / (1 + 1) - / 2) with 0 by field. rewrite Rmult_0_r, cos_0, Rabs_R0. lra.
Qed.
(** The last Blackman-Harris coefficient is added instead of subtracted: the window does not reach one at its centre. *)
Theorem C64_harris_refuted : exists N l, blackman_harris N asymmetric wfull = Some l /\ nth 0 l 0 = 2342 / 100000 /\ nth (N / 2) l 0 = 97664 / 100000.
Proof.
  exists 2%nat. unfold blackman_harris. rewrite full_asym. eexists. split; [reflexivity|]. rewrite !nth_map_seq by (cbn; lia). cbn [INR Nat.div Nat.divmod fst]. split.
  - unfold Rdiv at 3 5 7. rewrite !Rmult_0_l, !Rmult_0_r, cos_0. lra.
  - replace (2 * PI * (1 / (1 + 1))) with PI by field. replace (4 * PI * (1 / (1 + 1))) with (2 * PI) by field. replace (6 * PI * (1 / (1 + 1))) with (PI + 2 * PI) by field. rewrite cos_PI, cos_2PI, cos_plus, cos_2PI, sin_2PI, cos_PI. lra.
Qed.
Theorem C64_single_refuted : exists N, (1 <= N)%nat /\ hann N symmetric wfull = None.
Proof. exists 1%nat. split; [lia|reflexivity]. Qed.
Print Assumptions C64_overlap. Print Assumptions C64_symmetric. Print Assumptions C64_gaussian. Print Assumptions C64_bohman. Print Assumptions C64_range. Print Assumptions C64_triang_range. Print Assumptions C64_halves.
Print Assumptions C64_climbs.
