(** C156: fractional delay filters by convex optimisation. *)
From Coq Require Import List ZArith Lia Reals Lra.
From Verif Require Import Base BaseProofs Sum Cpx FridaProofs FridaProps PutnamModel.
Import ListNotations.
Local Open Scope R_scope.

(** ** Specification *)
(** the frequency response of a filter, and its distance from that of an ideal delay *)
Definition response (n_taps : nat) (h : nat -> R) (w : R) : C := csum n_taps (fun n => Cmul (RtoC (h n)) (cis (- (w * INR n)))).
Definition distance (delta : R) (n_taps : nat) (h : nat -> R) (w : R) : R := sqrt (Cabs2 (Csub (cis (- (w * delta))) (response n_taps h w))).
(** the filter is at most [t] off at all the frequencies of the design *)
Definition within (delta : R) (n_taps : nat) (w_max : R) (n_c : nat) (h : nat -> R) (t : R) : Prop := forall i, (i < n_c)%nat -> distance delta n_taps h (freq w_max n_c i) <= t.

(** ** Proofs *)
Lemma response_re n h w : fst (response n h w) = bsum n (fun j => cos (w * INR j) * h j).
Proof. unfold response. induction n as [|n IH]; [reflexivity|]. rewrite csum_S. cbn [fst snd Cadd bsum]. rewrite IH. unfold cis, RtoC. cbn. rewrite cos_neg. ring. Qed.
Lemma response_im n h w : snd (response n h w) = bsum n (fun j => - sin (w * INR j) * h j).
Proof. unfold response. induction n as [|n IH]; [reflexivity|]. rewrite csum_S. cbn [fst snd Cadd bsum]. rewrite IH. unfold cis, RtoC. cbn. rewrite sin_neg. ring. Qed.
Lemma cone_meaning delta n w x : in_cone (fun r => cone_vec delta w r - bsum (n + 1) (fun j => cone_mtx n w r j * x j)) <-> distance delta n x w <= x n.
Proof.
  unfold in_cone. rewrite Nat.add_1_r. cbn [bsum]. unfold cone_mtx, cone_vec, objective. rewrite Nat.eqb_refl.
  rewrite (bsum_ext n (fun j => (if Nat.eqb j n then 0 else cos (w * INR j)) * x j) (fun j => cos (w * INR j) * x j)) by (intros j Hj; destruct (Nat.eqb_spec j n); [lia|reflexivity]).
  rewrite (bsum_ext n (fun j => (if Nat.eqb j n then 0 else - sin (w * INR j)) * x j) (fun j => - sin (w * INR j) * x j)) by (intros j Hj; destruct (Nat.eqb_spec j n); [lia|reflexivity]).
  rewrite (bsum_zero_ext n (fun j => - (if Nat.eqb j n then 1 else 0) * x j)) by (intros j Hj; destruct (Nat.eqb_spec j n); [lia|ring]).
  rewrite <- response_re, <- response_im. unfold distance, Cabs2, Csub, cis. cbn [fst snd]. rewrite cos_neg, sin_neg.
  match goal with |- sqrt ?a <= ?b <-> sqrt ?d <= ?e => replace a with d by ring; replace b with e by ring end. reflexivity.
Qed.
Lemma feasible_meaning delta n w_max n_c x : feasible (n + 1) (map (fun i => let w := freq w_max n_c i in (cone_mtx n w, cone_vec delta w)) (seq 0 n_c)) x <-> within delta n w_max n_c x (x n).
Proof.
  unfold feasible, within. split.
  - intros H i Hi. apply cone_meaning. apply H. apply in_map_iff. exists i. split; [reflexivity|]. apply in_seq. lia.
  - intros H G h I. apply in_map_iff in I as (i & E & I). apply in_seq in I. assert (E1 := f_equal fst E). assert (E2 := f_equal snd E). cbn [fst snd] in E1, E2. rewrite <- E1, <- E2. apply cone_meaning. apply H. lia.
Qed.
Lemma objective_value n x : bsum (n + 1) (fun j => objective n j * x j) = x n.
Proof. rewrite Nat.add_1_r. cbn [bsum]. unfold objective at 2. rewrite Nat.eqb_refl. rewrite bsum_zero_ext; [ring|]. intros j Hj. unfold objective. destruct (Nat.eqb_spec j n); [lia|ring]. Qed.
Lemma response_ext n h g w : (forall j, (j < n)%nat -> h j = g j) -> response n h w = response n g w.
Proof. intros H. apply csum_ext. intros j Hj. now rewrite H. Qed.
Lemma within_ext delta n w_max n_c h g t : (forall j, (j < n)%nat -> h j = g j) -> within delta n w_max n_c h t -> within delta n w_max n_c g t.
Proof. intros H W i Hi. unfold distance. rewrite <- (response_ext n h g) by exact H. now apply W. Qed.
Lemma frac_delay_iff delta n w_max c_ratio h : frac_delay delta n w_max c_ratio h <->
  exists t, within delta n w_max (n_constraints c_ratio n) h t /\ forall g t', within delta n w_max (n_constraints c_ratio n) g t' -> t <= t'.
Proof.
  unfold frac_delay, socp. set (n_c := n_constraints c_ratio n). cbv zeta. split.
  - intros (x & [Fx Ox] & Hh). exists (x n). apply feasible_meaning in Fx. split; [apply (within_ext delta n w_max n_c x); [intros; symmetry; auto|exact Fx]|].
    intros g t' W. specialize (Ox (fun j => if Nat.eqb j n then t' else g j)). rewrite !objective_value, Nat.eqb_refl in Ox. apply Ox. apply feasible_meaning. rewrite Nat.eqb_refl. apply (within_ext delta n w_max n_c g); [|exact W]. intros j Hj. destruct (Nat.eqb_spec j n); [lia|reflexivity].
  - intros (t & W & O). exists (fun j => if Nat.eqb j n then t else h j). split; [|intros j Hj; destruct (Nat.eqb_spec j n); [lia|reflexivity]]. split.
    + apply feasible_meaning. rewrite Nat.eqb_refl. apply (within_ext delta n w_max n_c h); [|exact W]. intros j Hj. destruct (Nat.eqb_spec j n); [lia|reflexivity].
    + intros y Fy. rewrite !objective_value, Nat.eqb_refl. apply feasible_meaning in Fy. now apply (O y).
Qed.

(** C156.  The filter is the best one at the frequencies of the design: where some filter is at most t off, so is this one. *)
Theorem C156_minimax : forall delta n_taps w_max c_ratio h, frac_delay delta n_taps w_max c_ratio h ->
  forall g t, within delta n_taps w_max (n_constraints c_ratio n_taps) g t -> within delta n_taps w_max (n_constraints c_ratio n_taps) h t.
Proof. intros delta n w_max c_ratio h H g t W i Hi. apply frac_delay_iff in H as (t0 & W0 & O). specialize (O g t W). specialize (W0 i Hi). lra. Qed.
Print Assumptions C156_minimax.

(** C156.  Conversely every best filter is a possible result, when there is a frequency to design for. *)
Theorem C156_every : forall delta n_taps w_max c_ratio h, (0 < n_constraints c_ratio n_taps)%nat ->
  (forall g t, within delta n_taps w_max (n_constraints c_ratio n_taps) g t -> within delta n_taps w_max (n_constraints c_ratio n_taps) h t) -> frac_delay delta n_taps w_max c_ratio h.
Proof.
  intros delta n w_max c_ratio h H0 H. apply frac_delay_iff. set (n_c := n_constraints c_ratio n) in *.
  assert (MX : forall m (d : nat -> R), (0 < m)%nat -> exists i, (i < m)%nat /\ forall j, (j < m)%nat -> d j <= d i).
  { clear. induction m as [|m IH]; intros d Hm; [lia|]. destruct m as [|m]; [exists 0%nat; split; [lia|]; intros j Hj; replace j with 0%nat by lia; lra|]. destruct (IH d ltac:(lia)) as (i & Hi & Q). destruct (Rle_dec (d (Datatypes.S m)) (d i)) as [L|L].
    - exists i. split; [lia|]. intros j Hj. destruct (Nat.eq_dec j (Datatypes.S m)) as [->|]; [exact L|apply Q; lia].
    - exists (Datatypes.S m). split; [lia|]. intros j Hj. destruct (Nat.eq_dec j (Datatypes.S m)) as [->|]; [lra|]. specialize (Q j ltac:(lia)). lra. }
  destruct (MX n_c (fun i => distance delta n h (freq w_max n_c i)) H0) as (i & Hi & Q). exists (distance delta n h (freq w_max n_c i)). split; [exact Q|]. intros g t' W. now apply (H g t' W).
Qed.
Print Assumptions C156_every.

(** C156.  The filter is never worse than silence. *)
Theorem C156_bound : forall delta n_taps w_max c_ratio h, frac_delay delta n_taps w_max c_ratio h -> within delta n_taps w_max (n_constraints c_ratio n_taps) h 1.
Proof.
  intros delta n w_max c_ratio h H. apply (C156_minimax delta n w_max c_ratio h H (fun _ => 0)). intros i Hi. unfold distance. replace (response n (fun _ => 0) _) with C0; [|symmetry; apply csum_zero_ext; intros j Hj; change (RtoC 0) with C0; ring].
  replace (Csub (cis _) C0) with (cis (- (freq w_max (n_constraints c_ratio n) i * delta))) by ring. rewrite cis_abs2, sqrt_1. lra.
Qed.
Print Assumptions C156_bound.

Lemma ev_response d w : forall k, ev d k (cis w) = Cmul (cis (w * INR k)) (csum (Datatypes.S k) (fun n => Cmul (d n) (cis (- (w * INR n))))).
Proof.
  induction k as [|k IH].
  - cbn [ev]. rewrite csum_S, csum_0. cbn [INR]. rewrite Rmult_0_r, Ropp_0, cis_0. ring.
  - cbn [ev]. rewrite IH, (csum_S (Datatypes.S k)). set (S0 := csum (Datatypes.S k) _). rewrite S_INR. replace (w * (INR k + 1)) with (w + w * INR k) by ring. rewrite cis_add, cis_opp, cis_add.
    transitivity (Cadd (Cmul (Cmul (cis w) (cis (w * INR k))) S0) (Cmul (d (Datatypes.S k)) (Cmul (Cmul (cis w) (Conj (cis w))) (Cmul (cis (w * INR k)) (Conj (cis (w * INR k))))))); [rewrite !Cmul_conj, !cis_abs2; change (RtoC 1) with C1; ring|]. rewrite Conj_mul. ring.
Qed.
Lemma freq_range w_max n_c i : 0 < w_max < 2 -> (i < n_c)%nat -> 0 <= freq w_max n_c i < 2 * PI.
Proof.
  intros Hw Hi. pose proof PI_RGT_0 as P0. unfold freq. destruct (Nat.eqb_spec n_c 1); [lra|]. assert (D : 0 < INR (n_c - 1)) by (apply lt_0_INR; lia). assert (I : 0 <= INR i <= INR (n_c - 1)) by (split; [apply pos_INR|apply le_INR; lia]).
  assert (S0 : 0 < w_max * PI / INR (n_c - 1)) by (apply Rdiv_lt_0_compat; nra). split; [apply Rmult_le_pos; lra|]. apply Rle_lt_trans with (INR (n_c - 1) * (w_max * PI / INR (n_c - 1))); [apply Rmult_le_compat_r; lra|]. replace (INR (n_c - 1) * (w_max * PI / INR (n_c - 1))) with (w_max * PI) by (field; lra). nra.
Qed.
Lemma freq_inj w_max n_c i j : 0 < w_max < 2 -> (i < n_c)%nat -> (j < n_c)%nat -> freq w_max n_c i = freq w_max n_c j -> i = j.
Proof.
  intros Hw Hi Hj. pose proof PI_RGT_0 as P0. unfold freq. destruct (Nat.eqb_spec n_c 1); [lia|]. intros E. assert (D : 0 < INR (n_c - 1)) by (apply lt_0_INR; lia). assert (S0 : 0 < w_max * PI / INR (n_c - 1)) by (apply Rdiv_lt_0_compat; nra). apply INR_eq. apply Rmult_eq_reg_r in E; lra.
Qed.

(** C156.  A delay by a whole number of samples that fits in the filter gives the delay itself. *)
Theorem C156_whole : forall d n_taps w_max c_ratio h, (d < n_taps)%nat -> 0 < w_max < 2 -> 1 <= c_ratio -> frac_delay (INR d) n_taps w_max c_ratio h ->
  forall j, (j < n_taps)%nat -> h j = if Nat.eqb j d then 1 else 0.
Proof.
  intros d n w_max c_ratio h Hd Hw Hc H j Hj. set (n_c := n_constraints c_ratio n).
  assert (HN : (n <= n_c)%nat). { unfold n_c, n_constraints. apply Nat2Z.inj_le. rewrite Z2Nat.id.
    - apply Z.lt_succ_r. apply lt_IZR. rewrite succ_IZR, <- INR_IZR_INZ. pose proof (base_Int_part (c_ratio * INR n)) as [_ B]. pose proof (pos_INR n). nra.
    - apply le_IZR. destruct (Z_lt_le_dec (Int_part (c_ratio * INR n)) 0) as [L|L]; [|now apply IZR_le]. exfalso. pose proof (base_Int_part (c_ratio * INR n)) as [_ B]. pose proof (pos_INR n). assert (IZR (Int_part (c_ratio * INR n)) <= -1) by (apply IZR_le; lia). nra. }
  assert (RI : forall w, response n (fun j => if Nat.eqb j d then 1 else 0) w = cis (- (w * INR d))).
  { intros w. unfold response. rewrite (csum_delta n d); [rewrite Nat.eqb_refl; change (RtoC 1) with C1; ring|exact Hd|]. intros l _ N. destruct (Nat.eqb_spec l d); [contradiction|]. change (RtoC 0) with C0. ring. }
  assert (W0 : within (INR d) n w_max n_c h 0).
  { apply (C156_minimax _ _ _ _ _ H (fun j => if Nat.eqb j d then 1 else 0)). intros i Hi. unfold distance. rewrite RI. replace (Csub _ _) with C0 by ring. unfold Cabs2. cbn. replace (0 * 0 + 0 * 0) with 0 by ring. rewrite sqrt_0. lra. }
  set (e := fun j => RtoC ((if Nat.eqb j d then 1 else 0) - h j)).
  assert (Z : e j = C0); [|unfold e in Z; apply (f_equal fst) in Z; cbn in Z; lra].
  destruct n as [|k]; [lia|]. apply (too_many_roots k e (map (fun i => cis (freq w_max n_c i)) (seq 0 (Datatypes.S k)))); [now rewrite map_length, seq_length| | |lia].
  - apply NoDup_map_in; [|apply seq_NoDup]. intros a b Ha Hb E. apply in_seq in Ha, Hb. apply cis_inj in E; [apply freq_inj in E; auto; lia| |]; apply freq_range; auto; lia.
  - intros r I. apply in_map_iff in I as (i & <- & I). apply in_seq in I. rewrite ev_response. specialize (W0 i ltac:(lia)). unfold distance in W0. set (w := freq w_max n_c i) in *.
    assert (Q : Csub (cis (- (w * INR d))) (response (Datatypes.S k) h w) = C0). { apply Cabs2_zero. apply sqrt_eq_0; [apply Cabs2_nonneg|]. pose proof (sqrt_pos (Cabs2 (Csub (cis (- (w * INR d))) (response (Datatypes.S k) h w)))). lra. }
    rewrite <- RI in Q. unfold response in Q. rewrite <- csum_sub in Q. rewrite (csum_ext (Datatypes.S k) _ (fun l => Csub (Cmul (RtoC (if Nat.eqb l d then 1 else 0)) (cis (- (w * INR l)))) (Cmul (RtoC (h l)) (cis (- (w * INR l)))))); [rewrite Q; ring|]. intros l _. unfold e. apply C_eq; cbn; ring.
Qed.
Print Assumptions C156_whole.

(** C156.  The filters of the delay delta and of N - 1 - delta are mirror images. *)
Theorem C156_mirror : forall delta n_taps w_max c_ratio h, (0 < n_taps)%nat -> frac_delay delta n_taps w_max c_ratio h -> frac_delay (INR (n_taps - 1) - delta) n_taps w_max c_ratio (fun j => h (n_taps - 1 - j)%nat).
Proof.
  intros delta n w_max c_ratio h Hn H. apply frac_delay_iff in H as (t & W & O). apply frac_delay_iff.
  assert (RV : forall g w, response n (fun j => g (n - 1 - j)%nat) w = Cmul (cis (- (w * INR (n - 1)))) (Conj (response n g w))).
  { intros g w. unfold response. rewrite csum_conj, <- csum_scal, csum_rev. apply csum_ext. intros j Hj. replace (n - 1 - (n - 1 - j))%nat with j by lia. rewrite Conj_mul, Conj_RtoC, <- cis_opp.
    transitivity (Cmul (RtoC (g j)) (Cmul (cis (- (w * INR (n - 1)))) (cis (- - (w * INR j))))); [|ring]. rewrite <- cis_add. f_equal. f_equal. rewrite (minus_INR (n - 1) j) by lia. ring. }
  assert (DV : forall g dl w, distance (INR (n - 1) - dl) n (fun j => g (n - 1 - j)%nat) w = distance dl n g w).
  { intros g dl w. unfold distance. f_equal. rewrite RV. replace (- (w * (INR (n - 1) - dl))) with (- (w * INR (n - 1)) + w * dl) by ring. rewrite cis_add.
    replace (cis (w * dl)) with (Conj (cis (- (w * dl)))) by (rewrite <- cis_opp; f_equal; ring). set (a := cis (- (w * dl))). set (b := response n g w). set (k := cis (- (w * INR (n - 1)))). transitivity (Cabs2 (Cmul k (Conj (Csub a b)))); [f_equal; apply C_eq; cbn; ring|]. rewrite Cabs2_mul. unfold k. rewrite cis_abs2. unfold Cabs2. cbn. ring. }
  exists t. split; [intros i Hi; rewrite DV; now apply W|]. intros g t' W'. apply (O (fun j => g (n - 1 - j)%nat)). intros i Hi. specialize (W' i Hi). replace delta with (INR (n - 1) - (INR (n - 1) - delta)) by ring. rewrite DV. exact W'.
Qed.
Print Assumptions C156_mirror.

(** C156.  With a ratio that leaves no frequency the problem has no solution. *)
Theorem C156_none : forall delta n_taps w_max c_ratio h, n_constraints c_ratio n_taps = 0%nat -> ~ frac_delay delta n_taps w_max c_ratio h.
Proof. intros delta n w_max c_ratio h Z H. apply frac_delay_iff in H as (t & _ & O). rewrite Z in O. specialize (O h (t - 1) ltac:(intros i Hi; lia)). lra. Qed.
Print Assumptions C156_none.

(** ** Cases *)
Lemma constraints_example : n_constraints 4 3 = 12%nat /\ n_constraints 2 1 = 2%nat /\ n_constraints (1 / 2) 1 = 0%nat.
Proof.
  assert (IP : forall r z, IZR z <= r < IZR z + 1 -> Int_part r = z). { intros r z Hz. destruct (base_Int_part r) as [B1 B2]. assert (Int_part r < z + 1)%Z by (apply lt_IZR; rewrite plus_IZR; lra). assert (z < Int_part r + 1)%Z by (apply lt_IZR; rewrite plus_IZR; lra). lia. }
  unfold n_constraints. cbn [INR]. repeat split.
  - rewrite (IP _ 12%Z); [reflexivity|lra].
  - rewrite (IP _ 2%Z); [reflexivity|lra].
  - rewrite (IP _ 0%Z); [reflexivity|lra].
Qed.
(** A delay by one sample, three taps, twelve frequencies; and one that does not fit: with one tap the best filter for it is silent. *)
Example whole_example : frac_delay 1 3 (9 / 10) 4 (fun j => if Nat.eqb j 1 then 1 else 0).
Proof.
  apply frac_delay_iff. exists 0. split.
  - intros i Hi. unfold distance. replace (Csub _ _) with C0; [unfold Cabs2; cbn; replace (0 * 0 + 0 * 0) with 0 by ring; rewrite sqrt_0; lra|]. unfold response. rewrite !csum_S, csum_0. cbn [Nat.eqb INR]. change (RtoC 0) with C0. change (RtoC 1) with C1. ring.
  - intros g t' W. destruct constraints_example as (E & _). specialize (W 0%nat ltac:(rewrite E; lia)). eapply Rle_trans; [apply sqrt_pos|exact W].
Qed.
Example silent_example : frac_delay 1 1 1 2 (fun _ => 0).
Proof.
  apply frac_delay_iff. destruct constraints_example as (_ & E & _). rewrite E. exists 1.
  assert (D : forall g i, (i < 2)%nat -> distance 1 1 g (freq 1 2 i) = Rabs ((if Nat.eqb i 0 then 1 else -1) - g 0%nat)).
  { intros g i Hi. unfold distance, response. rewrite csum_S, csum_0. cbn [INR]. rewrite Rmult_0_r, Ropp_0, cis_0, Rmult_1_r, cis_opp. rewrite <- sqrt_Rsqr_abs. f_equal. unfold freq. change (Nat.eqb 2 1) with false. cbv iota. cbn [Nat.sub INR]. destruct i as [|[|i]]; [| |lia]; cbn [Nat.eqb INR].
    - rewrite Rmult_0_l, cis_0. unfold Cabs2, Rsqr. cbn. ring.
    - replace (1 * (1 * PI / 1)) with PI by field. unfold cis. rewrite cos_PI, sin_PI. unfold Cabs2, Rsqr. cbn. ring. }
  split.
  - intros i Hi. rewrite D by exact Hi. destruct i as [|[|i]]; [| |lia]; cbn [Nat.eqb]; unfold Rabs; destruct (Rcase_abs _); lra.
  - intros g t' W. pose proof (W 0%nat ltac:(lia)) as W0. pose proof (W 1%nat ltac:(lia)) as W1. rewrite D in W0, W1 by lia. cbn [Nat.eqb] in W0, W1. revert W0 W1. unfold Rabs. destruct (Rcase_abs _), (Rcase_abs _); lra.
Qed.
