(** C143: sine sweeps and fades. *)
From Coq Require Import Reals List ZArith Lia Lra Bool.
From Verif Require Import Base Vec SweepModel BaseProofs.
Import ListNotations.
Local Open Scope R_scope.

(** ** Specification *)
(** the signal samples a sine whose frequency at time [t] is [f t], from phase zero *)
Definition chirp (f : R -> R) (fs : R) (s : list R) : Prop :=
  exists phi, phi 0 = 0 /\ (forall t, derivable_pt_lim phi t (2 * PI * f t)) /\ forall i, (i < length s)%nat -> nth i s 0 = sin (phi (INR i / fs)).
(** the band that is swept *)
Definition highest (fs : R) (f_hi : option R) : R := match f_hi with None => fs / 2 | Some f => if Rlt_dec f 0 then fs / 2 + f else Rmin f (fs / 2) end.
(** a fade of n samples: gain of the sample at distance i from the end *)
Definition fade_gain (n i : nat) : R := if (i <? n)%nat then sin (PI * INR i / (2 * INR n - 1)) ^ 2 else 1.

(** ** Fades *)
Lemma hanning_sin n i : (0 < n)%nat -> (i < 2 * n)%nat -> nth i (hanning (2 * n)) 0 = sin (PI * INR i / (2 * INR n - 1)) ^ 2.
Proof.
  intros Hn Hi. unfold hanning. destruct (Nat.eqb_spec (2 * n) 1); [lia|]. rewrite nth_map_seq by lia. assert (N : 1 <= INR n) by (apply (le_INR 1); lia). rewrite mult_INR. change (INR 2) with 2. set (x := PI * INR i / (2 * INR n - 1)).
  replace (PI * (2 * INR i + 1 - 2 * INR n) / (2 * INR n - 1)) with (2 * x - PI) by (unfold x; field; lra). replace (2 * x - PI) with (- (PI - 2 * x)) by ring. rewrite cos_neg. rewrite Rtrigo_facts.cos_pi_minus, cos_2a_sin. field.
Qed.
Lemma sin_mirror n i : (0 < n)%nat -> (i < 2 * n)%nat -> sin (PI * INR (2 * n - 1 - i) / (2 * INR n - 1)) = sin (PI * INR i / (2 * INR n - 1)).
Proof.
  intros Hn Hi. assert (N : 1 <= INR n) by (apply (le_INR 1); lia). rewrite !minus_INR, mult_INR by lia. change (INR 2) with 2. change (INR 1) with 1. replace (PI * (2 * INR n - 1 - INR i) / (2 * INR n - 1)) with (PI - PI * INR i / (2 * INR n - 1)) by (field; lra). apply Rtrigo_facts.sin_pi_minus.
Qed.
(** A window of n samples, no longer than the signal, multiplies the first and the last n samples by the same fade from zero and
    leaves the others. *)
Theorem C143_window : forall s n, (0 < n <= length s)%nat -> exists r, window s n = Some r /\ length r = length s /\
  (forall i, (i < length s)%nat -> nth i r 0 = nth i s 0 * fade_gain n i * fade_gain n (length s - 1 - i)) /\ nth 0 r 0 = 0 /\ nth (length s - 1) r 0 = 0 /\ forall i, (i < length s)%nat -> Rabs (nth i r 0) <= Rabs (nth i s 0).
Proof.
  intros s n Hn. unfold window. destruct (Nat.eqb_spec (length s) 0); [lia|]. destruct (Nat.eqb_spec n 0); [lia|]. destruct (Nat.ltb_spec (length s) n); [lia|]. cbn [orb]. eexists. split; [reflexivity|]. rewrite map_length, seq_length. split; [reflexivity|].
  assert (LH : length (hanning (2 * n)) = (2 * n)%nat) by (unfold hanning; destruct (Nat.eqb_spec (2 * n) 1); [lia|]; now rewrite map_length, seq_length).
  match goal with |- (forall i, _ -> nth i ?r 0 = _) /\ _ => assert (V : forall i, (i < length s)%nat -> nth i r 0 = nth i s 0 * fade_gain n i * fade_gain n (length s - 1 - i)) end.
  { intros i Hi. rewrite nth_map_seq by lia. rewrite nth_map_seq by lia. unfold fade_gain. destruct (Nat.leb_spec (length s - n) i).
    - destruct (Nat.ltb_spec (length s - 1 - i) n); [|lia]. rewrite LH. rewrite (hanning_sin n (2 * n - n + (i - (length s - n)))) by lia. rewrite <- (sin_mirror n (length s - 1 - i)) by lia. replace (2 * n - 1 - (length s - 1 - i))%nat with (2 * n - n + (i - (length s - n)))%nat by lia. destruct (Nat.ltb_spec i n); [rewrite hanning_sin by lia|]; ring.
    - destruct (Nat.ltb_spec (length s - 1 - i) n); [lia|]. destruct (Nat.ltb_spec i n); [rewrite hanning_sin by lia|]; ring. }
  assert (G0 : fade_gain n 0 = 0) by (unfold fade_gain; destruct (Nat.ltb_spec 0 n); [|lia]; cbn [INR]; replace (PI * 0 / (2 * INR n - 1)) with 0 by (unfold Rdiv; ring); rewrite sin_0; ring).
  split; [exact V|]. split; [rewrite V by lia; rewrite G0; ring|]. split; [rewrite V by lia; replace (length s - 1 - (length s - 1))%nat with 0%nat by lia; rewrite G0; ring|]. intros i Hi. rewrite V by auto.
  assert (B : forall j, 0 <= fade_gain n j <= 1) by (intros j; unfold fade_gain; destruct (j <? n)%nat; [|lra]; pose proof (SIN_bound (PI * INR j / (2 * INR n - 1))); nra). pose proof (B i). pose proof (B (length s - 1 - i)%nat). rewrite !Rabs_mult. rewrite (Rabs_right (fade_gain n i)), (Rabs_right (fade_gain n (length s - 1 - i))) by lra. pose proof (Rabs_pos (nth i s 0)). assert (fade_gain n i * fade_gain n (length s - 1 - i) <= 1) by nra. nra.
Qed.
Print Assumptions C143_window.
(** ** Sweeps *)
Lemma clip_hi_highest fs f : clip_hi fs f = highest fs f.
Proof. unfold clip_hi, highest, Rmin. destruct f as [f|]; [|reflexivity]. destruct (Rlt_dec f 0); [reflexivity|]. destruct (Rlt_dec (fs / 2) f), (Rle_dec f (fs / 2)); auto; lra. Qed.
Lemma clip_lo_max l f : clip_lo l f = Rmax l f.
Proof. unfold clip_lo, Rmax. destruct (Rlt_dec f l), (Rle_dec l f); auto; lra. Qed.
(** The exponential sweep starts at the larger of [f_lo] and 1 Hz and multiplies its frequency by the same factor in equal times, up to the
    highest frequency when the last sample has passed. *)
Theorem C143_exponential : forall T fs f_lo f_hi, 0 < fs -> let lo := Rmax 1 f_lo in let hi := highest fs f_hi in lo < hi ->
  exists s, exponential_sweep T fs f_lo f_hi None true = Some s /\ INR (length s) = INR (Z.to_nat (Int_part (T * fs))) /\
  let f := fun t => lo * Rpower (hi / lo) (t / (INR (length s) / fs)) in chirp f fs s /\ (s <> [] -> f 0 = lo /\ f (INR (length s) / fs) = hi).
Proof.
  intros T fs f_lo f_hi Hfs lo hi Hlt. unfold exponential_sweep. rewrite clip_hi_highest, clip_lo_max. fold lo hi. destruct (Rlt_dec hi lo); [lra|]. assert (L1 : 1 <= lo) by apply Rmax_l. pose proof PI_RGT_0.
  assert (Q : 2 * PI * hi / (2 * PI * lo) = hi / lo) by (field; split; lra). rewrite Q. assert (Q1 : 1 < hi / lo) by (apply (Rmult_lt_reg_r lo); [lra|]; unfold Rdiv; rewrite Rmult_assoc, Rinv_l by lra; lra). assert (LN : 0 < ln (hi / lo)) by (rewrite <- ln_1; apply ln_increasing; lra). destruct (Req_EM_T (ln (hi / lo)) 0); [lra|]. unfold finish. eexists. split; [reflexivity|]. rewrite map_length, seq_length. unfold n_samples. replace (T / (1 / fs)) with (T * fs) by (field; lra). split; [reflexivity|]. set (N := Z.to_nat (Int_part (T * fs))). cbv zeta. split.
  - destruct (Nat.eq_dec N 0) as [N0|N0].
    + rewrite N0. cbn [seq map]. assert (P : forall t, t / (INR 0 / fs) = 0) by (intros t; cbn [INR]; unfold Rdiv; rewrite Rmult_0_l; rewrite Rinv_0; ring).
      exists (fun t => 2 * PI * lo * t). split; [ring|]. split; [|cbn; intros; lia]. intros t. rewrite P. replace (2 * PI * (lo * Rpower (hi / lo) 0)) with (2 * PI * lo * 1) by (rewrite Rpower_O by lra; ring). apply (derivable_pt_lim_scal id). apply derivable_pt_lim_id.
    + assert (Np : 0 < INR N) by (apply lt_0_INR; lia). set (k := ln (hi / lo)) in *. exists (fun t => 2 * PI * lo * INR N * (1 / fs) / k * (exp (k * fs / INR N * t) - 1)). split; [rewrite Rmult_0_r, exp_0; ring|]. split.
      * intros t. replace (2 * PI * (lo * Rpower (hi / lo) (t / (INR N / fs)))) with (2 * PI * lo * INR N * (1 / fs) / k * (exp (k * fs / INR N * t) * (k * fs / INR N * 1) - 0)).
        -- apply (derivable_pt_lim_scal (fun t => exp (k * fs / INR N * t) - 1)). apply (derivable_pt_lim_minus (fun t => exp (k * fs / INR N * t)) (fct_cte 1)); [|apply derivable_pt_lim_const]. apply (derivable_pt_lim_comp (fun t => k * fs / INR N * t) exp); [|apply derivable_pt_lim_exp]. apply (derivable_pt_lim_scal id). apply derivable_pt_lim_id.
        -- unfold Rpower. fold k. replace (t / (INR N / fs) * k) with (k * fs / INR N * t) by (field; split; lra). field. repeat split; lra.
      * intros i Hi. rewrite map_length, seq_length in Hi. rewrite nth_map_seq by auto. f_equal. f_equal. f_equal. f_equal. field. split; lra.
  - intros NE. assert (N0 : N <> 0%nat) by (intros Q0; apply NE; rewrite Q0; reflexivity). assert (Np : 0 < INR N) by (apply lt_0_INR; lia). split.
    + replace (0 / (INR N / fs)) with 0 by (unfold Rdiv; ring). rewrite Rpower_O by lra. ring.
    + replace (INR N / fs / (INR N / fs)) with 1 by (field; split; lra). rewrite Rpower_1 by lra. field. lra.
Qed.
Print Assumptions C143_exponential.
(** The linear sweep moves its frequency at a constant rate, and reaches the highest one after [T] seconds. *)
Theorem C143_linear : forall T fs f_lo f_hi, 0 < fs -> 0 < T -> let lo := Rmax 0 f_lo in let hi := highest fs f_hi in lo <= hi ->
  exists s, linear_sweep T fs f_lo f_hi None true = Some s /\ INR (length s) = INR (Z.to_nat (Int_part (T * fs))) /\
  let f := fun t => lo + (hi - lo) * t / T in chirp f fs s /\ f 0 = lo /\ f T = hi.
Proof.
  intros T fs f_lo f_hi Hfs HT lo hi Hle. unfold linear_sweep. rewrite clip_hi_highest, clip_lo_max. fold lo hi. destruct (Rlt_dec hi lo); [lra|]. unfold finish. eexists. split; [reflexivity|]. rewrite map_length, seq_length. unfold n_samples. replace (T / (1 / fs)) with (T * fs) by (field; lra). split; [reflexivity|]. cbv zeta. split; [|split; field; lra].
  exists (fun t => 2 * PI * (lo + 1 / 2 * ((hi - lo) / T) * t) * t). split; [ring|]. split.
  - intros t. replace (2 * PI * (lo + (hi - lo) * t / T)) with (2 * PI * (0 + 1 / 2 * ((hi - lo) / T) * 1) * t + 2 * PI * (lo + 1 / 2 * ((hi - lo) / T) * t) * 1) by (field; lra).
    apply (derivable_pt_lim_mult (fun t => 2 * PI * (lo + 1 / 2 * ((hi - lo) / T) * t)) id); [|apply derivable_pt_lim_id]. apply (derivable_pt_lim_scal (fun t => lo + 1 / 2 * ((hi - lo) / T) * t)). apply (derivable_pt_lim_plus (fct_cte lo) (fun t => 1 / 2 * ((hi - lo) / T) * t)); [apply derivable_pt_lim_const|]. apply (derivable_pt_lim_scal id). apply derivable_pt_lim_id.
  - intros i Hi. rewrite map_length, seq_length in Hi. rewrite nth_map_seq by auto. cbv zeta. replace (INR i * (1 / fs)) with (INR i / fs) by (unfold Rdiv; ring). reflexivity.
Qed.
Print Assumptions C143_linear.
(** By default the sweep runs downwards, that is, it is the upward sweep reversed; a positive fade windows it at both ends. *)
Theorem C143_options : forall sweep T fs f_lo f_hi fade ascending, sweep = exponential_sweep \/ sweep = linear_sweep ->
  sweep T fs f_lo f_hi fade ascending = let* s := sweep T fs f_lo f_hi None true in let r := if ascending then s else rev s in
    match fade with Some f => if Rlt_dec 0 f then window r (Z.to_nat (Int_part (fs * f))) else Some r | None => Some r end.
Proof.
  intros sweep T fs f_lo f_hi fade ascending [-> | ->].
  - unfold exponential_sweep. destruct (Rlt_dec _ _); [reflexivity|]. destruct (Req_EM_T _ 0); [|reflexivity]. destruct (Nat.eqb _ 0); reflexivity.
  - unfold linear_sweep. destruct (Rlt_dec _ _); reflexivity.
Qed.
Print Assumptions C143_options.
(** A band whose lower end is above the upper one is refused. *)
Theorem C143_band : forall T fs f_lo f_hi fade ascending,
  (highest fs f_hi < Rmax 1 f_lo -> exponential_sweep T fs f_lo f_hi fade ascending = None) /\ (highest fs f_hi < Rmax 0 f_lo -> linear_sweep T fs f_lo f_hi fade ascending = None).
Proof.
  intros T fs f_lo f_hi fade ascending. unfold exponential_sweep, linear_sweep. rewrite clip_hi_highest, !clip_lo_max. split; intros H; (destruct (Rlt_dec _ _); [reflexivity|contradiction]).
Qed.
Print Assumptions C143_band.
Lemma Int_part_between x z : IZR z <= x < IZR z + 1 -> Int_part x = z.
Proof. intros [A B]. destruct (base_Int_part x) as [C D]. assert (Int_part x < z + 1)%Z by (apply lt_IZR; rewrite plus_IZR; lra). assert (z < Int_part x + 1)%Z by (apply lt_IZR; rewrite plus_IZR; lra). lia. Qed.
(** Finding: a band of one frequency passes the check (52) but divides by log(1): the exponential sweep is NaN, the linear one a tone. *)
Theorem C143_tone_refuted : exists T fs f_lo f_hi, 1 <= f_lo <= highest fs f_hi /\ highest fs f_hi <= fs / 2 /\ exponential_sweep T fs f_lo f_hi None true = None /\ exists s, linear_sweep T fs f_lo f_hi None true = Some s /\ s <> [].
Proof.
  exists 1, 8, 2, (Some 2). assert (H : highest 8 (Some 2) = 2) by (unfold highest, Rmin; destruct (Rlt_dec 2 0); [lra|]; destruct (Rle_dec 2 (8 / 2)); lra). assert (M : Rmax 1 2 = 2) by (apply Rmax_right; lra). assert (M0 : Rmax 0 2 = 2) by (apply Rmax_right; lra). pose proof PI_RGT_0. rewrite H. split; [lra|]. split; [lra|]. assert (N : n_samples 1 8 = 8%nat) by (unfold n_samples; rewrite (Int_part_between _ 8) by lra; reflexivity). split.
  - unfold exponential_sweep. rewrite clip_hi_highest, clip_lo_max, H, M. destruct (Rlt_dec 2 2); [lra|]. replace (2 * PI * 2 / (2 * PI * 2)) with 1 by (field; lra). rewrite ln_1. destruct (Req_EM_T 0 0); [|lra]. rewrite N. reflexivity.
  - unfold linear_sweep. rewrite clip_hi_highest, clip_lo_max, H, M0. destruct (Rlt_dec 2 2); [lra|]. eexists. split; [reflexivity|]. rewrite N. discriminate.
Qed.
Print Assumptions C143_tone_refuted.
(** Finding: a fade shorter than one sample raises instead of doing nothing (18, where [-0:] is the whole signal). *)
Theorem C143_fade_refuted : exists T fs f_lo f_hi fade, 0 < fade /\ (exists s, linear_sweep T fs f_lo f_hi None true = Some s /\ s <> []) /\ linear_sweep T fs f_lo f_hi (Some fade) true = None.
Proof.
  exists 1, 8, 2, None, (1 / 100). split; [lra|]. assert (M0 : Rmax 0 2 = 2) by (apply Rmax_right; lra). assert (N : n_samples 1 8 = 8%nat) by (unfold n_samples; rewrite (Int_part_between _ 8) by lra; reflexivity). unfold linear_sweep. rewrite clip_lo_max, M0. cbn [clip_hi]. destruct (Rlt_dec (8 / 2) 2); [lra|]. rewrite N. split; [eexists; split; [reflexivity|discriminate]|]. unfold finish. destruct (Rlt_dec 0 (1 / 100)); [|lra]. rewrite (Int_part_between _ 0) by lra. reflexivity.
Qed.
Print Assumptions C143_fade_refuted.
(** Finding: the frequencies are documented as fractions of the sampling frequency (33-36) but taken in hertz: the documented full band,
    up to 1, cannot be swept. *)
Theorem C143_fraction_refuted : exists fs, 0 < fs /\ forall T fade ascending, (0 < n_samples T fs)%nat -> exponential_sweep T fs 0 (Some 1) fade ascending = None.
Proof.
  exists 8000. split; [lra|]. intros T fade ascending HN. unfold exponential_sweep, clip_hi, clip_lo. destruct (Rlt_dec 1 0); [lra|]. destruct (Rlt_dec (8000 / 2) 1); [lra|]. destruct (Rlt_dec 0 1); [|lra]. destruct (Rlt_dec 1 1); [reflexivity|]. pose proof PI_RGT_0. replace (2 * PI * 1 / (2 * PI * 1)) with 1 by (field; lra). rewrite ln_1. destruct (Req_EM_T 0 0); [|lra]. destruct (Nat.eqb_spec (n_samples T 8000) 0); [lia|]. reflexivity.
Qed.
Print Assumptions C143_fraction_refuted.
(** ** Concrete cases *)
Example C143_linear_case : exists s, linear_sweep 1 4 1 None None true = Some s /\ length s = 4%nat /\ nth 1 s 0 = sin (PI * (9 / 16)).
Proof.
  destruct (C143_linear 1 4 1 None ltac:(lra) ltac:(lra)) as (s & E & L & _); [cbn; rewrite Rmax_right; lra|]. exists s. split; [exact E|]. rewrite (Int_part_between _ 4) in L by lra. split; [apply INR_eq; exact L|].
  unfold linear_sweep in E. cbn [clip_hi] in E. rewrite clip_lo_max, Rmax_right in E by lra. destruct (Rlt_dec (4 / 2) 1); [lra|]. unfold n_samples in E. rewrite (Int_part_between _ 4) in E by lra. unfold finish in E. apply (f_equal (fun o => match o with Some l => nth 1 l 0 | None => 0 end)) in E. rewrite nth_map_seq in E by (cbn; lia). rewrite <- E. cbn [INR]. f_equal. field.
Qed.
Example C143_window_case : exists r, window [1; 1; 1; 1; 1] 2 = Some r /\ nth 0 r 0 = 0 /\ nth 2 r 0 = 1 /\ nth 1 r 0 = 3 / 4.
Proof.
  destruct (C143_window [1; 1; 1; 1; 1] 2 ltac:(cbn; lia)) as (r & E & L & V & _). exists r. split; [exact E|]. rewrite !V by (cbn; lia). unfold fade_gain. cbn [length Nat.sub Nat.ltb Nat.leb nth]. change (INR 0) with 0. change (INR 1) with 1. change (INR 2) with 2. replace (PI * 0 / (2 * 2 - 1)) with 0 by field. replace (PI * 1 / (2 * 2 - 1)) with (PI / 3) by field. rewrite sin_0, sin_PI3. pose proof (sqrt_sqrt 3 ltac:(lra)). split; [ring|]. split; [ring|]. replace (1 * (sqrt 3 / 2) ^ 2 * 1) with (sqrt 3 * sqrt 3 / 4) by field. lra.
Qed.
