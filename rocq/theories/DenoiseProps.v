(** C115: spectral subtraction.  C116: iterative Wiener filter. *)
From Coq Require Import List ZArith Lia Reals Lra Bool.
From Verif Require Import Base Vec Sum Cpx DftModel DftProofs StftModel StftSpec StftProofs WindowModel WindowProps UtilModel DenoiseModel DenoiseSpec DenoiseProofs BaseProofs.
Import ListNotations.
Local Open Scope R_scope.

(** ** C115 *)
(** Successive calls of compute_gain_filter on a new object, with spectra that are not zero in a
    bin: the gain of the bin is the documented one, the noise estimate being the smallest power of
    the last lookback + 1 frames (zero as long as there are fewer). *)
Theorem C115_gain : forall nfft db L beta alpha Xs, 0 < alpha -> Forall (fun X => length X = (nfft / 2 + 1)%nat) Xs ->
  exists gs, gain_filters (ssub_new nfft db L beta alpha) Xs = Some gs /\ length gs = length Xs /\
    forall t, (t < length Xs)%nat -> length (nth t gs []) = (nfft / 2 + 1)%nat /\
    forall k, (k < nfft / 2 + 1)%nat -> let P u := Cabs2 (nth k (nth u Xs []) C0) in
      exists n, noise_floor L P t n /\ (P t <> 0 -> nth k (nth t gs []) None = Some (documented_gain alpha beta (Rpower 10 (- db / 20)) (P t) n)).
Proof.
  intros nfft db L beta alpha Xs Ha HF. destruct (gain_filters_spec L (nfft / 2 + 1) Xs Xs 0 (ssub_new nfft db L beta alpha)) as (gs & E & Lg & Ng); auto.
  { apply new_rows_ok. }
  exists gs. split; [exact E|]. split; [exact Lg|]. intros t Ht. destruct (Ng t Ht) as [A B]. split; [exact A|]. intros k Hk P. eexists. split; [apply (noise_floor_spec L P t); intros u; apply Cabs2_nonneg|].
  intros Pt. rewrite (B k Hk). cbn [Nat.add]. change (bin_power Xs k) with P. pose proof (Cabs2_nonneg (nth k (nth t Xs []) C0)) as Pn. fold (P t) in Pn. rewrite bin_gain_formula; [reflexivity|lra|exact Ha].
Qed.
Print Assumptions C115_gain.
(** The gains are between the smallest gain and one (or the smallest gain, if that is larger); one
    during the first lookback frames; the smallest gain for a frame not louder than the previous
    ones when beta >= 1. *)
Theorem C115_range : forall nfft db L beta alpha Xs gs, 0 < alpha -> 0 <= beta -> Forall (fun X => length X = (nfft / 2 + 1)%nat) Xs ->
  gain_filters (ssub_new nfft db L beta alpha) Xs = Some gs ->
  let gmin := Rpower 10 (- db / 20) in
  forall t k, (t < length Xs)%nat -> (k < nfft / 2 + 1)%nat -> let P u := Cabs2 (nth k (nth u Xs []) C0) in P t <> 0 ->
    exists g, nth k (nth t gs []) None = Some g /\ gmin <= g <= Rmax 1 gmin /\ ((t < L)%nat -> g = Rmax 1 gmin) /\
      ((L <= t)%nat -> 1 <= beta -> (forall i, (i <= L)%nat -> P t <= P (t - i)%nat) -> g = gmin).
Proof.
  intros nfft db L beta alpha Xs gs Ha Hb HF E gmin t k Ht Hk P Pt. destruct (C115_gain nfft db L beta alpha Xs Ha HF) as (gs' & E' & _ & N). rewrite E in E'. injection E' as <-.
  destruct (N t Ht) as [_ B]. destruct (B k Hk) as (n & F & G). specialize (G Pt). change (noise_floor L P t n) in F. change (Cabs2 (nth k (nth t Xs []) C0)) with (P t) in G. fold gmin in G. eexists. split; [exact G|].
  assert (PP : forall u, 0 <= P u) by (intros u; apply Cabs2_nonneg). assert (Pp : 0 < P t) by (specialize (PP t); unfold P in *; lra). clearbody P. destruct F as (F1 & F2).
  assert (Pn : 0 <= n). { destruct (Nat.lt_ge_cases t L) as [H|H]; [rewrite (F1 H); lra|]. destruct (F2 H) as (_ & i & _ & ->). apply PP. }
  assert (Pg : 0 < gmin) by apply exp_pos. pose proof (gain_ratio beta (P t) n Pp Hb Pn) as Hr. pose proof (power_le1 _ _ Hr Ha) as Hq. unfold documented_gain. split; [|split].
  - split; [apply Rmax_r|]. apply Rmax_lub; [|apply Rmax_r]. apply Rle_trans with 1; [apply Hq|apply Rmax_l].
  - intros H. rewrite (F1 H). replace ((P t - beta * 0) / P t) with 1 by (field; lra). rewrite (Rmax_left 1 0) by lra. unfold power. destruct (Req_EM_T 1 0); [lra|]. unfold Rpower. now rewrite ln_1, Rmult_0_r, exp_0.
  - intros H H1 Hm. destruct (F2 H) as (Hle & i & Hi & En). assert (E0 : n = P t) by (specialize (Hm i Hi); specialize (Hle 0%nat ltac:(lia)); rewrite Nat.sub_0_r in Hle; lra).
    rewrite E0. rewrite (Rmax_right _ 0).
    + unfold power. destruct (Req_EM_T 0 0); [|lra]. apply Rmax_right. lra.
    + replace ((P t - beta * P t) / P t) with (1 - beta) by (field; lra). lra.
Qed.
Print Assumptions C115_range.
Lemma gains_scale : forall c s Xs, c <> 0 -> Forall (Forall (fun v => v = 0)) (ss_prev s) ->
  gain_filters s (map (map (Cscal c)) Xs) = gain_filters s Xs.
Proof.
  intros c s Xs Hc Hz.
  assert (Hc2 : 0 < c * c) by nra.
  assert (G : forall Xs s1 s2, ss_beta s1 = ss_beta s2 -> ss_alpha s1 = ss_alpha s2 -> ss_gmin s1 = ss_gmin s2 -> ss_bins s1 = ss_bins s2 -> ss_prev s1 = map (map (Rmult (c * c))) (ss_prev s2) ->
     gain_filters s1 (map (map (Cscal c)) Xs) = gain_filters s2 Xs).
  { clear Xs s Hz. induction Xs as [|X Xs IH]; intros s1 s2 E1 E2 E3 E4 E5; cbn [map gain_filters]; [reflexivity|].
    unfold compute_gain_filter. rewrite map_length, E4. set (W := if Nat.eqb (length X) (ss_bins s2) then Some X else if Nat.eqb (length X) 1 then Some (repeat (nth 0 X C0) (ss_bins s2)) else None).
    assert (EW : (if Nat.eqb (length X) (ss_bins s2) then Some (map (Cscal c) X) else if Nat.eqb (length X) 1 then Some (repeat (nth 0 (map (Cscal c) X) C0) (ss_bins s2)) else None) = option_map (map (Cscal c)) W).
    { unfold W. destruct (Nat.eqb _ _); [reflexivity|]. destruct (Nat.eqb_spec (length X) 1) as [L|]; [|reflexivity]. destruct X as [|x [|y X]]; try discriminate. cbn [map nth option_map]. f_equal. generalize (ss_bins s2). clear. induction n as [|n IH]; [reflexivity|]. cbn. now rewrite <- IH. }
    rewrite EW. destruct W as [Y|]; [|reflexivity]. cbn [option_map bind]. rewrite map_map.
    set (p := map (fun x => fst (Conj x * x)%C) Y). assert (Ep : map (fun x => fst (Conj (Cscal c x) * Cscal c x)%C) Y = map (Rmult (c * c)) p). { unfold p. rewrite map_map. apply map_ext. intros x. cbn. ring. }
    rewrite Ep, E5. set (rows := map2 (fun row p => removelast row ++ [p]) (ss_prev s2) p).
    assert (Er : map2 (fun row p => removelast row ++ [p]) (map (map (Rmult (c * c))) (ss_prev s2)) (map (Rmult (c * c)) p) = map (map (Rmult (c * c))) rows).
    { unfold rows. generalize (ss_prev s2) p. clear. induction l as [|r l IH]; intros p; [reflexivity|]. destruct p as [|v p]; [reflexivity|]. cbn [map map2]. rewrite IH. f_equal. rewrite map_app. cbn [map]. f_equal. generalize r. clear. induction r as [|a r IH]; [reflexivity|]. destruct r as [|b r]; [reflexivity|]. cbn [map removelast] in *. f_equal. exact IH. }
    rewrite Er. cbn [fst snd]. rewrite (IH _ {| ss_beta := ss_beta s2; ss_alpha := ss_alpha s2; ss_bins := ss_bins s2; ss_prev := map (fun row => tl row ++ firstn 1 row) rows; ss_gmin := ss_gmin s2 |}); cbn [ss_beta ss_alpha ss_gmin ss_bins ss_prev]; auto.
    2:{ rewrite !map_map. apply map_ext. intros r. rewrite map_app, firstn_map. f_equal. destruct r; reflexivity. }
    destruct (gain_filters _ Xs) as [gs|]; [|reflexivity]. cbn [bind]. do 2 f_equal.
    assert (Em : map row_min (map (map (Rmult (c * c))) rows) = map (Rmult (c * c)) (map row_min rows)).
    { rewrite !map_map. apply map_ext. intros r. unfold row_min. destruct r as [|a r]; [cbn; ring|]. cbn [map tl hd]. revert a. induction r as [|b r IHr]; intros a; [reflexivity|]. cbn [map fold_left]. rewrite <- IHr. f_equal.
      unfold Rmin. destruct (Rle_dec (c * c * a) (c * c * b)) as [A|A], (Rle_dec a b) as [B|B]; try reflexivity; exfalso; [apply B; apply Rmult_le_reg_l with (c * c); auto|apply A; apply Rmult_le_compat_l; lra]. }
    rewrite Em. generalize (map row_min rows) p. clear - E1 E2 E3 Hc2. intros q. induction q as [|n q IH]; intros p; destruct p as [|v p]; try reflexivity. cbn [map map2]. rewrite IH. f_equal. unfold bin_gain. rewrite E1, E2, E3. do 2 f_equal. unfold rdiv.
    destruct (Req_EM_T (c * c * v) 0) as [A|A], (Req_EM_T v 0) as [B|B]; try reflexivity; try (exfalso; nra). f_equal.
    replace (c * c * v - ss_beta s2 * (c * c * n)) with (c * c * (v - ss_beta s2 * n)) by ring. rewrite <- (Rmult_0_r (c * c)) at 1. rewrite RmaxRmult by lra. field. split; auto; nra. }
  apply G; auto. clear - Hz. induction Hz as [|r l H Hz IH]; [reflexivity|]. cbn [map]. rewrite <- IH. f_equal. clear - H. induction H as [|v r -> H IH]; [reflexivity|]. cbn [map]. rewrite <- IH. f_equal. ring.
Qed.
(** The gains do not depend on the level of the signal. *)
Theorem C115_scale : forall c nfft db L beta alpha Xs, c <> 0 -> 
  gain_filters (ssub_new nfft db L beta alpha) (map (map (Cscal c)) Xs) = gain_filters (ssub_new nfft db L beta alpha) Xs.
Proof.
  intros c nfft db L beta alpha Xs Hc. apply gains_scale; auto. cbn [ss_prev ssub_new]. apply Forall_forall. intros r Hr. apply repeat_spec in Hr. subst r. apply Forall_forall. intros v Hv. now apply repeat_spec in Hv.
Qed.
Print Assumptions C115_scale.
(** apply_spectral_sub is the overlap-add of the frames of the signal, each multiplied by the gains
    that the object gives for it; the samples after the last whole block are zero. *)
Theorem C115_apply : forall N db L beta alpha x, (2 <= N)%nat -> let hop := (N / 2)%nat in
  exists w, hann N asymmetric wfull = Some w /\ let Xs := map (stream_spectrum N hop w x) (seq 0 (length x / hop)) in
  exists gs, gain_filters (ssub_new N db L beta alpha) Xs = Some gs /\
    apply_spectral_sub x N db L beta alpha = (let* rs := mapM (mapM (fun g => g)) gs in Some (resynthesis N hop (length x) (map2 (map2 Cscal) rs Xs))).
Proof.
  intros N db L beta alpha x HN hop. destruct (hann_full N) as (w & Ew & _). exists w. split; [exact Ew|]. intros Xs.
  destruct (gain_filters_spec L (N / 2 + 1) Xs Xs 0 (ssub_new N db L beta alpha)) as (gs & E & _).
  { apply new_rows_ok. } { unfold Xs. apply Forall_forall. intros X HX. apply in_map_iff in HX. destruct HX as (j & <- & _). apply rfft_length. } { reflexivity. }
  exists gs. split; [exact E|]. unfold apply_spectral_sub. rewrite (one_shot_spec ssub_proc ssub_inv N _ x w HN); auto.
  - fold hop. rewrite process_ssub, map_map. match goal with |- context [gain_filters _ ?l] => change l with Xs end. rewrite E. cbn [bind]. destruct (mapM _ gs); reflexivity.
  - intros. eapply ssub_proc_ok; eauto.
  - unfold ssub_inv. cbn. apply repeat_length.
Qed.
Print Assumptions C115_apply.
Lemma mapM_mapM_Some : forall {A} (l : list (list (option A))) r, mapM (mapM (fun g => g)) l = Some r -> l = map (map Some) r.
Proof.
  intros A. induction l as [|a l IH]; intros r H; cbn [mapM] in H; [injection H as <-; reflexivity|]. destruct (mapM (fun g => g) a) as [a'|] eqn:Ea; [|discriminate]. cbn [bind] in H. destruct (mapM _ l) as [r'|] eqn:E; [|discriminate]. cbn [bind] in H. injection H as <-. cbn [map]. f_equal; [now apply mapM_id_Some|now apply IH].
Qed.
Lemma mapM_mapM_def : forall {A} (l : list (list (option A))), (forall t k, (t < length l)%nat -> (k < length (nth t l []))%nat -> nth k (nth t l []) None <> None) -> exists r, mapM (mapM (fun g => g)) l = Some r.
Proof.
  intros A. induction l as [|a l IH]; intros H; [exists []; reflexivity|]. destruct IH as [r Er]. { intros t k Ht Hk. apply (H (S t) k); cbn; auto; lia. }
  assert (exists a', mapM (fun g => g) a = Some a') as [a' Ea]. { specialize (H 0%nat). cbn [nth length] in H. assert (H' : forall k, (k < length a)%nat -> nth k a None <> None) by (intros; apply H; auto; lia). clear - H'. induction a as [|o a IH]; [exists []; reflexivity|]. destruct IH as [a' Ea]. { intros k Hk. apply (H' (S k)). cbn; lia. }
    destruct o as [o|]; [|exfalso; apply (H' 0%nat); [cbn; lia|reflexivity]]. exists (o :: a'). cbn [mapM bind]. now rewrite Ea. }
  exists (a' :: r). cbn [mapM]. rewrite Ea. cbn [bind]. now rewrite Er.
Qed.
(** Its result is finite exactly if no frame has a bin without energy. *)
Theorem C115_finite : forall N db L beta alpha x w, (2 <= N)%nat -> 0 < alpha -> hann N asymmetric wfull = Some w ->
  (exists y, apply_spectral_sub x N db L beta alpha = Some y) <->
  (forall t k, (t < length x / (N / 2))%nat -> (k < N / 2 + 1)%nat -> nth k (stream_spectrum N (N / 2) w x t) C0 <> C0).
Proof.
  intros N db L beta alpha x w HN Ha Ew. set (hop := (N / 2)%nat). set (F := (length x / hop)%nat). destruct (C115_apply N db L beta alpha x HN) as (w' & Ew' & gs & E & ->). rewrite Ew in Ew'. injection Ew' as <-. fold hop F in E |- *.
  set (Xs := map (stream_spectrum N hop w x) (seq 0 F)) in *. assert (LX : length Xs = F) by (unfold Xs; now rewrite map_length, seq_length).
  destruct (gain_filters_spec L (N / 2 + 1) Xs Xs 0 (ssub_new N db L beta alpha)) as (gs' & E' & Lg & Ng).
  { apply new_rows_ok. } { unfold Xs. apply Forall_forall. intros X HX. apply in_map_iff in HX. destruct HX as (j & <- & _). apply rfft_length. } { reflexivity. }
  rewrite E in E'. injection E' as <-. rewrite LX in Lg, Ng.
  assert (NX : forall t, (t < F)%nat -> nth t Xs [] = stream_spectrum N hop w x t) by (intros t Ht; unfold Xs; now rewrite nth_map_seq).
  assert (BP : forall t k, (t < F)%nat -> bin_power Xs k (0 + t) = Cabs2 (nth k (stream_spectrum N hop w x t) C0)) by (intros t k Ht; unfold bin_power; now rewrite Nat.add_0_l, NX).
  split.
  - intros [y Ey] t k Ht Hk Z. destruct (mapM _ gs) as [rs|] eqn:Er; [|discriminate]. apply mapM_mapM_Some in Er. destruct (Ng t Ht) as [A B]. specialize (B k Hk). rewrite BP, Z in B by auto.
    replace (Cabs2 C0) with 0 in B by (unfold Cabs2, C0, RtoC; cbn; ring). unfold bin_gain, rdiv in B. destruct (Req_EM_T 0 0); [|lra]. unfold float_pow in B. cbn [ss_alpha ssub_new] in B. destruct (Req_EM_T alpha 0); [lra|]. cbn [bind] in B.
    subst gs. rewrite map_length in Lg. change (@nil (option R)) with (map (@Some R) []) in B at 1. rewrite map_nth in B. change (@nil (option R)) with (map (@Some R) []) in A. rewrite map_nth, map_length in A. rewrite (nth_indep _ None (Some 0)), map_nth in B by (rewrite map_length; lia). discriminate.
  - intros H. destruct (mapM_mapM_def gs) as [rs Er]. 2: rewrite Er; eexists; reflexivity. rewrite Lg. intros t k Ht Hk. destruct (Ng t Ht) as [A B]. rewrite A in Hk. rewrite (B k Hk). rewrite BP by auto. pose proof (Cabs2_nonneg (nth k (stream_spectrum N hop w x t) C0)) as Pn.
    assert (P0 : Cabs2 (nth k (stream_spectrum N hop w x t) C0) <> 0). { intros Z. apply (H t k Ht Hk). now apply Cabs2_zero. }
    rewrite bin_gain_formula; [discriminate|lra|exact Ha].
Qed.
Print Assumptions C115_finite.
(** The result of digital silence, with the default parameters, is not finite. *)
Theorem C115_silent_refuted : exists x, length x = 256%nat /\ (forall i, nth i x 0 = 0) /\ apply_spectral_sub x 512 25 12 30 1 = None.
Proof.
  exists (repeat 0 256). split; [apply repeat_length|]. split. { intros i. destruct (Nat.lt_ge_cases i 256) as [H|H]; [now apply nth_repeat|apply nth_overflow; now rewrite repeat_length]. }
  set (x := repeat 0 256). destruct (hann_full 512) as (w & Ew & _). destruct (apply_spectral_sub x 512 25 12 30 1) as [y|] eqn:E; [exfalso|reflexivity].
  destruct (C115_finite 512 25 12 30 1 x w ltac:(lia) ltac:(lra) Ew) as [H _]. specialize (H (ex_intro _ y E) 0%nat 0%nat). apply H.
  - unfold x. rewrite repeat_length. apply Nat.ltb_lt. reflexivity.
  - apply Nat.lt_0_succ.
  - unfold stream_spectrum. rewrite nth_rfft by apply Nat.le_0_l. unfold dft. apply csum_zero_ext. intros i _. unfold delayed, x. rewrite <- repeat_app. unfold frame. cbn [repeat app]. rewrite app_nil_r.
    assert (Z : forall n j, nth j (repeat 0 n) 0 = 0). { intros n j. destruct (Nat.lt_ge_cases j n) as [H1|H1]; [now apply nth_repeat|apply nth_overflow; now rewrite repeat_length]. }
    replace (nth i (map _ (seq 0 512)) 0) with 0. { cring. }
    destruct (Nat.lt_ge_cases i 512) as [H1|H1]; [rewrite nth_map_seq by exact H1; rewrite Z; ring|symmetry; apply nth_overflow; now rewrite map_length, seq_length].
Qed.
Print Assumptions C115_silent_refuted.
(** With no reduction allowed, the result is the signal delayed by half a frame. *)
Theorem C115_transparent : forall h L beta alpha x y, (1 <= h)%nat -> 0 < alpha -> 0 <= beta -> apply_spectral_sub x (2 * h) 0 L beta alpha = Some y ->
  length y = length x /\ forall t, (t < length x)%nat -> nth t y 0 = if (t <? length x / h * h)%nat then nth t (delayed h x) 0 else 0.
Proof.
  intros h L beta alpha x y Hh Ha Hb E. destruct (proj1 C64_overlap h Hh) as (w & Ew & Lw & Hw). assert (H2 : (2 * h / 2)%nat = h) by (rewrite Nat.mul_comm; apply Nat.div_mul; lia).
  destruct (C115_finite (2 * h) 0 L beta alpha x w ltac:(lia) Ha Ew) as [Fin _]. specialize (Fin (ex_intro _ y E)). destruct (C115_apply (2 * h) 0 L beta alpha x ltac:(lia)) as (w' & Ew' & gs & Eg & E'). rewrite E' in E. clear E'. rewrite Ew in Ew'. injection Ew' as <-. rewrite H2 in Eg, E, Fin.
  set (F := (length x / h)%nat) in *. set (Xs := map (stream_spectrum (2 * h) h w x) (seq 0 F)) in *. assert (LX : length Xs = F) by (unfold Xs; now rewrite map_length, seq_length).
  assert (FX : Forall (fun X => length X = (2 * h / 2 + 1)%nat) Xs). { unfold Xs. apply Forall_forall. intros X HX. apply in_map_iff in HX. destruct HX as (j & <- & _). apply rfft_length. }
  assert (NX : forall t, (t < F)%nat -> nth t Xs [] = stream_spectrum (2 * h) h w x t) by (intros t Ht; unfold Xs; now rewrite nth_map_seq).
  destruct (mapM _ gs) as [rs|] eqn:Er; [|discriminate]. cbn [bind] in E. injection E as <-. apply mapM_mapM_Some in Er.
  destruct (C115_gain (2 * h) 0 L beta alpha Xs Ha FX) as (gs' & Eg' & Lg & Ng). rewrite Eg in Eg'. injection Eg' as <-. pose proof (C115_range (2 * h) 0 L beta alpha Xs gs Ha Hb FX Eg) as Rg. cbv zeta in Rg.
  replace (Rpower 10 (- 0 / 20)) with 1 in Rg by (unfold Rpower; rewrite <- exp_0; f_equal; field).
  assert (LR : length rs = F) by (subst gs; rewrite map_length in Lg; lia).
  assert (Ym : map2 (map2 Cscal) rs Xs = Xs).
  { apply nth_ext with (d := []) (d' := []). { rewrite map2_length; lia. } rewrite map2_length by lia. intros t Ht. rewrite LR in Ht. rewrite (nth_map2 (map2 Cscal) rs Xs t [] [] []) by lia.
    assert (Lt : length (nth t rs []) = length (nth t Xs [])). { destruct (Ng t ltac:(lia)) as [A _]. subst gs. change (@nil (option R)) with (map (@Some R) []) in A. rewrite map_nth, map_length in A. rewrite A, NX by auto. symmetry. apply rfft_length. }
    apply nth_ext with (d := C0) (d' := C0). { rewrite map2_length; auto. } rewrite map2_length by auto. intros k Hk. rewrite (nth_map2 Cscal _ _ k 0 C0 C0) by lia.
    assert (Lk : (k < 2 * h / 2 + 1)%nat). { rewrite Lt, NX in Hk by auto. unfold stream_spectrum in Hk. now rewrite rfft_length in Hk. }
    destruct (Rg t k) as (g & G1 & G2 & _); [lia|exact Lk| |]. { intros Z. apply (Fin t k Ht); [now rewrite H2 in Lk|]. rewrite <- NX by auto. now apply Cabs2_zero. }
    rewrite Rmax_left in G2 by lra. subst gs. change (@nil (option R)) with (map (@Some R) []) in G1 at 1. rewrite map_nth in G1. rewrite (nth_indep _ None (Some 0)), map_nth in G1 by (rewrite map_length; lia). injection G1 as ->. replace g with 1 by lra. cring. }
  rewrite Ym. split; [unfold resynthesis; now rewrite map_length, seq_length|]. intros t Ht. unfold resynthesis. rewrite nth_map_seq by auto. rewrite LX. destruct (Nat.ltb_spec t (F * h)) as [Hlt|]; [|reflexivity].
  pose proof (ola_spectra (2 * h) h 0 0 (Some w) None F x t ltac:(lia) I (hann_partition h w Hh Ew Hw) Hlt) as O. rewrite !Nat.add_0_r in O. replace (2 * h - h)%nat with h in O by lia. rewrite <- O. f_equal. f_equal. unfold Xs, spectra. rewrite !Nat.add_0_r. unfold stream_spectrum. replace (2 * h - h)%nat with h by lia. reflexivity.
Qed.
Print Assumptions C115_transparent.
(** Two frames of one sample: the second one is quieter, so it gets the smallest gain (lookback 0:
    the noise is the current power). *)
Example C115_gain_case : gain_filters (ssub_new 0 20 1 1 1) [[RtoC 2]; [RtoC 3]; [RtoC 1]] = Some [[Some 1]; [Some (5 / 9)]; [Some (/ 10)]].
Proof.
  assert (G : Rpower 10 (Ropp 20 / 20) = / 10). { replace (Ropp 20 / 20) with (- (1)) by field. rewrite Rpower_Ropp, Rpower_1 by lra. reflexivity. }
  cbv [gain_filters compute_gain_filter ssub_new ss_bins ss_prev ss_beta ss_alpha ss_gmin Nat.div Nat.divmod fst snd length Nat.eqb bind map map2 repeat removelast app row_min tl hd fold_left firstn Nat.add bin_gain float_pow rdiv RtoC Conj Cmul]. rewrite G.
  replace (Rmin 0 (2 * 2 - - 0 * 0)) with 0 by (rewrite Rmin_left; lra). replace (Rmin (2 * 2 - - 0 * 0) (3 * 3 - - 0 * 0)) with 4 by (rewrite Rmin_left; lra). replace (Rmin (3 * 3 - - 0 * 0) (1 * 1 - - 0 * 0)) with 1 by (rewrite Rmin_right; lra).
  destruct (Req_EM_T 1 0); [lra|]. destruct (Req_EM_T (2 * 2 - - 0 * 0) 0); [lra|]. destruct (Req_EM_T (3 * 3 - - 0 * 0) 0); [lra|]. destruct (Req_EM_T (1 * 1 - - 0 * 0) 0); [lra|].
  replace (Rmax (2 * 2 - - 0 * 0 - 1 * 0) 0) with 4 by (rewrite Rmax_left; lra). replace (Rmax (3 * 3 - - 0 * 0 - 1 * 4) 0) with 5 by (rewrite Rmax_left; lra). replace (Rmax (1 * 1 - - 0 * 0 - 1 * 1) 0) with 0 by (rewrite Rmax_right; lra).
  replace (4 / (2 * 2 - - 0 * 0)) with 1 by field. replace (5 / (3 * 3 - - 0 * 0)) with (5 / 9) by field. replace (0 / (1 * 1 - - 0 * 0)) with 0 by field.
  destruct (Req_EM_T 1 0); [lra|]. destruct (Req_EM_T (5 / 9) 0); [lra|]. destruct (Req_EM_T 0 0); [|lra]. destruct (Rlt_dec 1 0); [lra|]. rewrite !Rpower_1 by lra.
  rewrite (Rmax_left 1), (Rmax_left (5 / 9)), (Rmax_right 0) by lra. reflexivity.
Qed.
Lemma dft2_nonzero : forall (f : vec) k, nth 0 f 0 = 0 -> nth 1 f 0 <> 0 -> dft 2 (fun j => RtoC (nth j f 0)) k <> C0.
Proof.
  intros f k F0 F1 H. apply F1. unfold dft in H. rewrite !csum_S, csum_0, F0 in H. set (v := nth 1 f 0) in *. set (c := omega 2 (- Z.of_nat (1 * k))) in *. assert (A : Cabs2 c = 1) by apply cis_abs2. set (d := omega 2 (- Z.of_nat (0 * k))) in *. clearbody c d v.
  apply (f_equal Cabs2) in H. unfold Cabs2, RtoC, C0 in H, A. cbn in H. assert (V : v * v = v * v * (fst c * fst c + snd c * snd c)) by (rewrite A; ring). apply Rsqr_0_uniq. unfold Rsqr. rewrite V. transitivity (0 * 0 + 0 * 0); [|ring]. etransitivity; [|exact H]. ring.
Qed.
(** A signal whose frames have energy in both bins. *)
Example C115_apply_case : exists y, apply_spectral_sub [1; 2; 3] 2 0 0 1 1 = Some y /\ nth 0 y 0 = 0 /\ nth 1 y 0 = 1 /\ nth 2 y 0 = 2.
Proof.
  assert (Ew : hann 2 asymmetric wfull = Some [0; 1]). { unfold hann. rewrite full_asym. cbn [seq map INR]. replace (2 * PI * (0 / (1 + 1))) with 0 by field. replace (2 * PI * (1 / (1 + 1))) with PI by field. rewrite cos_0, cos_PI. do 2 f_equal; [|f_equal]; lra. }
  destruct (proj2 (C115_finite 2 0 0 1 1 [1; 2; 3] [0; 1] ltac:(lia) ltac:(lra) Ew)) as [y E].
  - intros t k Ht Hk. change (2 / 2)%nat with 1%nat in *. cbn [length] in Ht. change (3 / 1)%nat with 3%nat in Ht. unfold stream_spectrum. rewrite nth_rfft by (change (2 / 2)%nat with 1%nat; lia). set (f := frame _ _ _ _ _ _).
    assert (F0 : nth 0 f 0 = 0) by (unfold f; cbn; ring). assert (F1 : nth 1 f 0 <> 0). { unfold f. destruct t as [|[|[|t]]]; [| | |lia]; cbn; lra. }
    now apply dft2_nonzero.
  - exists y. split; [exact E|]. destruct (C115_transparent 1 0 1 1 [1; 2; 3] y ltac:(lia) ltac:(lra) ltac:(lra) E) as [_ N]. rewrite !N by (cbn; lia). repeat split; reflexivity.
Qed.
