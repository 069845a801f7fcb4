(** C116: the iterative Wiener filter. *)
From Coq Require Import List ZArith Lia Reals Lra Bool.
From Verif Require Import Base Vec Sum Cpx DftModel DftProofs StftModel StftSpec StftProofs WindowModel WindowProps UtilModel DenoiseModel DenoiseSpec DenoiseProofs WienerProofs BaseProofs.
Import ListNotations.
Local Open Scope R_scope.

(** Successive calls of compute_filtered_output on a new object: the noise level is the exponential
    average of the variances below the threshold, it stays below the threshold, and each bin of the
    result is the bin of the spectrum divided by sqrt(frame_len) and multiplied by a Wiener gain
    p / (p + noise), p > 0: in particular by a gain between zero and one. *)
Theorem C116_gain : forall n order it alpha thresh npts s calls s' outs, wiener_new n order it alpha thresh = Some s -> filtered_outputs npts s calls = Some (s', outs) ->
  let noise t := smoothed alpha (below thresh (map (fun c => energy (fst c)) (firstn t calls))) in
  wi_noise s' = noise (length calls) /\ length outs = length calls /\
  forall t, (t < length calls)%nat -> 0 <= noise (S t) /\ (noise (S t) = 0 \/ noise (S t) < thresh) /\
    length (nth t outs []) = (n / 2 + 1)%nat /\
    forall k, (k < n / 2 + 1)%nat -> exists p, 0 < p /\ 0 < p / (p + noise (S t)) <= 1 /\
      nth k (nth t outs []) C0 = Cscal (p / (p + noise (S t)) / sqrt (INR n)) (nth k (spectrum_of (nth t calls ([], None))) C0).
Proof.
  intros n order it alpha thresh npts s calls s' outs Hs H noise. destruct (new_inv _ _ _ _ _ _ Hs) as (I0 & E1 & E2 & E3 & E4 & E5 & E6 & _).
  destruct (run_spec npts calls s s' outs [] I0) as (_ & _ & A & B & D); [rewrite E6; reflexivity|exact H|]. rewrite E4, E5, E1 in *. cbn [app] in *. split; [exact A|]. split; [exact B|]. intros t Ht. destruct (D t Ht) as (D1 & D2 & D3 & ps & D4 & D5 & D6). fold (noise (S t)) in *. split; [exact D2|]. split; [exact D3|].
  split. { rewrite D6, map2_length; rewrite !map_length; congruence. } intros k Hk. exists (nth k ps 0). assert (P : 0 < nth k ps 0) by (rewrite Forall_forall in D5; apply D5, nth_In; lia). split; [exact P|]. split.
  - split; [apply Rdiv_lt_0_compat; lra|]. apply Rmult_le_reg_r with (nth k ps 0 + noise (S t)); [lra|]. unfold Rdiv. rewrite Rmult_assoc, Rinv_l by lra. lra.
  - rewrite D6. set (X := spectrum_of _) in *. rewrite (nth_map2 Cscal _ _ k 0 C0 C0) by (rewrite !map_length; lia). rewrite (nth_indep (map (fun p => p / (p + noise (S t))) ps) 0 ((fun p => p / (p + noise (S t))) 0)) by (rewrite map_length; lia). rewrite (map_nth (fun p => p / (p + noise (S t)))). rewrite (nth_indep (map (Cscal _) X) C0 (Cscal (/ sqrt (INR n)) C0)) by (rewrite map_length; lia). rewrite map_nth. apply C_eq; cbn; unfold Rdiv; ring.
Qed.
Print Assumptions C116_gain.
(** The array passed as frame_dft is divided by sqrt(frame_len) in place. *)
Theorem C116_inplace_refuted : exists n order it alpha thresh s npts frame X s' Y X', wiener_new n order it alpha thresh = Some s /\ compute_filtered_output npts s frame (Some X) = Some (s', Y, Some X') /\ X' <> X.
Proof.
  exists 4%nat, 1%nat, 2%nat, 0, 1. eexists. exists 1000%nat, [0; 0; 0; 0], [C1; C1; C1]. do 3 eexists. unfold wiener_new. cbn [Nat.odd Nat.even negb]. destruct (Rlt_dec 1 0); [lra|]. destruct (Rlt_dec 0 0); [lra|]. split; [reflexivity|].
  unfold compute_filtered_output. cbn [wi_len Nat.eqb length Nat.div Nat.divmod fst Nat.add negb]. unfold frame_energy, mean. cbn [length Nat.eqb bsum nth]. cbn [bind wi_thresh wi_alpha wi_noise wi_speech].
  match goal with |- context [Rlt_dec ?e 1] => replace e with 0 by (cbn [INR]; field) end. destruct (Rlt_dec 0 1); [|lra].
  unfold compute_wiener_filter. cbn [Nat.div Nat.divmod fst Nat.add repeat mapM]. unfold rdiv. destruct (Req_EM_T (1 + (0 * 0 + (1 - 0) * 0)) 0); [lra|]. cbn [bind]. split; [reflexivity|].
  replace (sqrt (INR 4)) with 2. 2: { replace (INR 4) with (2 * 2) by (cbn; ring). symmetry. apply sqrt_square. lra. } cbn [map]. intros Q. injection Q as Q _ _ _ _ _. lra.
Qed.
Print Assumptions C116_inplace_refuted.

Lemma process_wiener : forall npts ins s, process_all (wiener_proc npts) s ins = (let* r := filtered_outputs npts s (map (fun i => (fst i, Some (snd i))) ins) in Some (snd r)).
Proof.
  intros npts. induction ins as [|[b X] ins IH]; intros s; cbn [process_all map filtered_outputs fst snd]; [reflexivity|]. unfold wiener_proc at 1. destruct (compute_filtered_output npts s b (Some X)) as [[[s1 Y] Z]|]; [|reflexivity]. cbn [bind fst snd]. rewrite IH. destruct (filtered_outputs _ s1 _) as [[s2 outs]|]; reflexivity.
Qed.
Lemma buffer_spec : forall h w x j, (1 <= h)%nat -> length w = (2 * h)%nat -> left_buffer (2 * h) h w (nth_frame_of (2 * h) h x j) = buffer_after h w x j.
Proof.
  intros h w x j Hh Lw. unfold left_buffer, buffer_after. replace (2 * h - h)%nat with h by lia. set (u := nth_frame_of (2 * h) h x j).
  assert (Lu : length u = (2 * h)%nat) by (unfold u, nth_frame_of; now rewrite map_length, seq_length). assert (Nu : forall i, (i < 2 * h)%nat -> nth i u 0 = nth (j * h + i) (delayed h x) 0). { intros i Hi. unfold u, nth_frame_of. rewrite nth_map_seq by auto. now replace (2 * h - h)%nat with h by lia. }
  apply nth_ext with (d := 0) (d' := 0). { rewrite app_length, !skipn_length, frame_length, map_length, seq_length. lia. }
  rewrite app_length, !skipn_length, frame_length, Lu. intros i Hi. rewrite nth_map_seq by lia. destruct (Nat.ltb_spec i h) as [Hl|Hl].
  - rewrite app_nth1 by (rewrite skipn_length; lia). rewrite nth_skipn. apply Nu. lia.
  - rewrite app_nth2 by (rewrite skipn_length; lia). rewrite skipn_length, nth_skipn, Lu. replace (h + (i - (2 * h - h)))%nat with i by lia. unfold frame. cbn [repeat app]. rewrite app_nil_r, nth_map_seq by lia. cbn [win Nat.add]. now rewrite Nu by lia.
Qed.
Lemma firstn_seq : forall t a F, (t <= F)%nat -> firstn t (seq a F) = seq a t.
Proof. induction t as [|t IH]; intros a F H; [reflexivity|]. destruct F as [|F]; [lia|]. cbn [seq firstn]. now rewrite IH by lia. Qed.
(** The one-shot function: overlap-add of the frames with such gains.  The noise level comes from
    [buffer_after], not from the frames. *)
Theorem C116_apply : forall npts h order it alpha thresh x y, (1 <= h)%nat -> apply_iterative_wiener npts x (2 * h) order it alpha thresh = Some y ->
  exists w, hann (2 * h) asymmetric wfull = Some w /\
  let F := (length x / h)%nat in let noise t := smoothed alpha (below thresh (map (fun j => energy (buffer_after h w x j)) (seq 0 t))) in
  exists ps, length ps = F /\ (forall t, (t < F)%nat -> length (nth t ps []) = (h + 1)%nat /\ Forall (fun p => 0 < p) (nth t ps []) /\ 0 <= noise (S t)) /\
    y = resynthesis (2 * h) h (length x) (map (fun t => map2 Cscal (map (fun p => p / (p + noise (S t))) (nth t ps [])) (map (Cscal (/ sqrt (INR (2 * h)))) (stream_spectrum (2 * h) h w x t))) (seq 0 F)).
Proof.
  intros npts h order it alpha thresh x y Hh H. destruct (proj1 C64_overlap h Hh) as (w & Ew & Lw & _). exists w. split; [exact Ew|]. intros F noise. assert (H2 : (2 * h / 2)%nat = h) by (rewrite Nat.mul_comm; apply Nat.div_mul; lia).
  unfold apply_iterative_wiener in H. destruct (wiener_new (2 * h) order it alpha thresh) as [s|] eqn:Es; [|discriminate]. cbn [bind] in H. destruct (new_inv _ _ _ _ _ _ Es) as (I0 & E1 & E2 & E3 & E4 & E5 & E6 & _).
  rewrite (one_shot_spec (wiener_proc npts) (fun s => wi_inv s /\ wi_len s = (2 * h)%nat) (2 * h) s x w) in H; auto; [|lia|].
  2: { intros s1 b X s1' Y [J1 J2] E LX. unfold wiener_proc in E. destruct (compute_filtered_output npts s1 b (Some X)) as [[[s2 Y2] Z]|] eqn:E0; [|discriminate]. cbn [bind fst snd] in E. injection E as <- <-. destruct (filtered_step _ _ _ _ _ _ _ J1 E0) as (K1 & K2 & _ & K3 & _ & -> & _). destruct K1 as (? & ? & ? & ? & ? & ? & K7 & K8). destruct K2 as (K2 & _). split; [rewrite map2_length; rewrite ?map_length; congruence|]. split; [repeat split; auto; tauto|congruence]. }
  rewrite H2 in H. fold F in H. rewrite process_wiener, map_map in H. cbn [fst snd] in H. match type of H with context [filtered_outputs npts s ?c] => set (calls := c) in H end. destruct (filtered_outputs npts s calls) as [[s' outs]|] eqn:Ef; [|discriminate]. cbn [bind snd] in H. injection H as <-.
  assert (Lc : length calls = F) by (unfold calls; now rewrite map_length, seq_length).
  destruct (run_spec npts calls s s' outs [] I0) as (_ & _ & A & B & D); [rewrite E6; reflexivity|exact Ef|]. rewrite E4, E5, E1 in *. cbn [app] in *. rewrite H2, Lc in *.
  assert (En : forall t, (t <= F)%nat -> smoothed alpha (below thresh (map (fun c => energy (fst c)) (firstn t calls))) = noise t). { intros t Ht. unfold noise, calls. do 2 f_equal. rewrite firstn_map, map_map, firstn_seq by auto. apply map_ext_in. intros j _. cbn [fst]. now rewrite buffer_spec. }
  assert (Nc : forall t, (t < F)%nat -> spectrum_of (nth t calls ([], None)) = stream_spectrum (2 * h) h w x t). { intros t Ht. unfold calls. now rewrite nth_map_seq. }
  assert (Q : forall m, (m <= F)%nat -> exists ps, length ps = m /\ forall t, (t < m)%nat -> length (nth t ps []) = (h + 1)%nat /\ Forall (fun p => 0 < p) (nth t ps []) /\ 0 <= noise (S t) /\ nth t outs [] = map2 Cscal (map (fun p => p / (p + noise (S t))) (nth t ps [])) (map (Cscal (/ sqrt (INR (2 * h)))) (stream_spectrum (2 * h) h w x t))).
  { induction m as [|m IH]; intros Hm; [exists []; split; [reflexivity|intros; lia]|]. destruct IH as (ps & Lp & P); [lia|]. destruct (D m ltac:(lia)) as (D1 & D2 & D3 & p & D4 & D5 & D6). rewrite En in * by lia. rewrite Nc in * by lia. exists (ps ++ [p]). split; [rewrite app_length; cbn; lia|]. intros t Ht. destruct (Nat.eq_dec t m) as [->|Hne].
    - rewrite app_nth2, Lp, Nat.sub_diag by lia. cbn [nth]. auto.
    - rewrite app_nth1 by lia. apply P. lia. }
  destruct (Q F (le_n _)) as (ps & Lp & P). exists ps. split; [exact Lp|]. split; [intros t Ht; destruct (P t Ht) as (? & ? & ? & _); auto|]. f_equal. apply nth_ext with (d := []) (d' := []); [rewrite map_length, seq_length; auto|]. rewrite B. intros t Ht. rewrite nth_map_seq by auto. now apply P.
Qed.
Print Assumptions C116_apply.

Lemma inverse_scal : forall n c X, inverse n None (map (Cscal c) X) = map (Rmult c) (inverse n None X).
Proof.
  intros n c X. unfold inverse. rewrite map_map. apply map_ext_in. intros j Hj. apply in_seq in Hj. cbn [win]. rewrite !Rmult_1_l. rewrite !nth_irfft by lia.
  assert (E : forall k, nth k (map (Cscal c) X) C0 = Cscal c (nth k X C0)). { intros k. replace C0 with (Cscal c C0) at 1 by cring. apply map_nth. }
  rewrite !E. rewrite (bsum_ext _ _ (fun k => c * (2 * fst (nth (k + 1) X C0 * omega n (Z.of_nat (j * (k + 1))))%C))) by (intros k _; rewrite E; cbn; ring). rewrite bsum_scal. destruct (Nat.even n); cbn [Cscal fst]; ring.
Qed.
Lemma ola_scal : forall hop c fs t, ola hop (map (map (Rmult c)) fs) t = c * ola hop fs t.
Proof.
  intros hop c fs t. unfold ola. rewrite map_length, <- bsum_scal. apply bsum_ext. intros k Hk. destruct (k * hop <=? t)%nat; [|ring]. replace (nth k (map (map (Rmult c)) fs) []) with (map (Rmult c) (nth k fs [])) by (symmetry; apply (map_nth (map (Rmult c)) fs [])). replace 0 with (c * 0) at 1 by ring. apply map_nth.
Qed.
(** Without any noise the result is the signal, delayed by half a frame, divided by
    sqrt(frame_len). *)
Theorem C116_level : forall npts h order it alpha thresh x y w, (1 <= h)%nat -> apply_iterative_wiener npts x (2 * h) order it alpha thresh = Some y -> hann (2 * h) asymmetric wfull = Some w ->
  alpha = 1 \/ (forall j, (j < length x / h)%nat -> thresh <= energy (buffer_after h w x j)) ->
  length y = length x /\ forall t, (t < length x)%nat -> nth t y 0 = if (t <? length x / h * h)%nat then nth t (delayed h x) 0 / sqrt (INR (2 * h)) else 0.
Proof.
  intros npts h order it alpha thresh x y w Hh H Ew HQ. destruct (C116_apply _ _ _ _ _ _ _ _ Hh H) as (w' & Ew' & ps & Lp & P & ->). rewrite Ew in Ew'. injection Ew' as <-. destruct (proj1 C64_overlap h Hh) as (w' & Ew' & Lw & Hw). rewrite Ew in Ew'. injection Ew' as <-.
  set (F := (length x / h)%nat) in *. assert (H2 : (2 * h / 2)%nat = h) by (rewrite Nat.mul_comm; apply Nat.div_mul; lia).
  assert (N0 : forall t, (t <= F)%nat -> smoothed alpha (below thresh (map (fun j => energy (buffer_after h w x j)) (seq 0 t))) = 0).
  { intros t Ht. destruct HQ as [->|HQ]; [unfold smoothed; apply bsum_zero_ext; intros; ring|]. assert (E : below thresh (map (fun j => energy (buffer_after h w x j)) (seq 0 t)) = []).
    { unfold below. assert (HQ' : forall j, In j (seq 0 t) -> thresh <= energy (buffer_after h w x j)) by (intros j Hj; apply in_seq in Hj; apply HQ; lia). revert HQ'. generalize (seq 0 t). induction l as [|j l IH]; intros K; [reflexivity|]. cbn [map filter]. destruct (Rlt_dec (energy (buffer_after h w x j)) thresh) as [L|]; [specialize (K j (or_introl eq_refl)); lra|]. apply IH. intros i Hi. apply K. now right. }
    rewrite E. reflexivity. }
  split; [unfold resynthesis; now rewrite map_length, seq_length|]. intros t Ht. unfold resynthesis. rewrite nth_map_seq by auto. rewrite map_length, seq_length. destruct (Nat.ltb_spec t (F * h)) as [Hlt|]; [|reflexivity].
  assert (EY : map (fun t => map2 Cscal (map (fun p => p / (p + smoothed alpha (below thresh (map (fun j => energy (buffer_after h w x j)) (seq 0 (S t)))))) (nth t ps [])) (map (Cscal (/ sqrt (INR (2 * h)))) (stream_spectrum (2 * h) h w x t))) (seq 0 F) = map (fun t => map (Cscal (/ sqrt (INR (2 * h)))) (stream_spectrum (2 * h) h w x t)) (seq 0 F)).
  { apply map_ext_in. intros j Hj. apply in_seq in Hj. rewrite N0 by lia. destruct (P j ltac:(lia)) as (P1 & P2 & _). assert (LX : length (map (Cscal (/ sqrt (INR (2 * h)))) (stream_spectrum (2 * h) h w x j)) = (h + 1)%nat) by (rewrite map_length; unfold stream_spectrum; now rewrite rfft_length, H2). revert LX P1 P2. generalize (map (Cscal (/ sqrt (INR (2 * h)))) (stream_spectrum (2 * h) h w x j)) (nth j ps []) (h + 1)%nat. clear. intros l p n H1 H2 H3. subst n. revert l H2. induction H3 as [|a p Pa Pp IH]; intros [|z l] Hl; cbn in *; try reflexivity; try discriminate. rewrite IH by lia. f_equal. replace (a / (a + 0)) with 1 by (field; lra). cring. }
  rewrite EY. rewrite <- (map_map (stream_spectrum (2 * h) h w x) (map (Cscal (/ sqrt (INR (2 * h)))))), map_map. rewrite (map_ext _ (fun X => map (Rmult (/ sqrt (INR (2 * h)))) (inverse (2 * h) None X))) by (intros; apply inverse_scal). rewrite <- (map_map (inverse (2 * h) None) (map (Rmult (/ sqrt (INR (2 * h)))))), ola_scal.
  pose proof (ola_spectra (2 * h) h 0 0 (Some w) None F x t ltac:(lia) I (hann_partition h w Hh Ew Hw) Hlt) as O. rewrite !Nat.add_0_r in O. replace (2 * h - h)%nat with h in O by lia. rewrite <- O. unfold Rdiv. rewrite (Rmult_comm _ (/ _)). do 3 f_equal. unfold spectra. rewrite !Nat.add_0_r. unfold stream_spectrum. replace (2 * h - h)%nat with h by lia. reflexivity.
Qed.
Print Assumptions C116_level.

Lemma scal_ones : forall b c d X, length X = b -> map2 Cscal (map (fun p => p / (p + c)) (repeat 1 b)) (map (Cscal d) X) = map (Cscal (/ (1 + c) * d)) X.
Proof.
  induction b as [|b IH]; intros c d [|z X] H; try discriminate; [reflexivity|]. cbn [repeat map map2]. rewrite IH by (cbn in H; lia). f_equal. apply C_eq; cbn; unfold Rdiv; ring.
Qed.
Lemma quiet_run : forall npts calls s past, wi_inv s -> wi_noise s = smoothed (wi_alpha s) (below (wi_thresh s) past) -> wi_len s <> 0%nat -> wi_speech s = repeat 1 (wi_len s / 2 + 1) ->
  (forall c, In c calls -> (0 < length (fst c))%nat /\ energy (fst c) < wi_thresh s /\ length (spectrum_of c) = (wi_len s / 2 + 1)%nat) ->
  exists s' outs, filtered_outputs npts s calls = Some (s', outs) /\ length outs = length calls /\
    forall t, (t < length calls)%nat -> nth t outs [] = map (Cscal (/ (1 + smoothed (wi_alpha s) (below (wi_thresh s) (past ++ map (fun c => energy (fst c)) (firstn (S t) calls)))) * / sqrt (INR (wi_len s)))) (spectrum_of (nth t calls ([], None))).
Proof.
  intros npts. induction calls as [|[y X] calls IH]; intros s past I0 Hn Hl Hp HC; cbn [filtered_outputs]; [exists s, []; split; [reflexivity|]; split; [reflexivity|]; cbn; intros; lia|].
  destruct (HC (y, X) (or_introl eq_refl)) as (Ly & Ey & LX). cbn [fst] in Ly, Ey. unfold spectrum_of in LX. cbn [fst snd] in LX.
  assert (exists s1 Y Z, compute_filtered_output npts s y X = Some (s1, Y, Z) /\ wi_speech s1 = wi_speech s) as (s1 & Y & Z & E & Es).
  { unfold compute_filtered_output. set (d := match X with Some X => X | None => rfft (length y) y end) in *. destruct (Nat.eqb_spec (wi_len s) 0); [lia|]. destruct (Nat.eqb_spec (length d) (wi_len s / 2 + 1)); [|lia]. cbn [negb].
    destruct (frame_energy y) as [ey|] eqn:Ee; [|unfold frame_energy in Ee; destruct (Nat.eqb_spec (length y) 0); [lia|discriminate]]. cbn [bind]. destruct (energy_facts _ _ Ee) as (_ & Pe & -> & _). destruct (Rlt_dec (energy y) (wi_thresh s)); [|lra].
    destruct I0 as (A & B & D & F1 & _). destruct (filter_defined (wi_speech s) (wi_alpha s * wi_noise s + (1 - wi_alpha s) * energy y) F1) as [h Eh]. { apply Rplus_le_le_0_compat; apply Rmult_le_pos; lra. } rewrite Eh. cbn [bind]. do 3 eexists. split; reflexivity. }
  rewrite E. cbn [bind fst snd]. destruct (filtered_step _ _ _ _ _ _ _ I0 E) as (I1 & S1 & _ & _ & N1 & HY & _). destruct S1 as (S11 & S12 & S13 & S14 & S15). destruct (Rlt_dec (energy y) (wi_thresh s)) as [L|]; [|lra].
  assert (Hn1 : wi_noise s1 = smoothed (wi_alpha s1) (below (wi_thresh s1) (past ++ [energy y]))). { rewrite N1, S14, S15, below_snoc. destruct (Rlt_dec (energy y) (wi_thresh s)); [rewrite smoothed_snoc; congruence|lra]. }
  destruct (IH s1 (past ++ [energy y]) I1 Hn1) as (s2 & outs & E2 & L2 & N2); [lia|rewrite Es, S11; exact Hp|intros c Hc; rewrite S15, S11; apply HC; now right|]. rewrite E2. cbn [bind fst snd]. exists s2, (Y :: outs). split; [reflexivity|]. split; [cbn; lia|]. rewrite S14, S15, S11 in *. intros [|t] Ht; cbn [nth].
  - cbn [firstn map fst]. rewrite HY. destruct I1 as (_ & _ & _ & _ & _ & _ & _ & F5). rewrite F5, Es, Hp, Hn1. unfold spectrum_of. cbn [snd fst]. now apply scal_ones.
  - rewrite N2 by (cbn in Ht; lia). cbn [firstn map fst]. now rewrite <- app_assoc.
Qed.
(** A recording in which everything is below the threshold: the result is always finite, and frame
    number t is multiplied by 1 / (1 + noise level) / sqrt(frame_len). *)
Theorem C116_quiet : forall npts h order it alpha thresh x w, (1 <= h)%nat -> 0 <= alpha <= 1 -> hann (2 * h) asymmetric wfull = Some w ->
  let F := (length x / h)%nat in let e j := energy (buffer_after h w x j) in (forall j, (j < F)%nat -> e j < thresh) ->
  apply_iterative_wiener npts x (2 * h) order it alpha thresh =
    Some (resynthesis (2 * h) h (length x) (map (fun t => map (Cscal (/ (1 + smoothed alpha (map e (seq 0 (S t)))) / sqrt (INR (2 * h)))) (stream_spectrum (2 * h) h w x t)) (seq 0 F))).
Proof.
  intros npts h order it alpha thresh x w Hh Ha Ew F e HE. destruct (proj1 C64_overlap h Hh) as (w' & Ew' & Lw & _). rewrite Ew in Ew'. injection Ew' as <-. assert (H2 : (2 * h / 2)%nat = h) by (rewrite Nat.mul_comm; apply Nat.div_mul; lia).
  unfold apply_iterative_wiener. assert (exists s, wiener_new (2 * h) order it alpha thresh = Some s /\ wi_speech s = repeat 1 (2 * h / 2 + 1)) as (s & Es & Esp). { unfold wiener_new. replace (Nat.odd (2 * h)) with false by (symmetry; rewrite <- Nat.negb_even, Nat.even_mul; reflexivity). destruct (Rlt_dec 1 alpha); [lra|]. destruct (Rlt_dec alpha 0); [lra|]. eexists. split; reflexivity. }
  rewrite Es. cbn [bind]. destruct (new_inv _ _ _ _ _ _ Es) as (I0 & E1 & E2 & E3 & E4 & E5 & E6 & _).
  rewrite (one_shot_spec (wiener_proc npts) (fun s => wi_inv s /\ wi_len s = (2 * h)%nat) (2 * h) s x w); auto; [|lia|].
  2: { intros s1 b X s1' Y [J1 J2] E LX. unfold wiener_proc in E. destruct (compute_filtered_output npts s1 b (Some X)) as [[[s2 Y2] Z]|] eqn:E0; [|discriminate]. cbn [bind fst snd] in E. injection E as <- <-. destruct (filtered_step _ _ _ _ _ _ _ J1 E0) as (K1 & K2 & _ & K3 & _ & -> & _). destruct K1 as (? & ? & ? & ? & ? & ? & K7 & K8). destruct K2 as (K2 & _). split; [rewrite map2_length; rewrite ?map_length; congruence|]. split; [repeat split; auto; tauto|congruence]. }
  rewrite H2. fold F. rewrite process_wiener, map_map. cbn [fst snd]. match goal with |- context [filtered_outputs npts s ?c] => set (calls := c) end.
  assert (Lc : length calls = F) by (unfold calls; now rewrite map_length, seq_length).
  destruct (quiet_run npts calls s [] I0) as (s' & outs & Ef & Lo & No); [rewrite E6; reflexivity|lia|rewrite E1; exact Esp| |].
  { intros c Hc. unfold calls in Hc. apply in_map_iff in Hc. destruct Hc as (j & <- & Hj). apply in_seq in Hj. cbn [fst]. rewrite buffer_spec by auto. split; [unfold buffer_after; rewrite map_length, seq_length; lia|]. split; [rewrite E5; apply HE; lia|]. unfold spectrum_of. cbn [snd]. rewrite E1. apply rfft_length. }
  rewrite Ef. cbn [bind snd]. do 2 f_equal. apply nth_ext with (d := []) (d' := []); [rewrite map_length, seq_length; lia|]. rewrite Lo, Lc. intros t Ht. rewrite nth_map_seq by auto. rewrite No by lia. cbn [app]. rewrite E4, E5, E1. unfold calls at 2. rewrite nth_map_seq by auto. unfold spectrum_of. cbn [snd].
  unfold Rdiv. do 6 f_equal. unfold calls. rewrite firstn_map, map_map, firstn_seq by lia. rewrite (map_ext _ e) by (intros j; cbn [fst]; now rewrite buffer_spec).
  unfold below. assert (HI : forall j, In j (seq 0 (S t)) -> e j < thresh) by (intros j Hj; apply in_seq in Hj; apply HE; lia). revert HI. generalize (seq 0 (S t)). clear. induction l as [|j l IH]; intros HI; [reflexivity|]. cbn [map filter]. destruct (Rlt_dec (e j) thresh) as [|Nl]; [|specialize (HI j (or_introl eq_refl)); lra]. rewrite IH; [reflexivity|]. intros i Hi. apply HI. now right.
Qed.
Print Assumptions C116_quiet.

Lemma hann4 : hann 4 asymmetric wfull = Some [0; / 2; 1; / 2].
Proof.
  unfold hann. rewrite full_asym. cbn [seq map INR]. replace (2 * PI * (0 / (1 + 1 + 1 + 1))) with 0 by field. replace (2 * PI * (1 / (1 + 1 + 1 + 1))) with (PI / 2) by field. replace (2 * PI * ((1 + 1) / (1 + 1 + 1 + 1))) with PI by field. replace (2 * PI * ((1 + 1 + 1) / (1 + 1 + 1 + 1))) with (3 * (PI / 2)) by field. rewrite cos_0, cos_PI2, cos_PI, cos_3PI2. f_equal. repeat (f_equal; try lra).
Qed.
Definition loud : vec := [1; 4 / 3; - 1; - (4 / 3)].
Lemma loud_buffers : forall j, (j < 2)%nat -> energy (buffer_after 2 [0; / 2; 1; / 2] loud j) = 1 / 18.
Proof. intros [|[|j]] Hj; [| |lia]; unfold energy, buffer_after, loud, delayed; cbn; field. Qed.
Lemma two_blocks : forall c d, nth 2 (resynthesis 4 2 4 (map (fun t => map (Cscal (match t with O => c | _ => d end)) (stream_spectrum 4 2 [0; / 2; 1; / 2] loud t)) (seq 0 2))) 0 = c.
Proof.
  intros c d. unfold resynthesis. rewrite nth_map_seq by lia. rewrite map_length, seq_length. destruct (Nat.ltb_spec 2 (2 * 2)); [|lia]. rewrite map_map. rewrite (map_ext _ (fun t => map (Rmult (match t with O => c | _ => d end)) (inverse 4 None (stream_spectrum 4 2 [0; / 2; 1; / 2] loud t)))) by (intros; apply inverse_scal).
  unfold ola. rewrite map_length, seq_length. cbn [seq map bsum nth Nat.mul Nat.leb Nat.sub Nat.add].
  assert (E : forall a k i, (i < 4)%nat -> nth i (map (Rmult a) (inverse 4 None (stream_spectrum 4 2 [0; / 2; 1; / 2] loud k))) 0 = a * nth i (frame 4 0 0 (Some [0; / 2; 1; / 2]) (delayed 2 loud) (k * 2)) 0).
  { intros a k i Hi. rewrite (nth_indep _ 0 (a * 0)) by (rewrite map_length, inverse_length; lia). rewrite (map_nth (Rmult a)). f_equal. unfold stream_spectrum. rewrite nth_inverse by auto. unfold win. rewrite irfft_rfft by (rewrite ?frame_length; lia). apply Rmult_1_l. }
  rewrite !E by lia. unfold frame, delayed, loud. cbn. ring.
Qed.
(** A signal whose frames, with and without window, are all above the threshold, but that is
    attenuated as noise: the decision is not taken on the frames. *)
Theorem C116_frame_refuted : exists npts h order it alpha thresh x w y, hann (2 * h) asymmetric wfull = Some w /\
  (forall j, (j < length x / h)%nat -> thresh <= energy (map (fun i => nth (j * h + i) (delayed h x) 0) (seq 0 (2 * h))) /\ thresh <= energy (frame (2 * h) 0 0 (Some w) (delayed h x) (j * h))) /\
  apply_iterative_wiener npts x (2 * h) order it alpha thresh = Some y /\ exists t, (t < length x / h * h)%nat /\ nth t y 0 <> nth t (delayed h x) 0 / sqrt (INR (2 * h)).
Proof.
  exists 1000%nat, 2%nat, 20%nat, 2%nat, 0, (1 / 10), loud, [0; / 2; 1; / 2]. eexists. change (2 * 2)%nat with 4%nat. split; [exact hann4|]. split.
  - intros j Hj. change (length loud / 2)%nat with 2%nat in Hj. destruct j as [|[|j]]; [| |lia]; unfold energy, frame, delayed, loud; cbn; lra.
  - split.
    + apply (C116_quiet 1000 2 20 2 0 (1 / 10) loud [0; / 2; 1; / 2]); [lia|lra|exact hann4|]. intros j Hj. rewrite loud_buffers by exact Hj. lra.
    + exists 2%nat. split; [cbn; lia|]. change (length loud) with 4%nat. change (4 / 2)%nat with 2%nat.
      set (S0 := map (fun j => energy (buffer_after 2 [0; / 2; 1; / 2] loud j)) (seq 0 1)).
      rewrite (map_ext_in _ (fun t => map (Cscal (match t with O => / (1 + smoothed 0 S0) / sqrt (INR 4) | _ => / (1 + smoothed 0 (map (fun j => energy (buffer_after 2 [0; / 2; 1; / 2] loud j)) (seq 0 2))) / sqrt (INR 4) end)) (stream_spectrum 4 2 [0; / 2; 1; / 2] loud t))).
      2: { intros [|[|t]] Ht; [reflexivity|reflexivity|apply in_seq in Ht; lia]. }
      rewrite two_blocks. replace (smoothed 0 S0) with (1 / 18). 2: { unfold S0. cbn [seq map]. rewrite loud_buffers by lia. unfold smoothed. cbn. ring. }
      replace (sqrt (INR 4)) with 2. 2: { replace (INR 4) with (2 * 2) by (cbn; ring). symmetry. apply sqrt_square. lra. } cbn. lra.
Qed.
Print Assumptions C116_frame_refuted.
(** Without noise the level of the signal is not kept. *)
Theorem C116_level_refuted : exists npts h order it alpha thresh x y t, alpha = 1 /\ (t < length x / h * h)%nat /\ apply_iterative_wiener npts x (2 * h) order it alpha thresh = Some y /\ nth t (delayed h x) 0 = 1 /\ nth t y 0 = / 2.
Proof.
  exists 1000%nat, 2%nat, 20%nat, 2%nat, 1, (1 / 10), loud. eexists. exists 2%nat. split; [reflexivity|]. split; [cbn; lia|]. pose proof (C116_quiet 1000 2 20 2 1 (1 / 10) loud [0; / 2; 1; / 2] ltac:(lia) ltac:(lra) hann4) as Q. cbv zeta in Q.
  specialize (Q ltac:(intros j Hj; pose proof (loud_buffers j Hj) as B; cbn [Nat.mul Nat.add] in *; lra)).
  split; [exact Q|]. split; [reflexivity|]. destruct (C116_level 1000 2 20 2 1 (1 / 10) loud _ [0; / 2; 1; / 2] ltac:(lia) Q hann4 (or_introl eq_refl)) as [_ N]. rewrite N by (cbn; lia). replace (sqrt (INR (2 * 2))) with 2. 2: { replace (INR (2 * 2)) with (2 * 2) by (cbn; ring). symmetry. apply sqrt_square. lra. } cbn. lra.
Qed.
Print Assumptions C116_level_refuted.
(** A run on the object itself: two noise frames; the noise level is the average of the variances. *)
Example C116_case : exists s s' outs, wiener_new 2 1 1 (/ 2) 1 = Some s /\ filtered_outputs 1000 s [([1; 0], None); ([0; - 1], None)] = Some (s', outs) /\ wi_noise s' = 3 / 16.
Proof.
  assert (exists s, wiener_new 2 1 1 (/ 2) 1 = Some s /\ wi_speech s = repeat 1 2) as (s & Es & Esp). { unfold wiener_new. cbn [Nat.odd Nat.even negb]. destruct (Rlt_dec 1 (/ 2)); [lra|]. destruct (Rlt_dec (/ 2) 0); [lra|]. eexists. split; reflexivity. }
  destruct (new_inv _ _ _ _ _ _ Es) as (I0 & E1 & E2 & E3 & E4 & E5 & E6 & _).
  destruct (quiet_run 1000 [([1; 0], None); ([0; - 1], None)] s [] I0) as (s' & outs & Ef & Lo & No); [rewrite E6; reflexivity|lia|rewrite E1; exact Esp| |].
  { rewrite E5, E1. intros c [<-|[<-|[]]]; (split; [cbn; lia|]; split; [unfold energy; cbn; lra|unfold spectrum_of; cbn [snd fst]; rewrite rfft_length; reflexivity]). }
  exists s, s', outs. split; [exact Es|]. split; [exact Ef|]. destruct (C116_gain _ _ _ _ _ _ _ _ _ _ Es Ef) as (-> & _). cbn [length firstn map fst]. replace (energy [1; 0]) with (/ 4) by (unfold energy; cbn; field). replace (energy [0; -1]) with (/ 4) by (unfold energy; cbn; field).
  unfold below. cbn [filter]. destruct (Rlt_dec (/ 4) 1); [|lra]. unfold smoothed. cbn. lra.
Qed.
