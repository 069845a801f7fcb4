(** Lemmas about the iterative Wiener filter. *)
From Coq Require Import List ZArith Lia Reals Lra Bool.
From Verif Require Import Base Vec Sum Cpx DftModel DftProofs StftModel StftSpec StftProofs WindowModel UtilModel DenoiseModel DenoiseSpec DenoiseProofs BaseProofs.
Import ListNotations.
Local Open Scope R_scope.

Lemma some_inj : forall {A} (a b : A), Some a = Some b -> a = b.
Proof. intros A a b H. now injection H. Qed.
Lemma energy_facts : forall x e, frame_energy x = Some e -> (0 < length x)%nat /\ 0 <= e /\ e = energy x /\ INR (length x) * e <= bsum (length x) (fun i => nth i x 0 ^ 2).
Proof.
  intros x e H. unfold frame_energy in H. destruct (Nat.eqb_spec (length x) 0) as [|Z]; [discriminate|]. injection H as <-. set (n := length x) in *. assert (Pn : 0 < INR n) by (apply lt_0_INR; lia).
  split; [lia|]. assert (Q : 0 <= bsum n (fun i => (nth i x 0 - mean x) ^ 2)) by (apply bsum_nonneg; intros; apply pow2_ge_0). split. { apply Rmult_le_pos; [exact Q|]. left. now apply Rinv_0_lt_compat. }
  split; [reflexivity|].
  assert (M : bsum n (fun i => nth i x 0) = INR n * mean x) by (unfold mean; fold n; field; lra).
  assert (E : bsum n (fun i => (nth i x 0 - mean x) ^ 2) = bsum n (fun i => nth i x 0 ^ 2) - INR n * (mean x) ^ 2).
  { transitivity (bsum n (fun i => nth i x 0 ^ 2) + ((- 2 * mean x) * bsum n (fun i => nth i x 0) + INR n * (mean x) ^ 2)).
    - rewrite <- bsum_scal, <- bsum_const, <- !bsum_plus. apply bsum_ext. intros. ring.
    - rewrite M. ring. }
  match goal with |- INR n * (?a / INR n) <= _ => replace (INR n * (a / INR n)) with a by (field; lra); change a with (bsum n (fun i => (nth i x 0 - mean x) ^ 2)) end. rewrite E. assert (0 <= INR n * mean x ^ 2) by (apply Rmult_le_pos; [lra|apply pow2_ge_0]). lra.
Qed.

Lemma integral_nonneg : forall npts a I, all_pole_integral npts a = Some I -> 0 <= I.
Proof.
  intros npts a I H. unfold all_pole_integral in H. destruct (mapM _ _) as [f|] eqn:E; [|discriminate]. cbn [bind] in H. injection H as <-. apply mapM_inv in E.
  assert (F : forall i, 0 <= nth i f 0). { intros i. destruct (nth_in_or_default i f 0) as [Hin|Hd]; [|rewrite Hd; lra]. assert (Q : Forall (fun v => 0 <= v) f). { clear Hin. induction E as [|? b ? ? H1 H2 IH]; constructor; auto. unfold rdiv in H1. destruct (Req_EM_T _ 0); [discriminate|]. injection H1 as <-. apply Rmult_le_pos; [lra|]. left. apply Rinv_0_lt_compat. pose proof (Cabs2_nonneg (C1 - csum (length a) (fun k => (RtoC (nth k a 0) * cis (- (INR (k + 1) * (- PI + INR x * (2 * PI / 1000)))))%C))%C). unfold all_pole_den in *. lra. }
    rewrite Forall_forall in Q. now apply Q. }
  apply bsum_nonneg. intros i _. pose proof PI_RGT_0. pose proof (F i). pose proof (F (S i)). apply Rmult_le_pos; lra.
Qed.
Lemma squared_gain_sign : forall npts a noise y g, compute_squared_gain npts a noise y = Some g ->
  (INR (length y) * noise < bsum (length y) (fun i => nth i y 0 ^ 2) -> 0 < g) /\ (INR (length y) * noise <= bsum (length y) (fun i => nth i y 0 ^ 2) -> 0 <= g).
Proof.
  intros npts a noise y g H. unfold compute_squared_gain in H. destruct (Nat.eqb_spec (length y) 0) as [|Z]; [discriminate|]. destruct (all_pole_integral npts a) as [I|] eqn:E; [|discriminate]. cbn [bind] in H. unfold rdiv in H. destruct (Req_EM_T I 0) as [|NI]; [discriminate|]. apply some_inj in H. subst g.
  apply integral_nonneg in E. assert (P : 0 < / I) by (apply Rinv_0_lt_compat; lra). assert (Q : 0 < / INR (length y)) by (apply Rinv_0_lt_compat, lt_0_INR; lia). pose proof PI_RGT_0.
  unfold Rdiv. split; intros K; set (p := PI) in *; clearbody p; [repeat apply Rmult_lt_0_compat|repeat apply Rmult_le_pos]; lra.
Qed.

Definition wi_inv (s : wiener) : Prop :=
  0 <= wi_alpha s <= 1 /\ 0 <= wi_noise s /\ (wi_noise s = 0 \/ wi_noise s < wi_thresh s) /\
  Forall (fun p => 0 < p) (wi_speech s) /\ length (wi_speech s) = (wi_len s / 2 + 1)%nat /\
  Forall (fun h => 0 < h <= 1) (wi_filt s) /\ length (wi_filt s) = (wi_len s / 2 + 1)%nat /\ wi_filt s = map (fun p => p / (p + wi_noise s)) (wi_speech s).
Definition same_settings (s s' : wiener) : Prop := wi_len s' = wi_len s /\ wi_order s' = wi_order s /\ wi_iter s' = wi_iter s /\ wi_alpha s' = wi_alpha s /\ wi_thresh s' = wi_thresh s.

Lemma filter_facts : forall speech noise h, Forall (fun p => 0 < p) speech -> 0 <= noise -> compute_wiener_filter speech noise = Some h ->
  Forall (fun h => 0 < h <= 1) h /\ length h = length speech /\ h = map (fun p => p / (p + noise)) speech.
Proof.
  intros speech noise h HF Hn H. unfold compute_wiener_filter in H. pose proof (mapM_length _ _ _ H) as L. apply mapM_inv in H. split; [|split; [exact L|]].
  - clear L. induction H as [|p v ? ? H1 H2 IH]; constructor; inversion HF as [|? ? P1 P2]; subst; auto. unfold rdiv in H1. destruct (Req_EM_T (p + noise) 0); [discriminate|]. injection H1 as <-. split; [apply Rdiv_lt_0_compat; lra|]. apply Rmult_le_reg_r with (p + noise); [lra|]. unfold Rdiv. rewrite Rmult_assoc, Rinv_l by lra. lra.
  - clear L Hn. induction H as [|p v ? ? H1 H2 IH]; [reflexivity|]. inversion HF as [|? ? P1 P2]; subst. cbn [map]. rewrite <- IH by auto. f_equal. unfold rdiv in H1. destruct (Req_EM_T (p + noise) 0); [discriminate|]. now injection H1 as <-.
Qed.
Lemma filter_defined : forall speech noise, Forall (fun p => 0 < p) speech -> 0 <= noise -> exists h, compute_wiener_filter speech noise = Some h.
Proof.
  intros speech noise HF Hn. unfold compute_wiener_filter. destruct (mapM_Some (fun p => rdiv p (p + noise)) speech) as (h & E & _); [|eauto]. intros p Hp. rewrite Forall_forall in HF. specialize (HF p Hp). unfold rdiv. destruct (Req_EM_T (p + noise) 0); [lra|eauto].
Qed.
Lemma iter_inv : forall npts y dft s si j s' si', wi_inv s -> INR (length y) * wi_noise s <= bsum (length y) (fun i => nth i y 0 ^ 2) -> (wi_noise s <> 0 -> INR (length y) * wi_noise s < bsum (length y) (fun i => nth i y 0 ^ 2)) ->
  wiener_iter npts y dft (s, si) j = Some (s', si') -> wi_inv s' /\ wi_noise s' = wi_noise s /\ same_settings s s'.
Proof.
  intros npts y dft s si j s' si' (A & B & D & F1 & F2 & F3 & F4 & F5) R1 R2 H. unfold wiener_iter in H. destruct (lpc si (wi_order s) true) as [a|]; [|discriminate]. cbn [bind] in H.
  destruct (compute_squared_gain npts (map fst a) (wi_noise s) y) as [g|] eqn:Eg; [|discriminate]. cbn [bind] in H. destruct (compute_speech_psd (map fst a) g (wi_len s)) as [psd|] eqn:Ep; [|discriminate]. cbn [bind] in H. destruct (compute_wiener_filter psd (wi_noise s)) as [h|] eqn:Eh; [|discriminate]. cbn [bind] in H. injection H as <- <-.
  destruct (squared_gain_sign _ _ _ _ _ Eg) as [S1 S2]. specialize (S2 R1).
  assert (Lp : length psd = (wi_len s / 2 + 1)%nat). { unfold compute_speech_psd in Ep. rewrite (mapM_length _ _ _ Ep). apply rfft_length. }
  assert (Pp : Forall (fun p => 0 < p) psd).
  { unfold compute_speech_psd in Ep. apply mapM_inv in Ep. unfold compute_wiener_filter in Eh. apply mapM_inv in Eh.
    assert (Pp' : Forall (fun p => 0 <= p /\ (0 < g -> 0 < p)) psd). { clear - Ep S2. induction Ep as [|A p ? ? H1 H2 IH]; constructor; auto. unfold rdiv in H1. destruct (Req_EM_T (Cabs2 A) 0); [discriminate|]. injection H1 as <-. pose proof (Cabs2_nonneg A). assert (0 < / Cabs2 A) by (apply Rinv_0_lt_compat; lra). unfold Rdiv. split; [apply Rmult_le_pos; lra|intros; apply Rmult_lt_0_compat; lra]. }
    destruct (Req_dec (wi_noise s) 0) as [Z|Z].
    - rewrite Z in Eh. clear - Eh Pp'. induction Eh as [|p v ? ? H1 H2 IH]; constructor; inversion Pp' as [|? ? P1 P2]; subst; auto. unfold rdiv in H1. destruct (Req_EM_T (p + 0) 0); [discriminate|]. lra.
    - specialize (S1 (R2 Z)). eapply Forall_impl; [|exact Pp']. cbn. intros p Hp. now apply Hp. }
  destruct (filter_facts _ _ _ Pp B Eh) as (H1 & H2 & H3). unfold wi_inv, same_settings, with_psd. cbn [wi_alpha wi_noise wi_thresh wi_speech wi_len wi_filt wi_order wi_iter]. rewrite H2. intuition.
Qed.
Lemma iters_inv : forall npts y dft l s si s' si', wi_inv s -> INR (length y) * wi_noise s <= bsum (length y) (fun i => nth i y 0 ^ 2) -> (wi_noise s <> 0 -> INR (length y) * wi_noise s < bsum (length y) (fun i => nth i y 0 ^ 2)) ->
  foldM (wiener_iter npts y dft) l (s, si) = Some (s', si') -> wi_inv s' /\ wi_noise s' = wi_noise s /\ same_settings s s'.
Proof.
  intros npts y dft. induction l as [|j l IH]; intros s si s' si' I0 R1 R2 H; cbn [foldM] in H; [injection H as <- <-; split; [exact I0|]; split; [reflexivity|]; repeat split|].
  destruct (wiener_iter npts y dft (s, si) j) as [[s1 s2]|] eqn:E; [|discriminate]. cbn [bind] in H. destruct (iter_inv _ _ _ _ _ _ _ _ I0 R1 R2 E) as (A & B & D). destruct (IH _ _ _ _ A ltac:(rewrite B; auto) ltac:(rewrite B; auto) H) as (A' & B' & D'). split; [exact A'|]. split; [congruence|]. unfold same_settings in *. intuition congruence.
Qed.

(** One call. *)
Lemma filtered_step : forall npts s y X s' Y Z, wi_inv s -> compute_filtered_output npts s y X = Some (s', Y, Z) ->
  let dft := match X with Some X => X | None => rfft (length y) y end in
  wi_inv s' /\ same_settings s s' /\ (0 < length y)%nat /\ length dft = (wi_len s / 2 + 1)%nat /\
  wi_noise s' = (if Rlt_dec (energy y) (wi_thresh s) then wi_alpha s * wi_noise s + (1 - wi_alpha s) * energy y else wi_noise s) /\
  Y = map2 Cscal (wi_filt s') (map (Cscal (/ sqrt (INR (wi_len s)))) dft) /\ Z = option_map (map (Cscal (/ sqrt (INR (wi_len s))))) X.
Proof.
  intros npts s y X s' Y Z I0 H dft. unfold compute_filtered_output in H. fold dft in H. destruct (Nat.eqb_spec (wi_len s) 0); [discriminate|]. destruct (Nat.eqb_spec (length dft) (wi_len s / 2 + 1)) as [L|]; [|discriminate]. cbn [negb] in H.
  destruct (frame_energy y) as [e|] eqn:Ee; [|discriminate]. cbn [bind] in H. destruct (energy_facts _ _ Ee) as (Py & Pe & -> & Se). set (d := map (Cscal (/ sqrt (INR (wi_len s)))) dft) in *.
  assert (G : forall s1, Some (s1, map2 Cscal (wi_filt s1) d, match X with Some _ => Some d | None => None end) = Some (s', Y, Z) -> s1 = s' /\ Y = map2 Cscal (wi_filt s1) d /\ Z = option_map (map (Cscal (/ sqrt (INR (wi_len s))))) X).
  { intros s1 E. injection E as <- <- <-. split; [reflexivity|]. split; [reflexivity|]. unfold d, dft. destruct X; reflexivity. }
  pose proof I0 as (A & B & D & F1 & F2 & F3 & F4 & F5). destruct (Rlt_dec (energy y) (wi_thresh s)) as [Lt|Ge].
  - destruct (compute_wiener_filter _ _) as [h|] eqn:Eh; [|discriminate]. cbn [bind] in H. apply G in H. destruct H as (<- & HY & HZ). assert (N0 : 0 <= wi_alpha s * wi_noise s + (1 - wi_alpha s) * energy y) by (apply Rplus_le_le_0_compat; apply Rmult_le_pos; lra).
    destruct (filter_facts _ _ _ F1 N0 Eh) as (H1 & H2 & H3). assert (N1 : wi_alpha s * wi_noise s + (1 - wi_alpha s) * energy y < wi_thresh s). { assert (T : wi_noise s < wi_thresh s) by lra. set (t := wi_thresh s) in *. assert (wi_alpha s * wi_noise s <= wi_alpha s * t) by (apply Rmult_le_compat_l; lra). destruct (Req_dec (wi_alpha s) 1) as [->|]; [lra|]. assert ((1 - wi_alpha s) * energy y < (1 - wi_alpha s) * t) by (apply Rmult_lt_compat_l; lra). lra. }
    split. { unfold wi_inv, with_psd. cbn [wi_alpha wi_noise wi_thresh wi_speech wi_len wi_filt]. rewrite H2. intuition. } split; [repeat split|]. cbn [wi_noise with_psd]. auto 8.
  - destruct (foldM _ _ _) as [[s1 si]|] eqn:Ef; [|discriminate]. cbn [bind fst] in H. apply G in H. destruct H as (<- & HY & HZ).
    assert (R2 : INR (length y) * wi_noise s <= bsum (length y) (fun i => nth i y 0 ^ 2)).
    { destruct (Req_dec (wi_noise s) 0) as [Zn|Zn]; [rewrite Zn, Rmult_0_r; apply bsum_nonneg; intros; apply pow2_ge_0|]. apply Rle_trans with (INR (length y) * energy y); [|exact Se]. apply Rmult_le_compat_l; [apply pos_INR|]. lra. }
    destruct (iters_inv npts y d (seq 0 (wi_iter s)) s y s1 si I0 R2) as (I1 & N1 & S1); [|exact Ef|auto 10].
    intros NZ. apply Rlt_le_trans with (INR (length y) * energy y); [|exact Se]. apply Rmult_lt_compat_l; [apply lt_0_INR; lia|]. lra.
Qed.
Lemma new_inv : forall n order it alpha thresh s, wiener_new n order it alpha thresh = Some s -> wi_inv s /\ wi_len s = n /\ wi_order s = order /\ wi_iter s = it /\ wi_alpha s = alpha /\ wi_thresh s = thresh /\ wi_noise s = 0 /\ Nat.even n = true.
Proof.
  intros n order it alpha thresh s H. unfold wiener_new in H. destruct (Nat.odd n) eqn:O; [discriminate|]. destruct (Rlt_dec 1 alpha); [discriminate|]. destruct (Rlt_dec alpha 0); [discriminate|]. injection H as <-. cbn [wi_len wi_order wi_iter wi_alpha wi_thresh wi_noise].
  split; [|repeat split; auto; rewrite <- Nat.negb_odd, O; reflexivity]. unfold wi_inv. cbn [wi_alpha wi_noise wi_thresh wi_speech wi_len wi_filt]. rewrite !repeat_length. repeat split; try lra; try (apply Forall_forall; intros v Hv; apply repeat_spec in Hv; subst v; lra). auto.
  match goal with |- repeat 1 ?c = _ => generalize c end. intros b. induction b as [|m IH]; [reflexivity|]. cbn [repeat map]. rewrite <- IH. f_equal. field.
Qed.

(** A run of calls. *)
Definition spectrum_of (c : vec * option (list C)) : list C := match snd c with Some X => X | None => rfft (length (fst c)) (fst c) end.
Lemma smoothed_snoc : forall alpha es e, smoothed alpha (es ++ [e]) = alpha * smoothed alpha es + (1 - alpha) * e.
Proof.
  intros alpha es e. unfold smoothed. rewrite app_length. cbn [length]. rewrite Nat.add_1_r. cbn [bsum]. f_equal.
  - rewrite <- bsum_scal. apply bsum_ext. intros i Hi. rewrite app_nth1 by auto. replace (S (length es) - 1 - i)%nat with (S (length es - 1 - i)) by lia. cbn [pow]. ring.
  - rewrite app_nth2, Nat.sub_diag by lia. cbn [nth]. replace (S (length es) - 1 - length es)%nat with 0%nat by lia. cbn [pow]. ring.
Qed.
Lemma below_snoc : forall t es e, below t (es ++ [e]) = if Rlt_dec e t then below t es ++ [e] else below t es.
Proof. intros. unfold below. rewrite filter_app. cbn [filter]. destruct (Rlt_dec e t); [reflexivity|apply app_nil_r]. Qed.
Lemma run_spec : forall npts calls s s' outs past, wi_inv s -> wi_noise s = smoothed (wi_alpha s) (below (wi_thresh s) past) -> filtered_outputs npts s calls = Some (s', outs) ->
  let noise t := smoothed (wi_alpha s) (below (wi_thresh s) (past ++ map (fun c => energy (fst c)) (firstn t calls))) in
  wi_inv s' /\ same_settings s s' /\ wi_noise s' = noise (length calls) /\ length outs = length calls /\
  forall t, (t < length calls)%nat -> let X := spectrum_of (nth t calls ([], None)) in length X = (wi_len s / 2 + 1)%nat /\ 0 <= noise (S t) /\ (noise (S t) = 0 \/ noise (S t) < wi_thresh s) /\
    exists ps, length ps = (wi_len s / 2 + 1)%nat /\ Forall (fun p => 0 < p) ps /\ nth t outs [] = map2 Cscal (map (fun p => p / (p + noise (S t))) ps) (map (Cscal (/ sqrt (INR (wi_len s)))) X).
Proof.
  intros npts. induction calls as [|[y X] calls IH]; intros s s' outs past I0 Hn H noise; cbn [filtered_outputs] in H.
  - injection H as <- <-. split; [exact I0|]. split; [repeat split|]. unfold noise. cbn [firstn map length]. rewrite app_nil_r. split; [exact Hn|]. split; [reflexivity|]. intros t Ht. cbn in Ht. lia.
  - destruct (compute_filtered_output npts s y X) as [[[s1 Y] Z]|] eqn:E; [|discriminate]. cbn [bind fst snd] in H. destruct (filtered_outputs npts s1 calls) as [[s2 outs2]|] eqn:E2; [|discriminate]. cbn [bind fst snd] in H. injection H as <- <-.
    destruct (filtered_step _ _ _ _ _ _ _ I0 E) as (I1 & S1 & Py & LX & N1 & HY & _). pose proof S1 as (S11 & S12 & S13 & S14 & S15).
    assert (Hn1 : wi_noise s1 = smoothed (wi_alpha s1) (below (wi_thresh s1) (past ++ [energy y]))). { rewrite N1, S14, S15, below_snoc. destruct (Rlt_dec (energy y) (wi_thresh s)); [rewrite smoothed_snoc; congruence|exact Hn]. }
    destruct (IH s1 s2 outs2 (past ++ [energy y]) I1 Hn1 E2) as (J1 & J2 & J3 & J4 & J5). rewrite S14, S15, S11 in *.
    assert (En : forall t, smoothed (wi_alpha s) (below (wi_thresh s) ((past ++ [energy y]) ++ map (fun c => energy (fst c)) (firstn t calls))) = noise (S t)). { intros t. unfold noise. cbn [firstn map fst]. now rewrite <- app_assoc. }
    split; [exact J1|]. split; [unfold same_settings in *; intuition congruence|]. cbn [length]. rewrite En in J3. split; [exact J3|]. split; [lia|]. intros [|t] Ht.
    + cbn [nth]. unfold spectrum_of. cbn [fst snd]. split; [exact LX|]. assert (En1 : noise 1%nat = wi_noise s1). { rewrite <- En. cbn [firstn map]. rewrite app_nil_r. now rewrite Hn1. } rewrite En1. destruct I1 as (A & B & D & F1 & F2 & F3 & F4 & F5). split; [exact B|]. split; [now rewrite <- S15|].
      exists (wi_speech s1). split; [congruence|]. split; [exact F1|]. rewrite <- F5. exact HY.
    + cbn [nth]. specialize (J5 t ltac:(lia)). cbv zeta in J5. rewrite En in J5. exact J5.
Qed.
