(** C126: mean squared error, signal to noise ratio, sweeping echoes. *)
From Coq Require Import List ZArith Lia Reals Lra Bool R_Ifp.
From Verif Require Import Base BaseProofs Vec Sum Cpx DftModel DftProofs StftModel StftSpec StftProofs StftProps SyncModel SyncProps WienerProofs EchoModel.
Import ListNotations.
Local Open Scope R_scope.

Lemma sqdist_nonneg : forall x y, 0 <= sqdist x y.
Proof. intros x. induction x as [|a x IH]; intros [|b y]; unfold sqdist in *; cbn [map2]; try (cbn; lra). change (Rsum (?u :: ?l)) with (u + Rsum l). pose proof (IH y). pose proof (pow2_ge_0 (a - b)). lra. Qed.
Lemma sqdist_zero : forall x y, length x = length y -> (sqdist x y = 0 <-> x = y).
Proof.
  intros x. induction x as [|a x IH]; intros [|b y] L; try discriminate; [split; auto; intros; cbn; lra|]. unfold sqdist. cbn [map2]. change (Rsum (?u :: ?l)) with (u + Rsum l). fold (sqdist x y). pose proof (sqdist_nonneg x y) as N. pose proof (pow2_ge_0 (a - b)) as P. cbn [length] in L. split.
  - intros H. assert (E1 : (a - b) ^ 2 = 0) by lra. assert (E2 : sqdist x y = 0) by lra. apply IH in E2; [|lia]. f_equal; auto. assert (a - b = 0); [|lra]. apply Rsqr_0_uniq. unfold Rsqr. lra.
  - intros E. injection E as -> ->. rewrite (proj2 (IH y ltac:(lia)) eq_refl). ring.
Qed.
Lemma sqdist_sym : forall x y, sqdist x y = sqdist y x.
Proof. intros x. induction x as [|a x IH]; intros [|b y]; unfold sqdist in *; cbn [map2]; auto. change (Rsum (?u :: ?l)) with (u + Rsum l). rewrite IH. ring. Qed.
Lemma sqdist_scal : forall g x y, sqdist (map (Rmult g) x) (map (Rmult g) y) = g ^ 2 * sqdist x y.
Proof. intros g x. induction x as [|a x IH]; intros [|b y]; unfold sqdist in *; cbn [map map2]; try (cbn; ring). change (Rsum (?u :: ?l)) with (u + Rsum l). rewrite IH. ring. Qed.
(** The mean squared error of two signals: positive unless they are the same. *)
Theorem C126_mse : forall x y, length x = length y -> x <> [] ->
  exists e, mse x y = Some e /\ mse y x = Some e /\ 0 <= e /\ (e = 0 <-> x = y) /\ e * INR (length x) = bsum (length x) (fun i => (nth i x 0 - nth i y 0) ^ 2).
Proof.
  intros x y L N. assert (L0 : (0 < length x)%nat) by (destruct x; [easy|cbn; lia]). assert (P : 0 < INR (length x)) by (apply lt_0_INR; lia). exists (sqdist x y / INR (length x)). unfold mse. rewrite L, Nat.eqb_refl. cbn [negb]. destruct (Nat.eqb_spec (length y) 0); [lia|]. split; [reflexivity|]. split; [now rewrite sqdist_sym|]. rewrite <- L. pose proof (sqdist_nonneg x y) as Q. pose proof (Rinv_0_lt_compat _ P). split; [apply Rmult_le_pos; lra|]. split.
  - rewrite <- sqdist_zero by auto. split; [|intros ->; unfold Rdiv; ring]. intros E. apply (f_equal (Rmult (INR (length x)))) in E. replace (INR (length x) * (sqdist x y / INR (length x))) with (sqdist x y) in E by (field; lra). lra.
  - replace (sqdist x y / INR (length x) * INR (length x)) with (sqdist x y) by (field; lra). clear -L. revert y L. induction x as [|a x IH]; intros [|b y] L; try discriminate; [reflexivity|]. unfold sqdist. cbn [map2 length]. change (Rsum (?u :: ?l)) with (u + Rsum l). fold (sqdist x y). rewrite IH by (cbn in L; lia). rewrite (bsum_split 1). cbn [bsum nth]. ring_simplify. f_equal.
Qed.
Print Assumptions C126_mse.
(** Both signals scaled alike: the ratio stays.  It is the energy of the reference over that of
    what was added. *)
Theorem C126_snr : forall ref noise, length ref = length noise -> noise <> map (fun _ => 0) noise ->
  exists r, snr ref (map2 Rplus ref noise) = Some r /\ r * bsum (length noise) (fun i => nth i noise 0 ^ 2) = bsum (length ref) (fun i => nth i ref 0 ^ 2) /\
  forall g, g <> 0 -> snr (map (Rmult g) ref) (map (Rmult g) (map2 Rplus ref noise)) = Some r.
Proof.
  intros ref noise L N. assert (EN : forall l, bsum (length l) (fun i => nth i l 0 ^ 2) = Rsum (map (fun a => a ^ 2) l)). { induction l as [|a l IH]; [reflexivity|]. cbn [length map]. rewrite bsum_shift. cbn [nth]. change (Rsum (?u :: ?l)) with (u + Rsum l). now rewrite IH. }
  assert (E : sqdist ref (map2 Rplus ref noise) = Rsum (map (fun a => a ^ 2) noise) /\ length (map2 Rplus ref noise) = length ref). { clear N. revert noise L. induction ref as [|a ref IH]; intros [|b noise] L; try discriminate; [split; reflexivity|]. destruct (IH noise ltac:(cbn in L; lia)) as [A B]. unfold sqdist in *. cbn [map2 map length]. change (Rsum (?u :: ?l)) with (u + Rsum l). rewrite A, B. split; [ring|reflexivity]. } destruct E as [E EL].
  assert (P : Rsum (map (fun a => a ^ 2) noise) <> 0). { intros H. apply N. clear -H. assert (Q : forall l, 0 <= Rsum (map (fun a => a ^ 2) l)) by (induction l as [|a l IH]; [cbn; lra|]; cbn [map]; change (Rsum (?u :: ?l)) with (u + Rsum l); pose proof (pow2_ge_0 a); lra). induction noise as [|a l IH]; [reflexivity|]. cbn [map] in *. change (Rsum (?u :: ?l)) with (u + Rsum l) in H. pose proof (pow2_ge_0 a). pose proof (Q l). f_equal; [|apply IH; lra]. apply Rsqr_0_uniq. unfold Rsqr. lra. }
  unfold snr. rewrite EL, Nat.eqb_refl, E. cbn [negb]. destruct (Req_EM_T _ _); [contradiction|]. eexists. split; [reflexivity|]. split; [rewrite !EN; field; exact P|].
  intros g Hg. rewrite !map_length, EL, Nat.eqb_refl, sqdist_scal, E. cbn [negb]. assert (G : g ^ 2 <> 0) by (apply pow_nonzero; auto). destruct (Req_EM_T _ _) as [Z|_]; [apply Rmult_integral in Z; tauto|]. f_equal. rewrite map_map. rewrite (map_ext _ (fun a => g ^ 2 * a ^ 2)) by (intros; ring). assert (M : forall l, Rsum (map (fun a => g ^ 2 * a ^ 2) l) = g ^ 2 * Rsum (map (fun a => a ^ 2) l)) by (induction l as [|a l IH]; [cbn; ring|]; cbn [map]; change (Rsum (?u :: ?l)) with (u + Rsum l); rewrite IH; ring). rewrite M. field. tauto.
Qed.
Print Assumptions C126_snr.
(** Of arrays with several columns mse returns the sum over the columns, not the mean documented. *)
Theorem C126_columns_refuted : exists x y e, mse2 x y = Some e /\ forallb (fun row => Nat.eqb (length row) 2) x = true /\
  e <> Rsum (map2 sqdist x y) / (2 * INR (length x)).
Proof. exists [[1; 1]], [[0; 0]]. eexists. split; [reflexivity|]. split; [reflexivity|]. unfold sqdist. cbn. lra. Qed.
Print Assumptions C126_columns_refuted.

(** Geometric and arithmetic means. *)
Lemma ln_le : forall t, 0 < t -> ln t <= t - 1.
Proof. intros t Ht. pose proof (exp_ineq1_le (ln t)) as E. rewrite exp_ln in E by exact Ht. lra. Qed.
Lemma ln_lt : forall t, 0 < t -> t <> 1 -> ln t < t - 1.
Proof. intros t Ht Hn. assert (ln t <> 0) by (intros Z; apply Hn; rewrite <- (exp_ln t) by auto; rewrite Z; apply exp_0). pose proof (exp_ineq1 (ln t) H) as E. rewrite exp_ln in E by exact Ht. lra. Qed.
Lemma Rsum_pos : forall l, (forall s, In s l -> 0 < s) -> l <> [] -> 0 < Rsum l.
Proof. intros l. induction l as [|a l IH]; intros H N; [easy|]. change (Rsum (a :: l)) with (a + Rsum l). pose proof (H a ltac:(now left)). destruct l as [|b l]; [cbn; lra|]. pose proof (IH ltac:(intros; apply H; now right) ltac:(easy)). lra. Qed.
Lemma ln_sum : forall A l, 0 < A -> (forall s, In s l -> 0 < s) -> Rsum (map ln l) <= INR (length l) * ln A + Rsum l / A - INR (length l) /\ (Rsum (map ln l) = INR (length l) * ln A + Rsum l / A - INR (length l) -> forall s, In s l -> s = A).
Proof.
  intros A l HA. induction l as [|a l IH]; intros H; [cbn; split; [lra|easy]|]. destruct (IH ltac:(intros; apply H; now right)) as [I1 I2]. pose proof (H a ltac:(now left)) as Pa. cbn [map length]. change (Rsum (?u :: ?l)) with (u + Rsum l). rewrite S_INR. assert (Q : 0 < a / A) by (apply Rmult_lt_0_compat; [auto|apply Rinv_0_lt_compat; auto]). assert (E : ln a = ln A + ln (a / A)) by (rewrite <- ln_mult by auto; f_equal; field; lra). pose proof (ln_le _ Q) as LL. replace ((a + Rsum l) / A) with (a / A + Rsum l / A) by (field; lra). split; [lra|].
  intros Heq s [<-|Hs].
  - destruct (Req_EM_T (a / A) 1) as [O|O]; [apply (f_equal (Rmult A)) in O; replace (A * (a / A)) with a in O by (field; lra); lra|]. pose proof (ln_lt _ Q O). lra.
  - apply I2; auto. lra.
Qed.
Lemma geometric : forall l, l <> [] -> (forall s, In s l -> 0 < s) -> let A := Rsum l / INR (length l) in
  exp (Rsum (map ln l) / INR (length l)) <= A /\ (exp (Rsum (map ln l) / INR (length l)) = A <-> forall s, In s l -> s = A).
Proof.
  intros l N H A. assert (L : 0 < INR (length l)) by (apply lt_0_INR; destruct l; [easy|cbn; lia]). pose proof (Rsum_pos l H N) as P. assert (HA : 0 < A) by (apply Rmult_lt_0_compat; [auto|apply Rinv_0_lt_compat; auto]). destruct (ln_sum A l HA H) as [I1 I2]. replace (Rsum l / A) with (INR (length l)) in * by (unfold A; field; lra).
  assert (M : Rsum (map ln l) / INR (length l) <= ln A). { apply (Rmult_le_reg_l (INR (length l))); auto. replace (INR (length l) * (Rsum (map ln l) / INR (length l))) with (Rsum (map ln l)) by (field; lra). lra. }
  assert (X : exp (Rsum (map ln l) / INR (length l)) = A -> Rsum (map ln l) = INR (length l) * ln A). { intros E. apply (f_equal ln) in E. rewrite ln_exp in E. rewrite <- E. field. lra. }
  split; [|split].
  - rewrite <- (exp_ln A HA) at 1. destruct M as [M|M]; [left; now apply exp_increasing|right; now rewrite M].
  - intros E. apply I2. rewrite (X E). ring.
  - intros E. assert (S : forall r, (forall s, In s r -> s = A) -> Rsum (map ln r) = INR (length r) * ln A). { induction r as [|a r IHr]; intros Hr; [cbn; ring|]. cbn [map length]. change (Rsum (?u :: ?l)) with (u + Rsum l). rewrite S_INR, IHr by (intros; apply Hr; now right). rewrite (Hr a) by now left. ring. } rewrite (S l E). replace (INR (length l) * ln A / INR (length l)) with (ln A) by (field; lra). now apply exp_ln.
Qed.
Lemma flatness_spec : forall ss r, ss <> [] -> (forall s, In s ss -> 0 <= s) -> flatness ss = Some r ->
  0 <= r <= 1 /\ (r = 0 <-> In 0 ss) /\ (r = 1 <-> forall s s', In s ss -> In s' ss -> s = s').
Proof.
  intros ss r N H E. assert (L : 0 < INR (length ss)) by (apply lt_0_INR; destruct ss; [easy|cbn; lia]). unfold flatness in E. rewrite (map_ext_in Rabs (fun s => s)) in E by (intros; apply Rabs_pos_eq; auto). rewrite map_id in E. rewrite (map_ext_in (fun s => ln (Rabs s)) ln) in E by (intros; f_equal; apply Rabs_pos_eq; auto). set (A := Rsum ss / INR (length ss)) in *. destruct (Req_EM_T A 0) as [|NA]; [discriminate|].
  destruct (forallb _ ss) eqn:F.
  - assert (Pos : forall s, In s ss -> 0 < s). { intros s Hs. rewrite forallb_forall in F. specialize (F s Hs). pose proof (H s Hs). destruct (Req_EM_T s 0); [discriminate|lra]. }
    destruct (geometric ss N Pos) as [G1 G2]. fold A in G1, G2. set (g := exp _) in *. assert (Pg : 0 < g) by apply exp_pos. assert (HA : 0 < A) by lra. pose proof (Rinv_0_lt_compat _ HA) as IA. apply some_inj in E. subst r. unfold Rdiv. assert (0 < g * / A) by (apply Rmult_lt_0_compat; auto). split; [|split].
    + split; [lra|]. apply (Rmult_le_reg_r A); auto. rewrite Rmult_assoc, Rinv_l, Rmult_1_r, Rmult_1_l by lra. exact G1.
    + split; [lra|]. intros Z. pose proof (Pos 0 Z). lra.
    + transitivity (g = A); [split; intros Q; [apply (f_equal (fun t => t * A)) in Q; rewrite Rmult_assoc, Rinv_l, Rmult_1_r, Rmult_1_l in Q by lra; exact Q|rewrite Q; apply Rinv_r; lra]|]. rewrite G2. split.
      * intros Q s s' Hs Hs'. rewrite (Q s Hs), (Q s' Hs'). reflexivity.
      * intros Q s Hs. assert (S : forall l, (forall u, In u l -> u = s) -> Rsum l = INR (length l) * s). { induction l as [|a l IH]; intros Hl; [cbn; ring|]. cbn [length]. change (Rsum (?u :: ?l)) with (u + Rsum l). rewrite S_INR, IH by (intros; apply Hl; now right). rewrite (Hl a) by now left. ring. } unfold A. rewrite (S ss) by (intros; apply Q; auto). field. lra.
  - apply some_inj in E. subst r. assert (I0 : In 0 ss). { destruct (in_dec Req_EM_T 0 ss) as [|NI]; auto. assert (forallb (fun s => if Req_EM_T s 0 then false else true) ss = true); [|congruence]. apply forallb_forall. intros s Hs. destruct (Req_EM_T s 0); congruence. } split; [lra|]. split; [tauto|]. split; [lra|]. intros Q. exfalso. apply NA. unfold A. assert (S : forall l, (forall u, In u l -> u = 0) -> Rsum l = 0). { induction l as [|a l IH]; intros Hl; [reflexivity|]. change (Rsum (?u :: ?l)) with (u + Rsum l). rewrite IH by (intros; apply Hl; now right). rewrite (Hl a) by now left. ring. } rewrite (S ss) by (intros; apply Q; auto). unfold Rdiv. ring.
Qed.
Lemma slope_mean_nonneg : forall F S fs t_min t_max fb a m, slope_mean F S fs t_min t_max fb a = Some m -> 0 <= m.
Proof.
  intros F S fs t_min t_max fb a m H. unfold slope_mean in H. destruct (mapM _ _) as [l|] eqn:E; [|discriminate]. cbn [bind] in H. unfold mean in H. destruct (Nat.eqb_spec (length l) 0); [discriminate|]. apply some_inj in H. subst m. apply Rmult_le_pos; [|apply Rlt_le, Rinv_0_lt_compat, lt_0_INR; lia]. clear -E. revert l E. induction (cells F fs t_min t_max fb a) as [|c cs IH]; intros l E; cbn [mapM] in E; [apply some_inj in E; subst; cbn; lra|]. destruct (phi _ _ _ _) as [v|] eqn:V; [|discriminate]. cbn [bind] in E. destruct (mapM _ cs) as [t|]; [|discriminate]. cbn [bind] in E. apply some_inj in E. subst l. change (Rsum (v :: t)) with (v + Rsum t). specialize (IH t eq_refl).
  unfold phi in V. destruct (Req_EM_T _ _) as [|NZ]; [discriminate|]. apply some_inj in V. subst v. assert (0 <= Cabs (S (fst c) (snd c)) / sqrt (norm_factor fs S (fst c))); [|lra]. apply Rmult_le_pos; [apply sqrt_pos|]. destruct (Req_EM_T (sqrt (norm_factor fs S (fst c))) 0) as [Z|Z]; [rewrite Z, Rinv_0; lra|]. apply Rlt_le, Rinv_0_lt_compat. pose proof (sqrt_pos (norm_factor fs S (fst c))). lra.
Qed.
Lemma slope_means_inv : forall rir fs t_min t_max fb ss, slope_means rir fs t_min t_max fb = Some ss -> ss <> [] /\ forall s, In s ss -> 0 <= s.
Proof.
  intros rir fs t_min t_max fb ss H. unfold slope_means in H. destruct (spectrogram rir) as [S|]; [|discriminate]. cbn [bind] in H. split.
  - intros ->. apply mapM_length in H. rewrite seq_length in H. discriminate.
  - apply mapM_inv in H. revert H. generalize (seq 0 n_coeffs). induction 1 as [|i s l ss Hi _ IH]; intros u Hu; [easy|]. destruct Hu as [<-|Hu]; [eapply slope_mean_nonneg; exact Hi|auto].
Qed.
(** Between 0 and 1: 1 exactly if the means along all slopes are equal, 0 exactly if one of them
    is zero. *)
Theorem C126_range : forall rir fs t_min t_max fb r, sweeping_echo_measure rir fs t_min t_max fb = Some r ->
  exists ss, slope_means rir fs t_min t_max fb = Some ss /\ 0 <= r <= 1 /\ (r = 0 <-> In 0 ss) /\ (r = 1 <-> forall s s', In s ss -> In s' ss -> s = s').
Proof.
  intros rir fs t_min t_max fb r H. unfold sweeping_echo_measure in H. destruct (Rle_dec fs 0); [discriminate|]. destruct (slope_means _ _ _ _ _) as [ss|] eqn:E; [|discriminate]. cbn [bind] in H. exists ss. split; [reflexivity|]. destruct (slope_means_inv _ _ _ _ _ _ E) as [N P]. now apply flatness_spec.
Qed.
Print Assumptions C126_range.

(** The spectrogram. *)
Lemma ana_win_length : length ana_win = fft_size.
Proof. unfold ana_win. now rewrite map_length, seq_length. Qed.
Definition nfft : nat := (fft_size + fft_zp + 0)%nat.
Lemma one_shot_is : forall N hop w zb x, (0 < hop <= N)%nat -> (2 <= N + zb + 0)%nat -> fits N w ->
  one_shot_analysis x N hop w zb 0 = Some (spectra N hop 0 zb w (delayed (N - hop) x) (ceil_div (length x) hop)).
Proof.
  intros N hop w zb x Hh H2 Hw. destruct (C35_streaming N hop 0 zb w None None [] x Hh H2 Hw ltac:(constructor) ltac:(repeat constructor)) as (st & st' & E & F). unfold one_shot_analysis. rewrite E. cbn [bind]. cbn [app feed concat] in F. rewrite app_nil_r in F. destruct (analysis st x) as [[s X]|]; [|discriminate]. cbn [bind] in *. apply some_inj in F. apply pair_equal_spec in F. destruct F as [_ F]. cbn [fst snd] in F. rewrite app_nil_r in F. now rewrite F.
Qed.
Lemma spectrogram_is : forall x, spectrogram x = if Nat.eqb (ceil_div (length x) fft_hop) 1 then None else Some (spectra fft_size fft_hop 0 fft_zp (Some ana_win) (delayed (fft_size - fft_hop) x) (ceil_div (length x) fft_hop)).
Proof.
  intros x. unfold spectrogram. rewrite one_shot_is; [|unfold fft_hop, fft_size; lia|unfold fft_size; lia|exact ana_win_length]. cbn [bind]. rewrite spectra_length. reflexivity.
Qed.
Lemma nth_spectra : forall N hop zf zb w x F k, (k < F)%nat -> nth k (spectra N hop zf zb w x F) [] = rfft (N + zb + zf) (frame N zf zb w x (k * hop)).
Proof. intros. unfold spectra. now rewrite nth_map_seq by auto. Qed.
Opaque fft_size fft_hop fft_zp n_freqs n_coeffs.
Definition Sof (x : vec) (k b : nat) : C := nth b (nth k (spectra fft_size fft_hop 0 fft_zp (Some ana_win) (delayed (fft_size - fft_hop) x) (ceil_div (length x) fft_hop)) []) C0.
Lemma slope_means_is : forall rir fs t_min t_max fb, slope_means rir fs t_min t_max fb =
  if Nat.eqb (ceil_div (length rir) fft_hop) 1 then None else mapM (fun i => slope_mean (ceil_div (length rir) fft_hop) (Sof rir) fs t_min t_max fb (slope i)) (seq 0 n_coeffs).
Proof. intros. unfold slope_means. rewrite spectrogram_is. destruct (Nat.eqb _ 1); [reflexivity|]. cbn [bind]. rewrite spectra_length. reflexivity. Qed.
Lemma rfft_scal : forall g n u v, (forall j, nth j v 0 = g * nth j u 0) -> forall b, nth b (rfft n v) C0 = (RtoC g * nth b (rfft n u) C0)%C.
Proof.
  intros g n u v H b. unfold rfft. destruct (Nat.lt_ge_cases b (n / 2 + 1)) as [Hb|Hb].
  - rewrite !nth_map_seq by auto. unfold dft. rewrite <- csum_scal. apply csum_ext. intros j _. rewrite H, RtoC_mul. ring.
  - rewrite !nth_overflow by (rewrite map_length, seq_length; lia). ring.
Qed.
Lemma Sof_scal : forall g x k b, Sof (map (Rmult g) x) k b = (RtoC g * Sof x k b)%C.
Proof.
  intros g x k b. unfold Sof. rewrite map_length. set (F := ceil_div (length x) fft_hop). destruct (Nat.lt_ge_cases k F) as [Hk|Hk].
  - rewrite !nth_spectra by auto. apply rfft_scal. intros j. rewrite !nth_frame. 
    assert (D : forall i, nth i (delayed (fft_size - fft_hop) (map (Rmult g) x)) 0 = g * nth i (delayed (fft_size - fft_hop) x) 0). { intros i. unfold delayed. destruct (Nat.lt_ge_cases i (fft_size - fft_hop)) as [Hi|Hi]; [rewrite !app_nth1 by (rewrite repeat_length; exact Hi); rewrite !nth_repeat; ring|rewrite !app_nth2 by (rewrite repeat_length; exact Hi)]. rewrite <- (map_nth (Rmult g)), Rmult_0_r. reflexivity. }
    destruct (_ && _)%bool; [rewrite D|]; ring.
  - rewrite !(nth_overflow (spectra _ _ _ _ _ _ _)) by (rewrite spectra_length; exact Hk). destruct b; cbn [nth]; ring.
Qed.
Lemma norm_scal : forall g fs (S S' : nat -> nat -> C) k, (forall b, S' k b = (RtoC g * S k b)%C) -> norm_factor fs S' k = g ^ 2 * norm_factor fs S k.
Proof. intros g fs S S' k H. unfold norm_factor. induction (filter (band fs) (seq 0 n_freqs)) as [|b l IH]; [cbn; ring|]. cbn [map]. change (Rsum (?u :: ?l)) with (u + Rsum l). rewrite IH, H, Cabs2_mul. unfold Cabs2 at 1. cbn [RtoC fst snd]. ring. Qed.
Lemma norm_nonneg : forall fs S k, 0 <= norm_factor fs S k.
Proof. intros fs S k. unfold norm_factor. induction (filter (band fs) (seq 0 n_freqs)) as [|b l IH]; [cbn; lra|]. cbn [map]. change (Rsum (?u :: ?l)) with (u + Rsum l). pose proof (Cabs2_nonneg (S k b)). lra. Qed.
Lemma phi_scal : forall g fs (S S' : nat -> nat -> C) k b, g <> 0 -> (forall b, S' k b = (RtoC g * S k b)%C) -> phi fs S' k b = phi fs S k b.
Proof.
  intros g fs S S' k b Hg H. unfold phi. rewrite (norm_scal g fs S S' k H), H. pose proof (norm_nonneg fs S k) as P. assert (G : 0 < g ^ 2) by (pose proof (pow2_ge_0 g); pose proof (pow_nonzero g 2 Hg); lra). destruct (Req_EM_T (g ^ 2 * norm_factor fs S k) 0) as [Z|Z], (Req_EM_T (norm_factor fs S k) 0) as [Y|Y]; auto; [apply Rmult_integral in Z; destruct Z; lra|exfalso; apply Z; rewrite Y; ring|].
  f_equal. rewrite Cabs_mul, sqrt_mult by lra. assert (A : Cabs (RtoC g) = sqrt (g ^ 2)) by (unfold Cabs; f_equal; unfold Cabs2; cbn; ring). rewrite A. assert (0 < sqrt (g ^ 2)) by (apply sqrt_lt_R0; auto). assert (0 < sqrt (norm_factor fs S k)) by (apply sqrt_lt_R0; lra). field. lra.
Qed.
(** The level of the response does not matter. *)
Theorem C126_gain : forall g rir fs t_min t_max fb, g <> 0 -> sweeping_echo_measure (map (Rmult g) rir) fs t_min t_max fb = sweeping_echo_measure rir fs t_min t_max fb.
Proof.
  intros g rir fs t_min t_max fb Hg. unfold sweeping_echo_measure. destruct (Rle_dec fs 0); [reflexivity|]. rewrite !slope_means_is, map_length. destruct (Nat.eqb _ 1); [reflexivity|]. generalize (seq 0 n_coeffs). intros l. rewrite (mapM_ext_in (fun i => slope_mean (ceil_div (length rir) fft_hop) (Sof (map (Rmult g) rir)) fs t_min t_max fb (slope i)) (fun i => slope_mean (ceil_div (length rir) fft_hop) (Sof rir) fs t_min t_max fb (slope i)) l); [reflexivity|]. intros i _. unfold slope_mean. generalize (cells (ceil_div (length rir) fft_hop) fs t_min t_max fb (slope i)). intros cs.
  rewrite (mapM_ext_in (fun p => phi fs (Sof (map (Rmult g) rir)) (fst p) (snd p)) (fun p => phi fs (Sof rir) (fst p) (snd p)) cs); [reflexivity|]. intros c _. apply (phi_scal g); auto. intros b. apply Sof_scal.
Qed.
Print Assumptions C126_gain.
Lemma mapM_none : forall {A B} (f : A -> option B) l a, In a l -> f a = None -> mapM f l = None.
Proof. intros A B f l. induction l as [|c l IH]; intros a H E; [easy|]. cbn [mapM]. destruct H as [->|H]; [now rewrite E|]. destruct (f c); [|reflexivity]. cbn [bind]. now rewrite (IH a H E). Qed.
Transparent fft_hop n_coeffs n_freqs.
Lemma hop_val : INR fft_hop = 256.
Proof. rewrite INR_IZR_INZ. reflexivity. Qed.
Lemma coeffs_val : INR (n_coeffs - 1) = 499.
Proof. rewrite INR_IZR_INZ. reflexivity. Qed.
Lemma freqs_val : INR (n_freqs - 1) = 1023.
Proof. rewrite INR_IZR_INZ. reflexivity. Qed.
Lemma freqs_val' : INR n_freqs = 1024.
Proof. rewrite INR_IZR_INZ. reflexivity. Qed.
Lemma coeffs_pos : (1 < n_coeffs)%nat.
Proof. unfold n_coeffs. lia. Qed.
Lemma freqs_pos : (1 < n_freqs)%nat.
Proof. change n_freqs with 1024%nat. lia. Qed.
Opaque fft_hop n_coeffs n_freqs.
Lemma in_cells : forall F fs t_min t_max fb a k b, In (k, b) (cells F fs t_min t_max fb a) <-> (k < F)%nat /\ (b < n_freqs)%nat /\ t_min < time_of fs k < t_max /\ time_of fs k * a - fb / 2 < freq_of fs b < time_of fs k * a + fb / 2.
Proof.
  intros. unfold cells. rewrite filter_In, in_flat_map. cbn [fst snd]. unfold masked. split.
  - intros [(k' & Hk & Hb) M]. apply in_map_iff in Hb. destruct Hb as (b' & E & Hb). apply pair_equal_spec in E. destruct E; subst k' b'. apply in_seq in Hk, Hb. destruct (Rlt_dec _ _); [|discriminate]. destruct (Rlt_dec _ _); [|discriminate]. destruct (Rlt_dec _ _); [|discriminate]. destruct (Rlt_dec _ _); [|discriminate]. repeat split; auto; lia.
  - intros (Hk & Hb & T & Fr). split.
    + exists k. split; [apply in_seq; lia|]. apply in_map. apply in_seq. lia.
    + destruct (Rlt_dec _ _); [|lra]. destruct (Rlt_dec _ _); [|lra]. destruct (Rlt_dec _ _); [|lra]. destruct (Rlt_dec _ _); [|lra]. reflexivity.
Qed.
Lemma slope_last : slope (n_coeffs - 1) = 150000.
Proof. unfold slope. rewrite coeffs_val. lra. Qed.
Lemma slope_0 : slope 0 = 5000.
Proof. unfold slope. cbn [INR]. unfold Rdiv. ring. Qed.
(** At 8 kHz the steepest slope leaves the band before the first frame: the measure is NaN for
    every response, at the default bandwidth. *)
Theorem C126_rate_refuted : exists fs, fs = 8000 /\ forall rir t_max, sweeping_echo_measure rir fs 0 t_max 400 = None.
Proof.
  exists 8000. split; [reflexivity|]. intros rir t_max. unfold sweeping_echo_measure. destruct (Rle_dec 8000 0); [lra|]. rewrite slope_means_is. destruct (Nat.eqb _ 1); [reflexivity|]. rewrite (mapM_none _ _ (n_coeffs - 1)%nat); [reflexivity|apply in_seq; pose proof coeffs_pos; lia|]. unfold slope_mean.
  assert (E : cells (ceil_div (length rir) fft_hop) 8000 0 t_max 400 (slope (n_coeffs - 1)) = []). { destruct (cells _ _ _ _ _ _) as [|[k b] cs] eqn:E; [reflexivity|]. exfalso. assert (I : In (k, b) ((k, b) :: cs)) by now left. rewrite <- E in I. apply in_cells in I. destruct I as (_ & Hb & T & Fr). rewrite slope_last in Fr. unfold time_of, freq_of in *. rewrite hop_val, freqs_val in *.
    assert (Hk : 1 <= INR k). { destruct k; [cbn in T; lra|]. rewrite S_INR. pose proof (pos_INR k). lra. } assert (INR b <= 1023). { rewrite <- freqs_val. apply le_INR. lia. } lra. }
  rewrite E. reflexivity.
Qed.
Print Assumptions C126_rate_refuted.
(** A response that starts with two frames of silence (32 ms at 16 kHz: a source 11 m away) has no
    measure either. *)
Theorem C126_silence_refuted : exists fs, fs = 16000 /\ forall y, sweeping_echo_measure (repeat 0 fft_size ++ y) fs 0 (1 / 2) 400 = None.
Proof.
  exists 16000. split; [reflexivity|]. intros y. unfold sweeping_echo_measure. destruct (Rle_dec 16000 0); [lra|]. rewrite slope_means_is. destruct (Nat.eqb _ 1); [reflexivity|]. rewrite (mapM_none _ _ 0%nat); [reflexivity|apply in_seq; pose proof coeffs_pos; lia|]. unfold slope_mean. set (rir := repeat 0 fft_size ++ y).
  assert (HF : (1 < ceil_div (length rir) fft_hop)%nat). { unfold rir. rewrite app_length, repeat_length. unfold ceil_div. apply Nat.div_le_lower_bound; [discriminate|]. change fft_hop with 256%nat. change fft_size with 512%nat. lia. }
  rewrite (mapM_none _ _ (1%nat, 0%nat)); [reflexivity| |].
  - apply in_cells. split; [exact HF|]. split; [pose proof freqs_pos; lia|]. rewrite slope_0. unfold time_of, freq_of. rewrite hop_val. cbn [INR]. lra.
  - cbn [fst snd]. unfold phi. destruct (Req_EM_T _ 0) as [|N]; [reflexivity|]. exfalso. apply N. unfold norm_factor.
    assert (Z : forall b, Sof rir 1 b = C0). { intros b. unfold Sof. rewrite nth_spectra by exact HF. unfold rfft. destruct (Nat.lt_ge_cases b ((fft_size + fft_zp + 0) / 2 + 1)) as [Hb|Hb]; [|rewrite nth_overflow; [reflexivity|rewrite map_length, seq_length; exact Hb]]. rewrite nth_map_seq by exact Hb. unfold dft. apply csum_zero_ext. intros j _. rewrite nth_frame. 
      assert (Q : forall i, (i < fft_size)%nat -> nth (1 * fft_hop + i) (delayed (fft_size - fft_hop) rir) 0 = 0). { intros i Hi. unfold delayed. rewrite app_nth2; rewrite repeat_length; [|change fft_hop with 256%nat; change fft_size with 512%nat; lia]. unfold rir. replace (1 * fft_hop + i - (fft_size - fft_hop))%nat with i by (change fft_hop with 256%nat; change fft_size with 512%nat; lia). rewrite app_nth1 by (rewrite repeat_length; exact Hi). apply nth_repeat. }
      destruct (_ && _)%bool eqn:G; [apply andb_prop in G; destruct G as [_ G]; apply Nat.ltb_lt in G; rewrite Q by exact G|]; apply C_eq; cbn; ring. }
    generalize (filter (band 16000) (seq 0 n_freqs)). induction l as [|b l IH]; [reflexivity|]. cbn [map]. change (Rsum (?u :: ?l)) with (u + Rsum l). rewrite IH, Z. unfold Cabs2. cbn. ring.
Qed.
Print Assumptions C126_silence_refuted.
(** The frequencies used for the bins are more than twice those of the transform. *)
Theorem C126_axis_refuted : exists fs, 0 < fs /\ forall b, (0 < b)%nat -> 2 * (INR b * fs / INR (fft_size + fft_zp)) < freq_of fs b.
Proof.
  exists 16000. split; [lra|]. intros b Hb. apply lt_0_INR in Hb. unfold freq_of. rewrite freqs_val. assert (E : INR (fft_size + fft_zp) = 4096) by (rewrite INR_IZR_INZ; reflexivity). rewrite E. lra.
Qed.
Print Assumptions C126_axis_refuted.
(** One impulse, at 16 kHz: the measure exists and is 1. *)
Definition click : vec := map (fun i => if Nat.eqb i 300 then 1 else 0) (seq 0 fft_size).
Lemma click_length : length click = fft_size.
Proof. unfold click. now rewrite map_length, seq_length. Qed.
Lemma click_frames : ceil_div (length click) fft_hop = 2%nat.
Proof. rewrite click_length. reflexivity. Qed.
Lemma click_S : exists w, 0 < w /\ forall b, (b < n_freqs)%nat -> Cabs2 (Sof click 1 b) = w.
Proof.
  exists (hann_sym fft_size 300 * hann_sym fft_size 300). split.
  - assert (0 < hann_sym fft_size 300); [|now apply Rmult_lt_0_compat]. unfold hann_sym. assert (E : INR (fft_size - 1) = 511) by (rewrite INR_IZR_INZ; reflexivity). assert (E3 : INR 300 = 300) by (rewrite INR_IZR_INZ; reflexivity). rewrite E, E3. assert (cos (2 * PI * 300 / 511) < 1); [|lra]. pose proof PI_RGT_0. rewrite <- cos_2PI. replace (2 * PI * 300 / 511) with (2 * (PI * (300 / 511))) by field. rewrite !cos_2a_sin. rewrite sin_PI. assert (0 < sin (PI * (300 / 511))) by (apply sin_gt_0; nra). nra.
  - intros b Hb. unfold Sof. rewrite nth_spectra by (rewrite click_frames; lia). unfold rfft. rewrite nth_map_seq by (eapply Nat.lt_le_trans; [exact Hb|]; change (n_freqs <= 2049)%nat; change n_freqs with 1024%nat; lia). unfold dft.
    rewrite (csum_delta (fft_size + fft_zp + 0) 300).
    + rewrite Cabs2_mul, omega_abs2, Rmult_1_r. rewrite nth_frame. change ((0 <=? 300)%nat && (300 - 0 <? fft_size)%nat)%bool with true. cbv iota. change (300 - 0)%nat with 300%nat. unfold delayed. rewrite app_nth2 by (rewrite repeat_length; change fft_hop with 256%nat; change fft_size with 512%nat; lia). rewrite repeat_length. replace (1 * fft_hop + 300 - (fft_size - fft_hop))%nat with 300%nat by (change fft_hop with 256%nat; change fft_size with 512%nat; lia). unfold click. rewrite nth_map_seq by (change fft_size with 512%nat; lia). rewrite Nat.eqb_refl. unfold win, ana_win. rewrite nth_map_seq by (change fft_size with 512%nat; lia). unfold Cabs2. cbn [RtoC fst snd]. ring.
    + change fft_size with 512%nat. lia.
    + intros j Hj Nj. rewrite nth_frame. destruct (_ && _)%bool eqn:G; [|apply C_eq; cbn; ring]. apply andb_prop in G. destruct G as [_ G]. apply Nat.ltb_lt in G. rewrite Nat.sub_0_r in *. unfold delayed. rewrite app_nth2 by (rewrite repeat_length; change fft_hop with 256%nat; change fft_size with 512%nat; lia). rewrite repeat_length. replace (1 * fft_hop + j - (fft_size - fft_hop))%nat with j by (change fft_hop with 256%nat; change fft_size with 512%nat; lia). unfold click. rewrite nth_map_seq by exact G. destruct (Nat.eqb_spec j 300); [contradiction|]. apply C_eq; cbn; ring.
Qed.
Lemma click_norm : exists w n, 0 < w /\ 0 < n /\ forall b, (b < n_freqs)%nat -> phi 16000 (Sof click) 1 b = Some (sqrt w / sqrt (n * w)).
Proof.
  destruct click_S as (w & Hw & HS). set (l := filter (band 16000) (seq 0 n_freqs)). assert (Hl : forall b, In b l -> (b < n_freqs)%nat) by (intros b Hb; apply filter_In in Hb; destruct Hb as [Hb _]; apply in_seq in Hb; lia).
  assert (I : In 100%nat l). { apply filter_In. split; [apply in_seq; change n_freqs with 1024%nat; lia|]. unfold band. rewrite freqs_val'. destruct (base_Int_part (1024 / 16000 * 50)) as [A B]. destruct (base_Int_part (- (1024 / 16000 * (9 / 10 * 16000 / 2)))) as [A' B']. set (u := Int_part (1024 / 16000 * 50)) in *. set (v := Int_part (- (1024 / 16000 * (9 / 10 * 16000 / 2)))) in *. apply andb_true_intro. split; [apply Z.leb_le; change (Z.of_nat 100) with 100%Z; apply le_IZR; lra|apply Z.ltb_lt; change (Z.of_nat 100) with 100%Z; apply lt_IZR; rewrite opp_IZR; lra]. }
  exists w, (INR (length l)). split; [exact Hw|]. assert (P : 0 < INR (length l)) by (apply lt_0_INR; destruct l; [destruct I|cbn; lia]). split; [exact P|]. intros b Hb.
  assert (E : norm_factor 16000 (Sof click) 1 = INR (length l) * w). { unfold norm_factor. fold l. clear I P. induction l as [|c l' IH]; [cbn; ring|]. cbn [map length]. change (Rsum (?u :: ?l)) with (u + Rsum l). rewrite IH by (intros; apply Hl; now right). rewrite HS by (apply Hl; now left). rewrite S_INR. ring. }
  unfold phi. rewrite E. assert (0 < INR (length l) * w) by (apply Rmult_lt_0_compat; auto). destruct (Req_EM_T _ 0); [lra|]. unfold Cabs. now rewrite HS by exact Hb.
Qed.
Example C126_click : sweeping_echo_measure click 16000 0 (1 / 2) 400 = Some 1.
Proof.
  destruct click_norm as (w & n & Hw & Hn & HP). set (c := sqrt w / sqrt (n * w)) in *. assert (Hc : 0 < c). { apply Rmult_lt_0_compat; [now apply sqrt_lt_R0|]. apply Rinv_0_lt_compat, sqrt_lt_R0. now apply Rmult_lt_0_compat. }
  assert (SM : forall i, (i < n_coeffs)%nat -> slope_mean 2 (Sof click) 16000 0 (1 / 2) 400 (slope i) = Some c).
  { intros i Hi. unfold slope_mean. set (cs := cells 2 16000 0 (1 / 2) 400 (slope i)).
    assert (C1' : forall p, In p cs -> phi 16000 (Sof click) (fst p) (snd p) = Some c). { intros [k b] Hp. apply in_cells in Hp. destruct Hp as (Hk & Hb & T & _). cbn [fst snd]. destruct k as [|[|k]]; [unfold time_of in T; cbn in T; lra|now apply HP|lia]. }
    assert (NE : exists b, In (1%nat, b) cs). { assert (Sl : 5000 <= slope i <= 150000). { unfold slope. rewrite coeffs_val. assert (0 <= INR i <= 499). { split; [apply pos_INR|]. rewrite <- coeffs_val. apply le_INR. lia. } lra. }
      set (q := 256 / 16000 * slope i / (8000 / 1023)). destruct (base_Int_part q) as [A B]. assert (Q : 0 <= q <= 1000) by (unfold q; lra). set (z := Int_part q) in *. assert (Z0 : (0 <= z)%Z). { apply Z.lt_succ_r, lt_IZR. rewrite succ_IZR. lra. } assert (Z1 : (z <= 1000)%Z) by (apply le_IZR; lra). exists (Z.to_nat z). apply in_cells. split; [lia|]. split; [change n_freqs with 1024%nat; lia|]. unfold time_of, freq_of. rewrite hop_val, freqs_val. cbn [INR]. assert (EZ : INR (Z.to_nat z) = IZR z) by (rewrite INR_IZR_INZ, Z2Nat.id by exact Z0; reflexivity). rewrite EZ. split; [lra|]. unfold q in A, B. lra. }
    assert (M : forall l, (forall p, In p l -> phi 16000 (Sof click) (fst p) (snd p) = Some c) -> mapM (fun p => phi 16000 (Sof click) (fst p) (snd p)) l = Some (map (fun _ => c) l)). { induction l as [|p l IH]; intros Hl; [reflexivity|]. cbn [mapM map]. rewrite Hl by now left. cbn [bind]. rewrite IH by (intros; apply Hl; now right). reflexivity. }
    rewrite (M cs C1'). cbn [bind]. unfold mean. rewrite map_length. destruct NE as (b & Hb). assert (L : (0 < length cs)%nat) by (destruct cs; [destruct Hb|cbn; lia]). destruct (Nat.eqb_spec (length cs) 0); [lia|]. f_equal. assert (RS : Rsum (map (fun _ => c) cs) = INR (length cs) * c). { clear. induction cs as [|p l IH]; [cbn; ring|]. cbn [map length]. change (Rsum (?u :: ?l)) with (u + Rsum l). rewrite IH, S_INR. ring. } rewrite RS. field. apply not_0_INR. lia. }
  unfold sweeping_echo_measure. destruct (Rle_dec 16000 0); [lra|]. rewrite slope_means_is, click_frames. change (2 =? 1)%nat with false. cbv iota.
  assert (M : forall l, (forall i, In i l -> (i < n_coeffs)%nat) -> mapM (fun i => slope_mean 2 (Sof click) 16000 0 (1 / 2) 400 (slope i)) l = Some (map (fun _ => c) l)). { induction l as [|p l IH]; intros Hl; [reflexivity|]. cbn [mapM map]. rewrite SM by (apply Hl; now left). cbn [bind]. rewrite IH by (intros; apply Hl; now right). reflexivity. }
  rewrite M by (intros i Hi; apply in_seq in Hi; lia). cbn [bind]. set (ss := map (fun _ => c) (seq 0 n_coeffs)). assert (Iss : forall s, In s ss -> s = c) by (intros s Hs; apply in_map_iff in Hs; destruct Hs as (? & <- & _); reflexivity). assert (Nss : ss <> []) by (intros Z; apply (f_equal (@length R)) in Z; unfold ss in Z; rewrite map_length, seq_length in Z; pose proof coeffs_pos; cbn in Z; lia).
  destruct (flatness ss) as [r|] eqn:Fl.
  - destruct (flatness_spec ss r Nss ltac:(intros s Hs; rewrite (Iss s Hs); lra) Fl) as (_ & _ & H1). f_equal. apply H1. intros s s' Hs Hs'. now rewrite (Iss s Hs), (Iss s' Hs').
  - exfalso. unfold flatness in Fl. rewrite (map_ext_in Rabs (fun s => s)) in Fl by (intros s Hs; rewrite (Iss s Hs); apply Rabs_pos_eq; lra). rewrite map_id in Fl. destruct (Req_EM_T _ 0) as [Z|]; [|destruct (forallb _ ss); discriminate]. assert (0 < Rsum ss / INR (length ss)); [|lra]. apply Rmult_lt_0_compat; [apply Rsum_pos; auto; intros s Hs; rewrite (Iss s Hs); exact Hc|]. apply Rinv_0_lt_compat, lt_0_INR. destruct ss; [easy|cbn; lia].
Qed.
