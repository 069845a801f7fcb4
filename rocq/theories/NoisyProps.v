(** C153: signals with noise of a given level. *)
From Coq Require Import List ZArith Lia Reals Lra Bool.
From Verif Require Import Base BaseProofs Vec UtilModel UtilProps MeasureModel NoisyModel.
Import ListNotations.
Local Open Scope R_scope.

(** ** Specification *)
Definition energy (x : vec) : R := Rsum (map (fun v => v * v) x).
(** Mean power, and ratio of two mean powers in decibels. *)
Definition power (x : vec) : R := energy x / INR (length x).
Definition decibels (x y : vec) : R := 10 * (ln (power x / power y) / ln 10).
(** All frames have [ch] numbers. *)
Definition frames (ch : nat) (x : list vec) : Prop := Forall (fun r => length r = ch) x.

(** ** Lists *)
Lemma energy_nonneg x : 0 <= energy x.
Proof. unfold energy, Rsum. induction x as [|a l IH]; cbn [map fold_right]; [lra|nra]. Qed.
Lemma energy_scale x k : energy (map (fun v => v * k) x) = k * k * energy x.
Proof. unfold energy, Rsum. induction x as [|a l IH]; cbn [map fold_right]; [ring|]. rewrite IH. ring. Qed.
Lemma energy_div x k : energy (map (fun v => v / k) x) = / k * / k * energy x.
Proof. apply (energy_scale x (/ k)). Qed.
Lemma length_INR {A} (x : list A) : x <> [] -> 0 < INR (length x).
Proof. intros H. apply lt_0_INR. destruct x; [easy|cbn; lia]. Qed.
Lemma power_nonneg x : x <> [] -> 0 <= power x.
Proof. intros H. apply Rmult_le_pos; [apply energy_nonneg|]. apply Rlt_le, Rinv_0_lt_compat, length_INR, H. Qed.
Lemma power_scale x k : power (map (fun v => v * k) x) = k * k * power x.
Proof. unfold power. rewrite energy_scale, map_length. unfold Rdiv. ring. Qed.
Lemma concat_mm {A B} (f : A -> B) l : concat (map (map f) l) = map f (concat l).
Proof. symmetry. apply concat_map. Qed.
Lemma rms_eq x r : rms x = Some r <-> x <> [] /\ r = sqrt (power x).
Proof.
  unfold rms. destruct x as [|a l]; [split; [discriminate|intros [H _]; easy]|]. unfold power, energy. split; [intros H; injection H as <-; split; [discriminate|reflexivity]|]. intros [_ ->]. reflexivity.
Qed.

(** C153.  rms is the root of the mean square. *)
Theorem C153_rms : forall x, (rms x = None <-> x = []) /\ forall r, rms x = Some r -> 0 <= r /\ r * r = power x.
Proof.
  intros x. split; [destruct x; cbn; split; easy|]. intros r H. apply rms_eq in H as [Hx ->]. split; [apply sqrt_pos|]. apply sqrt_sqrt, power_nonneg, Hx.
Qed.
Print Assumptions C153_rms.

(** C153.  normalize_pwr gives the first signal, times a number that is not negative, the power of the second. *)
Theorem C153_normalize_pwr : forall sig1 sig2, sig1 <> [] -> sig2 <> [] -> power sig1 <> 0 ->
  exists k s, 0 <= k /\ normalize_pwr sig1 sig2 = Some s /\ s = map (fun v => v * k) sig1 /\ power s = power sig2.
Proof.
  intros sig1 sig2 H1 H2 HP. exists (sqrt (power sig2 / power sig1)), (map (fun v => v * sqrt (power sig2 / power sig1)) sig1). split; [apply sqrt_pos|].
  assert (E : forall x, Rsum (map (fun v => v ^ 2) x) = energy x) by (intros x; unfold energy; f_equal; apply map_ext; intros; ring).
  assert (Q : 0 <= power sig2 / power sig1). { pose proof (power_nonneg sig1 H1). pose proof (power_nonneg sig2 H2). apply Rmult_le_pos; [auto|]. apply Rlt_le, Rinv_0_lt_compat. lra. }
  repeat split.
  - unfold normalize_pwr. destruct sig1 as [|a l]; [easy|]. destruct sig2 as [|b m]; [easy|]. rewrite !E. fold (power (a :: l)) (power (b :: m)). destruct (Req_EM_T (power (a :: l)) 0); [easy|reflexivity].
  - rewrite power_scale, sqrt_sqrt by auto. field. exact HP.
Qed.
Print Assumptions C153_normalize_pwr.

(** C153.  dB: the exponential of the decibels is the absolute value of the signal (of amplitudes, or of powers). *)
Theorem C153_dB : forall signal power_ s, dB signal power_ = Some s -> length s = length signal /\
  forall i, (i < length signal)%nat -> nth i signal 0 <> 0 /\ Rpower 10 (nth i s 0 / if power_ then 10 else 20) = Rabs (nth i signal 0).
Proof.
  intros signal p. unfold dB. induction signal as [|v l IH]; intros s H; cbn [mapM] in H.
  - injection H as <-. split; [reflexivity|]. cbn. intros; lia.
  - destruct (Req_EM_T v 0) as [|Hv]; [discriminate|]. cbn [bind] in H. destruct (mapM _ l) as [s'|] eqn:E; [|discriminate]. cbn [bind] in H. injection H as <-. destruct (IH s' eq_refl) as [L H]. split; [cbn; lia|].
    intros [|i] Hi; cbn [nth]; [|apply H; cbn in Hi; lia]. split; [exact Hv|]. assert (P : 0 < Rabs v) by now apply Rabs_pos_lt. assert (L10 : ln 10 <> 0) by (rewrite <- ln_1; intros Z; apply ln_inv in Z; lra).
    unfold Rpower, log10. transitivity (exp (ln (Rabs v))); [|now apply exp_ln]. f_equal. destruct p; field; auto.
Qed.
Print Assumptions C153_dB.

(** ** create_noisy_signal *)
Lemma frames_concat ch x : frames ch x -> length (concat x) = (length x * ch)%nat.
Proof. intros H. induction H as [|r l E H IH]; [reflexivity|]. cbn [concat]. rewrite app_length, IH, E. cbn. lia. Qed.
Lemma frames_map ch (f : R -> R) x : frames ch x -> frames ch (map (map f) x).
Proof. intros H. apply Forall_map. eapply Forall_impl; [|exact H]. intros r E. now rewrite map_length. Qed.
Lemma map2_app {A B C} (f : A -> B -> C) a b a' b' : length a = length b -> map2 f (a ++ a') (b ++ b') = map2 f a b ++ map2 f a' b'.
Proof. revert b. induction a as [|x a IH]; intros [|y b] E; try discriminate; [reflexivity|]. cbn. now rewrite IH by (now injection E). Qed.
Lemma concat_add ch a b : frames ch a -> frames ch b -> length a = length b -> concat (map2 (map2 Rplus) a b) = map2 Rplus (concat a) (concat b).
Proof.
  intros Ha. revert b. induction Ha as [|r l E Ha IH]; intros [|s m] Hb L; try discriminate; [reflexivity|]. inversion Hb as [|? ? E' Hb']; subst. cbn [map2 concat]. rewrite map2_app by congruence. f_equal. apply IH; auto.
Qed.
Lemma frames_firstn ch n x : frames ch x -> frames ch (firstn n x).
Proof. intros H. unfold frames in *. rewrite Forall_forall in *. intros r Hr. apply H. rewrite <- (firstn_skipn n x). apply in_or_app. now left. Qed.
Lemma absmax_zero l : absmax l = 0 -> forall v, In v l -> v = 0.
Proof. intros H v Hv. pose proof (absmax_ge l v Hv) as G. rewrite H in G. destruct (Rabs_pos v) as [P|P]; [lra|]. destruct (Req_dec v 0) as [|N]; [auto|]. apply Rabs_pos_lt in N. lra. Qed.
Lemma absmax_all_zero l : (forall v, In v l -> v = 0) -> absmax l = 0.
Proof. unfold absmax. induction l as [|a l IH]; intros H; [reflexivity|]. cbn [map fold_right]. rewrite IH by (intros; apply H; now right). rewrite (H a (or_introl eq_refl)), Rabs_R0. apply Rmax_left. lra. Qed.
Lemma energy_zero x : energy x = 0 -> forall v, In v x -> v = 0.
Proof.
  induction x as [|a l IH]; intros H v Hv; [easy|]. unfold energy, Rsum in H. cbn [map fold_right] in H. fold (Rsum (map (fun v => v * v) l)) in H. fold (energy l) in H. pose proof (energy_nonneg l). destruct Hv as [<-|Hv]; [nra|]. apply IH; auto. nra.
Qed.
Lemma in_map2 {A B C} (f : A -> B -> C) a b z : In z (map2 f a b) -> exists x y, In x a /\ In y b /\ z = f x y.
Proof. revert b. induction a as [|x a IH]; intros [|y b] H; cbn in H; try easy. destruct H as [<-|H]; [exists x, y; cbn; auto|]. destruct (IH b H) as (x' & y' & H1 & H2 & H3). exists x', y'. cbn. auto. Qed.
Lemma sum_zero_opp a b : length a = length b -> (forall z, In z (map2 Rplus a b) -> z = 0) -> a = map Ropp b.
Proof. revert b. induction a as [|x a IH]; intros [|y b] E H; try discriminate; [reflexivity|]. injection E as E. cbn [map2 map] in *. f_equal; [specialize (H _ (or_introl eq_refl)); lra|]. apply IH; auto. intros z Hz. apply H. now right. Qed.
Lemma energy_opp x : energy (map Ropp x) = energy x.
Proof. unfold energy. rewrite map_map. f_equal. apply map_ext. intros. ring. Qed.
Lemma scale_one x : scale 1 x = x.
Proof. unfold scale. rewrite <- (map_id x) at 2. apply map_ext. intros r. rewrite <- (map_id r) at 2. apply map_ext. intros. ring. Qed.
Lemma scale_scale a b x : scale a (scale b x) = scale (b * a) x.
Proof. unfold scale. rewrite map_map. apply map_ext. intros r. rewrite map_map. apply map_ext. intros. ring. Qed.
Lemma div_scale k x : map (map (fun v => v / k)) x = scale (/ k) x.
Proof. reflexivity. Qed.
Lemma frames_scale ch k x : frames ch x -> frames ch (scale k x).
Proof. apply frames_map. Qed.
Lemma power_scale_frames k x : power (concat (scale k x)) = k * k * power (concat x).
Proof. unfold scale. rewrite concat_mm. apply power_scale. Qed.
Lemma Rsum_shift x m : Rsum (map (fun v => v - m) x) = Rsum x - INR (length x) * m.
Proof. unfold Rsum. induction x as [|a l IH]; [cbn; ring|]. cbn [map fold_right length]. rewrite IH, S_INR. ring. Qed.
Lemma absmax_scale k x : 0 < k -> absmax (map (fun v => v / k) x) = absmax x / k.
Proof.
  intros Hk. unfold absmax. induction x as [|a l IH]; cbn [map fold_right]; [field; lra|]. rewrite IH. unfold Rdiv. rewrite Rabs_mult, (Rabs_pos_eq (/ k)) by (apply Rlt_le, Rinv_0_lt_compat, Hk).
  rewrite !(Rmult_comm _ (/ k)). apply RmaxRmult. apply Rlt_le, Rinv_0_lt_compat, Hk.
Qed.
(** The common part, for the noise [n]. *)
Definition mix (clean n : list vec) (snr : R) : option (list vec * list vec * list vec) :=
  let* signal_level := rms (concat clean) in
  let* noise_level := rms (concat n) in
  if Req_EM_T noise_level 0 then None else
  let w := scale (signal_level / noise_level * Rpower 10 (- snr / 20)) n in
  let* noisy := add_frames clean w in
  let m := absmax (concat noisy) in
  if Req_EM_T m 0 then None else
  let noisy := scale (/ m) noisy in
  Some (map (map (fun v => v - Rsum (concat noisy) / INR (length (concat noisy)))) noisy, scale (/ m) clean, scale (/ m) w).
Section Mix.
Variables (ch : nat) (clean n : list vec) (snr : R).
Hypotheses (FC : frames ch clean) (FN : frames ch n) (LN : length n = length clean).
Let P := Rpower 10 (- snr / 20).
Lemma P_pos : 0 < P.
Proof. apply exp_pos. Qed.
Lemma same_length : length (concat n) = length (concat clean).
Proof. rewrite (frames_concat ch n FN), (frames_concat ch clean FC). now rewrite LN. Qed.
Lemma mix_defined : power (concat clean) <> 0 -> power (concat n) <> 0 -> snr <> 0 -> concat clean <> [] -> mix clean n snr <> None.
Proof.
  intros HC HN HS H0. assert (H1 : concat n <> []) by (intros Z; pose proof same_length as E; rewrite Z in E; destruct (concat clean); easy).
  unfold mix. assert (E1 : rms (concat clean) = Some (sqrt (power (concat clean)))) by (now apply rms_eq). assert (E2 : rms (concat n) = Some (sqrt (power (concat n)))) by (now apply rms_eq). rewrite E1, E2. cbn [bind].
  pose proof (power_nonneg _ H0) as P0. pose proof (power_nonneg _ H1) as P1. set (s := sqrt (power (concat clean))). set (q := sqrt (power (concat n))). assert (Q : 0 < q) by (apply sqrt_lt_R0; lra). assert (S1 : 0 < s) by (apply sqrt_lt_R0; lra).
  destruct (Req_EM_T q 0); [lra|]. fold P. set (w := scale (s / q * P) n). assert (LW : length w = length clean) by (unfold w, scale; now rewrite map_length). assert (FW : frames ch w) by now apply frames_scale.
  unfold add_frames. rewrite LW, Nat.eqb_refl. cbn [bind]. destruct (Req_EM_T _ 0) as [Z|]; [exfalso|discriminate]. rewrite (concat_add ch) in Z by auto.
  assert (E : concat clean = map Ropp (concat w)). { apply sum_zero_opp; [rewrite (frames_concat ch w FW), (frames_concat ch clean FC); now rewrite LW|]. now apply absmax_zero. }
  assert (EP : power (concat clean) = (s / q * P) * (s / q * P) * power (concat n)).
  { rewrite <- power_scale_frames. fold w. unfold power. rewrite E at 1. rewrite energy_opp. rewrite E, map_length. reflexivity. }
  assert (Q2 : q * q = power (concat n)) by (apply sqrt_sqrt; auto). assert (S2 : s * s = power (concat clean)) by (apply sqrt_sqrt; auto). rewrite <- Q2, <- S2 in EP.
  assert (PP : P * P = 1). { apply (Rmult_eq_reg_l (s * s)); [|nra]. rewrite Rmult_1_r. rewrite EP at 2. field. lra. }
  apply HS. assert (P = 1) by (pose proof P_pos; nra). assert (L : ln P = 0) by (rewrite H; apply ln_1). unfold P, Rpower in L. rewrite ln_exp in L. assert (0 < ln 10) by (rewrite <- ln_1; apply ln_increasing; lra). nra.
Qed.
Lemma mix_result : forall noisy c w, mix clean n snr = Some (noisy, c, w) ->
  (exists g, 0 < g /\ c = scale g clean) /\ (exists h, 0 < h /\ w = scale h n) /\ decibels (concat c) (concat w) = snr /\
  (exists mean, noisy = map (map (fun v => v - mean)) (map2 (map2 Rplus) c w)) /\ Rsum (concat noisy) = 0 /\ absmax (concat (map2 (map2 Rplus) c w)) = 1.
Proof.
  intros noisy c w H. unfold mix in H. destruct (rms (concat clean)) as [s|] eqn:E1; [|discriminate]. destruct (rms (concat n)) as [q|] eqn:E2; [|discriminate]. cbn [bind] in H.
  destruct (Req_EM_T q 0) as [|Hq]; [discriminate|]. fold P in H. set (w0 := scale (s / q * P) n) in *. assert (LW : length w0 = length clean) by (unfold w0, scale; now rewrite map_length). assert (FW : frames ch w0) by now apply frames_scale.
  unfold add_frames in H. rewrite LW, Nat.eqb_refl in H. cbn [bind] in H. set (mm := map2 (map2 Rplus) clean w0) in *. destruct (Req_EM_T (absmax (concat mm)) 0) as [|Hm]; [discriminate|]. set (m := absmax (concat mm)) in *.
  assert (M : 0 < m) by (pose proof (absmax_nonneg (concat mm)) as G; fold m in G; lra). assert (H' := f_equal (fun o => match o with Some v => v | None => ([], [], []) end) H). cbn in H'. clear H. inversion H' as [[A B D]]. clear H'. clear A B D.
  apply rms_eq in E1 as [N1 E1]. apply rms_eq in E2 as [N2 E2]. pose proof (power_nonneg _ N1) as P1. pose proof (power_nonneg _ N2) as P2.
  assert (Q : 0 < q) by (rewrite E2 in *; pose proof (sqrt_pos (power (concat n))); lra).
  assert (S1 : 0 < s).
  { destruct (Req_dec s 0) as [Z|Z]; [|rewrite E1 in *; pose proof (sqrt_pos (power (concat clean))); lra]. exfalso. apply Hm. unfold m, mm. rewrite (concat_add ch) by auto. apply absmax_all_zero. intros z Hz. apply in_map2 in Hz as (x & y & Hx & Hy & ->).
    assert (x = 0). { apply (energy_zero (concat clean)); auto. rewrite E1 in Z. apply sqrt_eq_0 in Z; auto. unfold power in Z. pose proof (length_INR _ N1). apply (Rmult_eq_reg_r (/ INR (length (concat clean)))); [|apply Rinv_neq_0_compat; lra]. unfold Rdiv in Z. lra. }
    assert (y = 0). { unfold w0, scale in Hy. rewrite concat_mm in Hy. apply in_map_iff in Hy as (v & <- & _). rewrite Z. unfold Rdiv. ring. } lra. }
  pose proof P_pos as PP. assert (IM : 0 < / m) by now apply Rinv_0_lt_compat. assert (SQ : 0 < s / q) by now apply Rdiv_lt_0_compat.
  assert (ADD : map2 (map2 Rplus) (scale (/ m) clean) (scale (/ m) w0) = scale (/ m) mm).
  { unfold mm. clearbody m w0. clear -FC FW LW. revert w0 FW LW. induction FC as [|r l E FCl IH]; intros [|x w0] FW LW; try discriminate; [reflexivity|]. inversion FW as [|? ? E' FW']; subst. cbn [scale map map2]. f_equal.
    - clear -E'. revert x E'. induction r as [|a r IH]; intros [|b x] E'; try discriminate; [reflexivity|]. cbn [map map2]. f_equal; [ring|]. apply IH. now injection E'.
    - apply (IH FCl w0 FW'). now injection LW. }
  split; [exists (/ m); auto|]. split. { exists (s / q * P * / m). split; [apply Rmult_lt_0_compat; auto; apply Rmult_lt_0_compat; auto|]. unfold w0. now rewrite scale_scale. }
  assert (Q2 : q * q = power (concat n)) by (rewrite E2; apply sqrt_sqrt; auto). assert (S2 : s * s = power (concat clean)) by (rewrite E1; apply sqrt_sqrt; auto).
  split.
  - unfold decibels. unfold w0. rewrite !power_scale_frames, <- Q2, <- S2. replace (/ m * / m * (s * s) / (/ m * / m * (s / q * P * (s / q * P) * (q * q)))) with (/ (P * P)) by (field; repeat split; lra).
    rewrite ln_Rinv, ln_mult by nra. unfold P, Rpower. rewrite ln_exp. field. rewrite <- ln_1. intros Z. apply ln_inv in Z; lra.
  - rewrite ADD. split; [eexists; reflexivity|]. set (z := concat (scale (/ m) mm)). assert (NZ : z <> []).
    { intros Z. unfold z, scale in Z. rewrite concat_mm in Z. apply Hm. unfold m. destruct (concat mm); [reflexivity|discriminate]. }
    split; [|unfold z; rewrite <- div_scale, concat_mm, absmax_scale by auto; fold m; field; lra].
    rewrite concat_mm. fold z. rewrite Rsum_shift. field. pose proof (length_INR z NZ). lra.
Qed.
End Mix.

(** The noise before it is weighted: the first frames of the file, or the frames drawn. *)
Definition drawn (clean : list vec) (noise_file : option (Z * list vec)) (white : nat -> list vec) : list vec :=
  match noise_file with Some (_, x) => firstn (length clean) x | None => white (length clean) end.
Lemma create_mix : forall fs clean snr noise_file white offset, match offset with Some o => trunc (o * IZR fs) | None => 0%Z end = 0%Z ->
  create_noisy fs clean snr noise_file white offset =
  (let* n := match noise_file with
     | Some (f, x) => if negb (f =? fs)%Z then None else if (length x <? length clean)%nat then None else Some (firstn (length clean) x)
     | None => let m := absmax (concat (white (length clean))) in if Req_EM_T m 0 then None else Some (scale (/ m) (white (length clean)))
     end in let* r := mix clean n snr in Some (fst (fst r), snd (fst r), snd r, fs)).
Proof.
  intros fs clean snr nf white offset Z. unfold create_noisy. rewrite Z. cbv zeta. rewrite Z.add_0_r. replace (Z.of_nat (length clean) <? 0)%Z with false by (symmetry; apply Z.ltb_ge; lia). rewrite Nat2Z.id.
  assert (G : forall n, slice_from n 0 = (n : list vec)) by reflexivity. unfold slice_to. replace (0 <=? Z.of_nat (length clean))%Z with true by (symmetry; apply Z.leb_le; lia). rewrite Nat2Z.id.
  set (k1 := fun n : list vec => _). match goal with |- bind ?a k1 = _ => set (lhs := a) end. match goal with |- _ = bind ?a _ => set (rhs := a) end.
  assert (E : lhs = rhs).
  { unfold lhs, rhs. destruct nf as [[f x]|]; [|reflexivity]. destruct (negb (f =? fs)%Z); [reflexivity|]. destruct (Z.ltb_spec (Z.of_nat (length x)) (Z.of_nat (length clean))), (Nat.ltb_spec (length x) (length clean)); try lia; reflexivity. }
  rewrite E. destruct rhs as [n|]; [|reflexivity]. cbn [bind]. unfold k1. rewrite G. unfold mix. destruct (rms (concat clean)) as [s|]; [|reflexivity]. destruct (rms (concat n)) as [q|]; [|reflexivity]. cbn [bind].
  destruct (Req_EM_T q 0); [reflexivity|]. destruct (add_frames clean _) as [y|]; [|reflexivity]. cbn [bind]. destruct (Req_EM_T (absmax (concat y)) 0); reflexivity.
Qed.

(** C153.  create_noisy_signal without an offset: the clean signal and the noise it returns are positive
    multiples of the given ones, their powers differ by exactly the decibels asked for, the noisy signal is
    their sum less its mean, and the largest absolute value of the sum is one. *)
Theorem C153_noisy : forall fs clean snr noise_file white ch noisy c w fs', frames ch clean -> (forall n, length (white n) = n) -> frames ch (drawn clean noise_file white) ->
  create_noisy fs clean snr noise_file white None = Some (noisy, c, w, fs') ->
  fs' = fs /\ match noise_file with Some (f, x) => f = fs /\ (length clean <= length x)%nat | None => True end /\
  (exists g, 0 < g /\ c = scale g clean) /\ (exists h, 0 < h /\ w = scale h (drawn clean noise_file white)) /\
  decibels (concat c) (concat w) = snr /\
  (exists mean, noisy = map (map (fun v => v - mean)) (map2 (map2 Rplus) c w)) /\ Rsum (concat noisy) = 0 /\ absmax (concat (map2 (map2 Rplus) c w)) = 1.
Proof.
  intros fs clean snr nf white ch noisy c w fs' FC LW FD H. rewrite create_mix in H by reflexivity. destruct nf as [[f x]|]; cbn [drawn] in *.
  - destruct (Z.eqb_spec f fs) as [Ef|]; [|discriminate]. cbn [negb] in H. destruct (Nat.ltb_spec (length x) (length clean)) as [|L]; [discriminate|]. cbn [bind] in H.
    destruct (mix clean (firstn (length clean) x) snr) as [[[a b] d]|] eqn:E; [|discriminate]. cbn in H. assert (H' := f_equal (fun o => match o with Some v => v | None => ([], [], [], fs) end) H). cbn in H'. inversion H'; subst.
    split; [reflexivity|]. split; [auto|]. apply (mix_result ch clean (firstn (length clean) x)); auto. rewrite firstn_length. lia.
  - cbv zeta in H. set (M := absmax (concat (white (length clean)))) in *. destruct (Req_EM_T M 0) as [|HM]; [discriminate|]. cbn [bind] in H. assert (MP : 0 < M) by (pose proof (absmax_nonneg (concat (white (length clean)))) as G; fold M in G; lra).
    destruct (mix clean (scale (/ M) (white (length clean))) snr) as [[[a b] d]|] eqn:E; [|discriminate]. cbn in H. assert (H' := f_equal (fun o => match o with Some v => v | None => ([], [], [], fs) end) H). cbn in H'. inversion H'; subst.
    split; [reflexivity|]. split; [auto|]. destruct (mix_result ch clean (scale (/ M) (white (length clean))) snr FC (frames_scale _ _ _ FD) ltac:(unfold scale; now rewrite map_length) _ _ _ E) as (G1 & (h & Hh & ->) & G3 & G4).
    split; [exact G1|]. split; [|auto]. exists (/ M * h). split; [apply Rmult_lt_0_compat; [now apply Rinv_0_lt_compat|auto]|]. apply scale_scale.
Qed.
Print Assumptions C153_noisy.

(** C153.  It returns for every noise file of the same sampling rate that is at least as long as the signal,
    if neither is silent (over that length) and the decibels are not zero; it refuses other sampling rates and shorter files. *)
Theorem C153_returns : forall fs clean snr f x white ch, frames ch clean -> frames ch x ->
  ((f <> fs \/ (length x < length clean)%nat) -> create_noisy fs clean snr (Some (f, x)) white None = None) /\
  (f = fs -> (length clean <= length x)%nat -> (exists v, In v (concat clean) /\ v <> 0) -> (exists v, In v (concat (firstn (length clean) x)) /\ v <> 0) -> snr <> 0 ->
   create_noisy fs clean snr (Some (f, x)) white None <> None).
Proof.
  intros fs clean snr f x white ch FC FX. rewrite create_mix by reflexivity. split.
  - intros [H|H]; [destruct (Z.eqb_spec f fs); [easy|reflexivity]|]. destruct (negb (f =? fs)%Z); [reflexivity|]. destruct (Nat.ltb_spec (length x) (length clean)); [reflexivity|lia].
  - intros -> L (v & Hv & V0) (u & Hu & U0) HS. rewrite Z.eqb_refl. cbn [negb]. destruct (Nat.ltb_spec (length x) (length clean)); [lia|]. cbn [bind].
    assert (G : forall y, (exists v, In v y /\ v <> 0) -> power y <> 0).
    { intros y (a & Ha & A0) Z. apply A0. apply (energy_zero y); auto. assert (N : y <> []) by (intros ->; easy). pose proof (length_INR y N). unfold power in Z. apply (Rmult_eq_reg_r (/ INR (length y))); [|apply Rinv_neq_0_compat; lra]. unfold Rdiv in Z. lra. }
    pose proof (mix_defined ch clean (firstn (length clean) x) snr FC (frames_firstn _ _ _ FX) ltac:(rewrite firstn_length; lia) (G _ (ex_intro _ v (conj Hv V0))) (G _ (ex_intro _ u (conj Hu U0))) HS) as D.
    destruct (mix clean (firstn (length clean) x) snr); [discriminate|]. exfalso. apply D; [intros Z; rewrite Z in Hv; easy|reflexivity].
Qed.
Print Assumptions C153_returns.

Lemma int_unique x z : IZR z <= x < IZR z + 1 -> Int_part x = z.
Proof. intros [A B]. apply Z.le_antisymm; [now apply Int_part_le|now apply Int_part_ge]. Qed.
(** An offset of less than one sample has no effect. *)
Theorem C153_small_offset : forall fs clean snr noise_file white o, Rabs (o * IZR fs) < 1 ->
  create_noisy fs clean snr noise_file white (Some o) = create_noisy fs clean snr noise_file white None.
Proof.
  intros fs clean snr nf white o H. rewrite !create_mix; auto. unfold trunc. apply Rabs_def2 in H. assert (I0 : forall y, 0 <= y < 1 -> Int_part y = 0%Z) by (intros y Hy; apply int_unique; cbn; lra).
  destruct (Rle_dec 0 (o * IZR fs)); rewrite I0 by lra; reflexivity.
Qed.
Print Assumptions C153_small_offset.

Lemma offset_fails : forall fs clean snr nf white o, (forall n, length (white n) = n) -> 1 <= o * IZR fs -> (2 <= length clean)%nat -> create_noisy fs clean snr nf white (Some o) = None.
Proof.
  intros fs clean snr nf white o LW Ho L2. unfold create_noisy. set (k := trunc (o * IZR fs)). assert (K : (1 <= k)%Z).
  { unfold k, trunc. destruct (Rle_dec 0 (o * IZR fs)); [|lra]. destruct (base_Int_part (o * IZR fs)) as [_ B]. assert (C : 0 < IZR (Int_part (o * IZR fs))) by lra. apply lt_IZR in C. lia. }
  cbv zeta. set (out := (Z.of_nat (length clean) + k)%Z). set (k1 := fun n : list vec => _). match goal with |- bind ?a k1 = _ => set (lhs := a) end.
  assert (E : forall n, lhs = Some n -> length n = Z.to_nat out).
  { intros n. unfold lhs. destruct nf as [[f x]|].
    - destruct (negb (f =? fs)%Z); [discriminate|]. destruct (Z.ltb_spec (Z.of_nat (length x)) out); [discriminate|]. intros H0. apply (f_equal (fun o => match o with Some v => v | None => [] end)) in H0. subst n. unfold slice_to. destruct (Z.leb_spec 0 out); [|unfold out in *; lia]. rewrite firstn_length. lia.
    - destruct (Z.ltb_spec out 0); [discriminate|]. destruct (Req_EM_T _ 0); [discriminate|]. intros H0. apply (f_equal (fun o => match o with Some v => v | None => [] end)) in H0. subst n. now rewrite map_length, LW. }
  destruct lhs as [n|]; [|reflexivity]. specialize (E n eq_refl). cbn [bind]. unfold k1. destruct (rms (concat clean)); [|reflexivity]. destruct (rms (concat (slice_from n k))); [|reflexivity]. cbn [bind]. destruct (Req_EM_T _ 0); [reflexivity|].
  set (w := scale _ n). assert (LN : length w = Z.to_nat out) by (unfold w, scale; now rewrite map_length). replace (add_frames clean w) with (@None (list vec)); [reflexivity|]. unfold add_frames. destruct (Nat.eqb_spec (length clean) (length w)) as [Z|Z]; [unfold out in *; lia|].
  destruct clean as [|a [|b l]]; cbn [length] in *; try lia. destruct w as [|x [|y w']]; cbn [length] in LN; try reflexivity. unfold out in LN. lia.
Qed.
(** An offset of one sample or more makes the call fail for every signal of two frames or more: the noise
    is longer than the signal, which is not delayed. *)
Theorem C153_offset_refuted : exists fs clean snr x offset, 0 < offset /\ frames 1 clean /\ frames 1 x /\ (Z.of_nat (length clean) + trunc (offset * IZR fs) <= Z.of_nat (length x))%Z /\
  (exists v, In v (concat clean) /\ v <> 0) /\ forall white, (forall n, length (white n) = n) -> create_noisy fs clean snr (Some (fs, x)) white (Some offset) = None.
Proof.
  exists 1%Z, [[1]; [1]], 1, [[1]; [2]; [3]], 1. assert (T : trunc (1 * IZR 1) = 1%Z). { unfold trunc. destruct (Rle_dec 0 (1 * 1)); [|lra]. apply int_unique. cbn. lra. }
  split; [lra|]. split; [repeat constructor|]. split; [repeat constructor|]. split; [rewrite T; cbn; lia|]. split; [exists 1; cbn; split; [auto|lra]|]. intros white LW. apply offset_fails; auto; lra.
Qed.
Print Assumptions C153_offset_refuted.

Lemma same_noise_case : forall white, create_noisy 1 [[-1]; [1]; [1]] 0 (Some (1%Z, [[-1]; [1]; [1]])) white None = Some ([[-4/3]; [2/3]; [2/3]], [[-1/2]; [1/2]; [1/2]], [[-1/2]; [1/2]; [1/2]], 1%Z).
Proof.
  intros white. rewrite create_mix by reflexivity. cbn [Z.eqb Pos.eqb negb length Nat.ltb Nat.leb firstn bind]. unfold mix. cbn [concat app]. unfold rms. cbn [map length]. replace (Rsum _ / INR 3) with 1 by (unfold Rsum; cbn; field). rewrite sqrt_1. cbn [bind].
  destruct (Req_EM_T 1 0); [lra|]. assert (F : 1 / 1 * Rpower 10 (- 0 / 20) = 1) by (unfold Rpower; replace (- 0 / 20 * ln 10) with 0 by field; rewrite exp_0; field). rewrite F, scale_one. unfold add_frames. cbn [length Nat.eqb bind map2].
  assert (M : absmax (concat [[-1 + -1]; [1 + 1]; [1 + 1]]) = 2). { unfold absmax. cbn [concat app map fold_right]. rewrite (Rabs_left (-1 + -1)), (Rabs_right (1 + 1)) by lra. unfold Rmax. repeat (destruct (Rle_dec _ _)); lra. }
  rewrite M. destruct (Req_EM_T 2 0); [lra|]. unfold scale. cbn [map concat app bind fst snd]. unfold Rsum. cbn [fold_right length]. repeat match goal with |- @eq R _ _ => cbn; field | |- @eq nat _ _ => reflexivity | |- @eq Z _ _ => reflexivity | |- _ => f_equal end.
Qed.
(** The noisy signal is not within [-1, 1] as documented: the mean is removed after the normalisation. *)
Theorem C153_range_refuted : exists fs clean snr x noisy c w, (forall white, create_noisy fs clean snr (Some (fs, x)) white None = Some (noisy, c, w, fs)) /\ (exists v, In v (concat clean) /\ v <> 0) /\ exists v, In v (concat noisy) /\ v < -1.
Proof.
  exists 1%Z, [[-1]; [1]; [1]], 0, [[-1]; [1]; [1]]. do 3 eexists. split; [apply same_noise_case|]. split; [exists 1; cbn; split; [auto|lra]|]. exists (-4 / 3). cbn. split; [auto|lra].
Qed.
Print Assumptions C153_range_refuted.
(** The clean signal it returns is not untouched as documented but scaled with the sum. *)
Theorem C153_untouched_refuted : exists fs clean snr x noisy c w, (forall white, create_noisy fs clean snr (Some (fs, x)) white None = Some (noisy, c, w, fs)) /\ c <> clean.
Proof.
  exists 1%Z, [[-1]; [1]; [1]], 0, [[-1]; [1]; [1]]. do 3 eexists. split; [apply same_noise_case|]. intros E. apply (f_equal (fun x => nth 0 (nth 1 x []) 0)) in E. cbn in E. lra.
Qed.
Print Assumptions C153_untouched_refuted.
Example C153_case : exists fs clean snr x ch, frames ch clean /\ frames ch x /\ (length clean <= length x)%nat /\ (exists v, In v (concat clean) /\ v <> 0) /\ (exists v, In v (concat (firstn (length clean) x)) /\ v <> 0) /\ snr <> 0 /\
  forall white, create_noisy fs clean snr (Some (fs, x)) white None <> None.
Proof.
  exists 8%Z, [[1; 2]; [0; -1]], 20, [[1; 1]; [0; -1]; [3; 3]], 2%nat. assert (F1 : frames 2 [[1; 2]; [0; -1]]) by (repeat constructor). assert (F2 : frames 2 [[1; 1]; [0; -1]; [3; 3]]) by (repeat constructor).
  assert (V1 : exists v, In v (concat [[1; 2]; [0; -1]]) /\ v <> 0) by (exists 1; cbn; split; [auto|lra]). assert (V2 : exists v, In v (concat (firstn 2 [[1; 1]; [0; -1]; [3; 3]])) /\ v <> 0) by (exists 1; cbn; split; [auto|lra]).
  split; [exact F1|]. split; [exact F2|]. split; [cbn; lia|]. split; [exact V1|]. split; [exact V2|]. split; [lra|]. intros white. apply (C153_returns 8 [[1; 2]; [0; -1]] 20 8 [[1; 1]; [0; -1]; [3; 3]] white 2 F1 F2); auto; first [lra | cbn; lia].
Qed.
