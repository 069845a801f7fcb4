(** C148: directions from finite rate of innovation (FRIDA). *)
From Coq Require Import List ZArith Lia Reals Lra Bool Permutation.
From Verif Require Import Base BaseProofs Sum Cpx SphereModel SphereProps FridaModel FridaProofs.
Import ListNotations.
Local Open Scope R_scope.

(** ** Visibilities *)
(** the mean over the chosen frames *)
Definition mean (frames : list nat) (f : nat -> C) : C := Cscal (/ INR (length frames)) (fold_right Cadd C0 (map f frames)).
Lemma mean_add F f g : mean F (fun t => Cadd (f t) (g t)) = Cadd (mean F f) (mean F g).
Proof.
  unfold mean. generalize (/ INR (length F)) as k. intro k. rewrite !Cscal_RtoC.
  assert (E : fold_right Cadd C0 (map (fun t => Cadd (f t) (g t)) F) = Cadd (fold_right Cadd C0 (map f F)) (fold_right Cadd C0 (map g F)))
    by (induction F; cbn [map fold_right]; [ring|rewrite IHF; ring]). rewrite E. ring.
Qed.
Lemma mean_scal F a f : mean F (fun t => Cmul a (f t)) = Cmul a (mean F f).
Proof.
  unfold mean. generalize (/ INR (length F)) as k. intro k. rewrite !Cscal_RtoC.
  assert (E : fold_right Cadd C0 (map (fun t => Cmul a (f t)) F) = Cmul a (fold_right Cadd C0 (map f F)))
    by (induction F; cbn [map fold_right]; [ring|rewrite IHF; ring]). rewrite E. ring.
Qed.
Lemma mean_ext F f g : (forall t, f t = g t) -> mean F f = mean F g.
Proof. intro H. unfold mean. f_equal. f_equal. apply map_ext. exact H. Qed.
Lemma mean_zero F : mean F (fun _ => C0) = C0.
Proof. unfold mean. rewrite Cscal_RtoC. replace (fold_right Cadd C0 (map (fun _ => C0) F)) with C0 by (induction F; cbn [map fold_right]; [|rewrite <- IHF]; ring). ring. Qed.
Lemma mean_csum F n f : mean F (fun t => csum n (fun k => f k t)) = csum n (fun k => mean F (f k)).
Proof.
  induction n; [rewrite csum_0, <- (mean_zero F); apply mean_ext; intro; apply csum_0|].
  rewrite csum_S, <- IHn, <- mean_add. apply mean_ext. intro t. rewrite csum_S. reflexivity.
Qed.

(** Far away sources: a wave from azimuth theta reaches the microphone at (x, y) early by
    (x cos theta + y sin theta) / c. *)
Definition arrival (omega c theta : R) (px py : vect) (q : nat) : C := cis (omega * (px q * cos theta + py q * sin theta) / c).

Section Sources.
Variables (n_mics n_src : nat) (omega c : R) (px py theta power : nat -> R).
Variables (s v : nat -> nat -> C) (F : list nat).
Let x (q t : nat) : C := Cadd (csum n_src (fun k => Cmul (s k t) (arrival omega c (theta k) px py q))) (v q t).
Hypothesis uncorrelated : forall k l, (k < n_src)%nat -> (l < n_src)%nat -> mean F (fun t => Cmul (Conj (s k t)) (s l t)) = if Nat.eqb k l then RtoC (power k) else C0.
Hypothesis noise_apart : forall k q, (k < n_src)%nat -> (q < n_mics)%nat -> mean F (fun t => Cmul (Conj (s k t)) (v q t)) = C0 /\ mean F (fun t => Cmul (Conj (v q t)) (s k t)) = C0.
Hypothesis noise_white : forall q qp, (q < n_mics)%nat -> (qp < n_mics)%nat -> q <> qp -> mean F (fun t => Cmul (Conj (v qp t)) (v q t)) = C0.

Lemma cross q qp : (q < n_mics)%nat -> (qp < n_mics)%nat -> q <> qp -> mean F (fun t => Cmul (Conj (x qp t)) (x q t)) =
  csum n_src (fun k => Cmul (RtoC (power k)) (Cmul (Conj (arrival omega c (theta k) px py qp)) (arrival omega c (theta k) px py q))).
Proof.
  intros Hq Hp N. set (a := fun k q => arrival omega c (theta k) px py q).
  change (mean F (fun t => Cmul (Conj (x qp t)) (x q t)) = csum n_src (fun k => Cmul (RtoC (power k)) (Cmul (Conj (a k qp)) (a k q)))).
  transitivity (mean F (fun t => Cadd (Cadd (csum n_src (fun k => csum n_src (fun l => Cmul (Cmul (Conj (a k qp)) (a l q)) (Cmul (Conj (s k t)) (s l t)))))
                                             (csum n_src (fun k => Cmul (Conj (a k qp)) (Cmul (Conj (s k t)) (v q t)))))
                                       (Cadd (csum n_src (fun l => Cmul (a l q) (Cmul (Conj (v qp t)) (s l t)))) (Cmul (Conj (v qp t)) (v q t))))).
  - apply mean_ext. intro t. unfold x. rewrite Conj_add, csum_conj.
    change (csum n_src (fun k => Cmul (s k t) (arrival omega c (theta k) px py q))) with (csum n_src (fun k => Cmul (s k t) (a k q))).
    change (csum n_src (fun i => Conj (Cmul (s i t) (arrival omega c (theta i) px py qp)))) with (csum n_src (fun i => Conj (Cmul (s i t) (a i qp)))).
    set (S1 := csum n_src (fun i => Conj (Cmul (s i t) (a i qp)))). set (S2 := csum n_src (fun k => Cmul (s k t) (a k q))).
    assert (E1 : csum n_src (fun k => csum n_src (fun l => Cmul (Cmul (Conj (a k qp)) (a l q)) (Cmul (Conj (s k t)) (s l t)))) = Cmul S1 S2).
    { unfold S1. rewrite <- csum_scal_r. apply csum_ext. intros k Hk. unfold S2. rewrite <- csum_scal. apply csum_ext. intros l Hl. rewrite Conj_mul. ring. }
    assert (E2 : csum n_src (fun k => Cmul (Conj (a k qp)) (Cmul (Conj (s k t)) (v q t))) = Cmul S1 (v q t)).
    { unfold S1. rewrite <- csum_scal_r. apply csum_ext. intros k Hk. rewrite Conj_mul. ring. }
    assert (E3 : csum n_src (fun l => Cmul (a l q) (Cmul (Conj (v qp t)) (s l t))) = Cmul (Conj (v qp t)) S2).
    { unfold S2. rewrite <- csum_scal. apply csum_ext. intros k Hk. ring. }
    rewrite E1, E2, E3. ring.
  - rewrite !mean_add, !mean_csum, noise_white by assumption.
    rewrite (csum_ext n_src (fun k => mean F _) (fun k => Cmul (RtoC (power k)) (Cmul (Conj (a k qp)) (a k q)))).
    + rewrite (csum_zero_ext n_src (fun k => mean F (fun t => Cmul (Conj (a k qp)) (Cmul (Conj (s k t)) (v q t))))) by
        (intros k Hk; rewrite mean_scal, (proj1 (noise_apart k q Hk Hq)); ring).
      rewrite (csum_zero_ext n_src (fun k => mean F (fun t => Cmul (a k q) (Cmul (Conj (v qp t)) (s k t))))) by
        (intros k Hk; rewrite mean_scal, (proj2 (noise_apart k qp Hk Hp)); ring). ring.
    + intros k Hk. rewrite mean_csum. rewrite (csum_delta n_src k).
      * rewrite mean_scal, uncorrelated, Nat.eqb_refl by assumption. ring.
      * exact Hk.
      * intros l Hl NE. rewrite mean_scal, uncorrelated by assumption. destruct (Nat.eqb_spec k l); [congruence|ring].
Qed.
End Sources.

Lemma pairs_in n q qp : In (q, qp) (pairs n) <-> (q < n)%nat /\ (qp < n)%nat /\ qp <> q.
Proof.
  unfold pairs. rewrite in_flat_map. split.
  - intros [a [Ha H]]. apply in_map_iff in H. destruct H as [b [E H]]. apply filter_In in H. destruct H as [H N]. injection E as -> ->.
    apply in_seq in Ha, H. destruct (Nat.eqb_spec qp q); [discriminate|]. lia.
  - intros [A [B N]]. exists q. split; [apply in_seq; lia|]. apply in_map_iff. exists qp. split; [reflexivity|]. apply filter_In. split; [apply in_seq; lia|].
    destruct (Nat.eqb_spec qp q); [contradiction|reflexivity].
Qed.
Lemma pairs_length n : length (pairs n) = (n * (n - 1))%nat.
Proof.
  unfold pairs.
  assert (F : forall q s m, (forall x, In x (seq s m) -> True) -> length (filter (fun qp => negb (Nat.eqb qp q)) (seq s m)) = (m - (if Nat.leb s q && Nat.ltb q (s + m) then 1 else 0))%nat).
  { intros q s m _. revert s. induction m; intro s; [reflexivity|]. cbn [seq filter]. destruct (Nat.eqb_spec s q); cbn [negb length].
    - rewrite IHm. destruct (Nat.leb_spec (S s) q); [lia|]. destruct (Nat.leb_spec s q); [|lia]. destruct (Nat.ltb_spec q (s + S m)); [|lia]. cbn. lia.
    - rewrite IHm. destruct (Nat.leb_spec (S s) q), (Nat.leb_spec s q), (Nat.ltb_spec q (S s + m)), (Nat.ltb_spec q (s + S m)); cbn [andb]; lia. }
  assert (G : forall l, (forall q, In q l -> (q < n)%nat) -> length (flat_map (fun q => map (fun qp => (q, qp)) (filter (fun qp => negb (Nat.eqb qp q)) (seq 0 n))) l) = (length l * (n - 1))%nat).
  { induction l as [|q l IH]; intro H; [reflexivity|]. cbn [flat_map length]. rewrite app_length, map_length, IH by (intros; apply H; right; assumption).
    rewrite F by auto. specialize (H q (or_introl eq_refl)). destruct (Nat.leb_spec 0 q); [|lia]. destruct (Nat.ltb_spec q (0 + n)); [|lia]. cbn [andb]. lia. }
  rewrite G by (intros q Hq; apply in_seq in Hq; lia). rewrite seq_length. reflexivity.
Qed.

(** The frames used: those whose power, averaged over the microphones, exceeds that of the average signal of the microphones by more
    than the margin times the noise floor. *)
Lemma sum_dev n (x : nat -> C) (mu : C) : bsum n (fun m => Cabs2 (Csub (x m) mu)) = bsum n (fun m => Cabs2 (x m)) - 2 * (fst mu * fst (csum n x) + snd mu * snd (csum n x)) + INR n * Cabs2 mu.
Proof.
  induction n as [|n IH]; [rewrite csum_0; cbn; ring|]. rewrite csum_S, S_INR. cbn [bsum]. rewrite IH. unfold Cabs2, Csub, Cadd. cbn [fst snd]. ring.
Qed.
Theorem C148_frames : forall n_mics n_frames margin floor x t, (0 < n_mics)%nat ->
  (In t (chosen_frames n_mics n_frames margin floor x) <-> (t < n_frames)%nat /\
     margin * floor < / INR n_mics * bsum n_mics (fun m => Cabs2 (x m t)) - Cabs2 (Cscal (/ INR n_mics) (csum n_mics (fun m => x m t)))).
Proof.
  intros n_mics n_frames margin floor x t Hn. unfold chosen_frames. rewrite filter_In, in_seq.
  assert (E : energy n_mics x t = / INR n_mics * bsum n_mics (fun m => Cabs2 (x m t)) - Cabs2 (Cscal (/ INR n_mics) (csum n_mics (fun m => x m t)))).
  { unfold energy. rewrite sum_dev. unfold frame_mean. set (S := csum n_mics (fun m => x m t)). unfold Cabs2, Cscal. cbn [fst snd]. assert (INR n_mics <> 0) by (apply not_0_INR; lia). field. assumption. }
  rewrite E. destruct (Rlt_dec _ _); split; intros [A B]; split; try lia; try assumption; try reflexivity; try discriminate; contradiction.
Qed.
Print Assumptions C148_frames.

(** The visibilities of uncorrelated far away sources in noise that is uncorrelated between the microphones: each pair
    of different microphones, whatever the noise powers, holds the sum of the source powers times the entry of
    build_mtx_amp at the direction of propagation (azimuth + pi), on the array scaled by omega / c. *)
Theorem C148_visibility : forall n_mics n_src n_frames margin floor omega c px py theta power s v,
  let x q t := Cadd (csum n_src (fun k => Cmul (s k t) (arrival omega c (theta k) px py q))) (v q t) in
  let F := chosen_frames n_mics n_frames margin floor x in
  F <> [] -> omega <> 0 -> c <> 0 ->
  (forall k l, (k < n_src)%nat -> (l < n_src)%nat -> mean F (fun t => Cmul (Conj (s k t)) (s l t)) = if Nat.eqb k l then RtoC (power k) else C0) ->
  (forall k q, (k < n_src)%nat -> (q < n_mics)%nat -> mean F (fun t => Cmul (Conj (s k t)) (v q t)) = C0 /\ mean F (fun t => Cmul (Conj (v q t)) (s k t)) = C0) ->
  (forall q qp, (q < n_mics)%nat -> (qp < n_mics)%nat -> q <> qp -> mean F (fun t => Cmul (Conj (v qp t)) (v q t)) = C0) ->
  exists vis, visibilities n_mics n_frames margin floor x = Some vis /\ length vis = (n_mics * (n_mics - 1))%nat /\
    forall i, (i < length vis)%nat -> nth i vis C0 =
      csum n_src (fun k => Cmul (RtoC (power k))
        (build_mtx_amp (theta k + PI) (fun m => px m / (c / omega)) (fun m => py m / (c / omega)) (nth i (pairs n_mics) (0, 0)%nat))).
Proof.
  intros n_mics n_src n_frames margin floor omega c px py theta power s v x F HF Hw Hc U N1 N2.
  unfold visibilities. fold F. unfold cov_mtx_est. destruct (Nat.eqb_spec (length F) 0) as [E|E]; [destruct F; [contradiction|discriminate]|].
  cbn [bind]. eexists. split; [reflexivity|]. unfold extract_off_diag. split; [rewrite map_length; apply pairs_length|].
  intros i Hi. rewrite map_length in Hi.
  set (f := fun p : nat * nat => _). rewrite (nth_indep _ C0 (f (0, 0)%nat)) by (rewrite map_length; exact Hi). rewrite map_nth. unfold f.
  pose proof (nth_In (pairs n_mics) (0, 0)%nat Hi) as I. destruct (nth i (pairs n_mics) (0, 0)%nat) as [q qp]. apply pairs_in in I. destruct I as [Hq [Hp Hn]].
  cbn [fst snd]. change (mean F (fun t => Cmul (Conj (x qp t)) (x q t)) = csum n_src (fun k => Cmul (RtoC (power k))
        (build_mtx_amp (theta k + PI) (fun m => px m / (c / omega)) (fun m => py m / (c / omega)) (q, qp)))).
  unfold x. rewrite (cross n_mics n_src omega c px py theta power s v F U N1 N2 q qp Hq Hp ltac:(congruence)).
  apply csum_ext. intros k Hk. f_equal. unfold build_mtx_amp, arrival, baseline. cbn [fst snd]. rewrite <- cis_opp, <- cis_add. f_equal.
  rewrite neg_cos, neg_sin. field. split; assumption.
Qed.
Print Assumptions C148_visibility.

(** ** The mapping *)
(** The truncated series of exp(- j rho cos t) in Bessel functions *)
Definition series (jv : Z -> R -> R) (M : nat) (rho t : R) : C :=
  csum (2 * M + 1) (fun i => let m := (Z.of_nat i - Z.of_nat M)%Z in Cmul (Cmul (cis (- (IZR m * (PI / 2)))) (RtoC (jv m rho))) (cis (- (IZR m * t)))).
(** The Fourier coefficients - M .. M of Diracs at the azimuths phi *)
Definition fourier (n : nat) (M : nat) (alpha phi : nat -> R) (i : nat) : C :=
  csum n (fun k => Cmul (RtoC (alpha k)) (cis (- ((INR i - INR M) * phi k)))).

Lemma fourier_hermitian n M alpha phi : hermitian (2 * M) (fourier n M alpha phi).
Proof.
  intros i Hi. unfold fourier. rewrite csum_conj. apply csum_ext. intros k Hk. rewrite Conj_mul, Conj_RtoC, <- cis_opp. f_equal. f_equal.
  rewrite minus_INR, mult_INR by lia. cbn [INR]. ring.
Qed.

Lemma b_opt_expand M b i : (i < 2 * M + 1)%nat -> b_opt M b i = expand (2 * M) b i.
Proof. apply D_expand. Qed.
Lemma c_opt_expand K c i : (i < K + 1)%nat -> nth i (c_opt K c) C0 = expand K c i.
Proof.
  intro Hi. unfold c_opt. set (f := fun i => _). rewrite (nth_indep _ C0 (f 0%nat)) by (rewrite map_length, seq_length; exact Hi).
  rewrite map_nth, seq_nth by exact Hi. unfold f. apply Dc_expand. exact Hi.
Qed.
Lemma c_opt_length K c : length (c_opt K c) = (K + 1)%nat.
Proof. unfold c_opt. rewrite map_length, seq_length. reflexivity. Qed.

Lemma G_mv jv M n px py b i : (i < length (pairs n))%nat ->
  let g := mtx_fri2signal_ri jv M n px py in
  (mv (2 * M + 1) g b i, mv (2 * M + 1) g b (length (pairs n) + i)%nat) =
  csum (2 * M + 1) (fun j => Cmul (mtx_freq2visi jv M px py (nth i (pairs n) (0, 0)%nat) j) (b_opt M b j)).
Proof.
  intros Hi g. unfold g, mtx_fri2signal_ri. cbn [hermitian_expan].
  change (block_diag (2 * M + 1) (M + 1) (vstack (M + 1) eye (flip_from1 (M + 1))) (vstack (M + 1) eye (neg (flip_from1 (M + 1))))) with (D M).
  rewrite !mv_mm. unfold cpx_mtx2real. rewrite !mv_vstack, !mv_hstack. set (nv := length (pairs n)) in *.
  destruct (Nat.ltb_spec i nv); [|lia]. destruct (Nat.ltb_spec (nv + i) nv); [lia|]. replace (nv + i - nv)%nat with i by lia.
  unfold csum, b_opt. set (bb := mv (2 * M + 1) (D M) b). unfold mv, neg. rewrite <- !bsum_plus.
  apply C_eq; cbn [fst snd]; apply bsum_ext; intros j Hj; unfold Cmul; cbn [fst snd]; ring.
Qed.

Lemma polar px py p : let bx := baseline px p in let by_ := baseline py p in
  sqrt (bx * bx + by_ * by_) * cos (atan2 by_ bx) = bx /\ sqrt (bx * bx + by_ * by_) * sin (atan2 by_ bx) = by_.
Proof. apply atan2_spec. Qed.

Lemma Cabs2_tri a b x y : 0 <= x -> 0 <= y -> Cabs2 a <= x * x -> Cabs2 b <= y * y -> Cabs2 (Cadd a b) <= (x + y) * (x + y).
Proof.
  unfold Cabs2, Cadd. destruct a as [a1 a2], b as [b1 b2]. cbn [fst snd]. intros Hx Hy A B.
  assert (X : (a1 * b1 + a2 * b2) * (a1 * b1 + a2 * b2) <= (x * y) * (x * y)).
  { apply Rle_trans with ((a1 * a1 + a2 * a2) * (b1 * b1 + b2 * b2)).
    - pose proof (Rle_0_sqr (a1 * b2 - a2 * b1)) as Q. unfold Rsqr in Q. nra.
    - apply Rle_trans with ((x * x) * (y * y)); [|nra]. apply Rmult_le_compat; nra. }
  assert (a1 * b1 + a2 * b2 <= x * y) by (assert (0 <= x * y) by nra; nra). nra.
Qed.
Lemma csum_bound n f e : (forall k, (k < n)%nat -> 0 <= e k /\ Cabs2 (f k) <= e k * e k) -> 0 <= bsum n e /\ Cabs2 (csum n f) <= bsum n e * bsum n e.
Proof.
  induction n; intro H.
  - rewrite csum_0. cbn [bsum]. unfold C0, Cabs2. cbn [fst snd]. lra.
  - destruct IHn as [A B]; [intros; apply H; lia|]. destruct (H n ltac:(lia)) as [E1 E2]. rewrite csum_S. cbn [bsum]. split; [lra|]. apply Cabs2_tri; assumption.
Qed.

(** The mapping made by make_G takes the Fourier coefficients of the sources to the visibilities, with exp(- j rho cos t)
    replaced by its truncated series: an error of at most eps in the series is an error of at most eps times the sum of
    the powers in every visibility. *)
Theorem C148_mapping : forall jv M n_mics px py omega c n_src alpha phi b eps, omega <> 0 -> c <> 0 -> 0 <= eps ->
  (forall i, (i < 2 * M + 1)%nat -> b_opt M b i = fourier n_src M alpha phi i) ->
  let qx := fun m => px m / (c / omega) in let qy := fun m => py m / (c / omega) in
  (forall p k, In p (pairs n_mics) -> (k < n_src)%nat ->
     let rho := sqrt (baseline qx p * baseline qx p + baseline qy p * baseline qy p) in let t := phi k - atan2 (baseline qy p) (baseline qx p) in
     Cabs2 (Csub (series jv M rho t) (cis (- (rho * cos t)))) <= eps * eps) ->
  let nv := length (pairs n_mics) in let g := mv (2 * M + 1) (make_G jv M n_mics px py omega c) b in
  forall i, (i < nv)%nat ->
    Cabs2 (Csub (g i, g (nv + i)%nat) (csum n_src (fun k => Cmul (RtoC (alpha k)) (build_mtx_amp (phi k) qx qy (nth i (pairs n_mics) (0, 0)%nat)))))
    <= (eps * bsum n_src (fun k => Rabs (alpha k))) * (eps * bsum n_src (fun k => Rabs (alpha k))).
Proof.
  intros jv M n_mics px py omega c n_src alpha phi b eps Hw Hc He Hb qx qy Hs nv g i Hi.
  unfold g, make_G. fold qx qy. unfold nv. rewrite (G_mv jv M n_mics qx qy b i Hi). fold nv.
  pose proof (nth_In (pairs n_mics) (0, 0)%nat Hi) as I. set (p := nth i (pairs n_mics) (0, 0)%nat) in *.
  set (rho := sqrt (baseline qx p * baseline qx p + baseline qy p * baseline qy p)). set (psi := atan2 (baseline qy p) (baseline qx p)).
  assert (E : csum (2 * M + 1) (fun j => Cmul (mtx_freq2visi jv M qx qy p j) (b_opt M b j)) = csum n_src (fun k => Cmul (RtoC (alpha k)) (series jv M rho (phi k - psi)))).
  { transitivity (csum (2 * M + 1) (fun j => csum n_src (fun k => Cmul (mtx_freq2visi jv M qx qy p j) (Cmul (RtoC (alpha k)) (cis (- ((INR j - INR M) * phi k))))))).
    - apply csum_ext. intros j Hj. rewrite (Hb j Hj). unfold fourier. rewrite <- csum_scal. reflexivity.
    - rewrite csum_swap. apply csum_ext. intros k Hk. unfold series. rewrite <- csum_scal. apply csum_ext. intros j Hj. unfold mtx_freq2visi. cbv zeta. fold rho psi.
      set (m := (Z.of_nat j - Z.of_nat M)%Z).
      replace (cis (- (IZR m * (phi k - psi)))) with (Cmul (cis (IZR m * psi)) (cis (- ((INR j - INR M) * phi k)))); [ring|].
      rewrite <- cis_add. f_equal. unfold m. rewrite minus_IZR, <- !INR_IZR_INZ. ring. }
  rewrite E. rewrite <- csum_sub.
  pose proof (csum_bound n_src (fun k => Csub (Cmul (RtoC (alpha k)) (series jv M rho (phi k - psi))) (Cmul (RtoC (alpha k)) (build_mtx_amp (phi k) qx qy p)))
                (fun k => Rabs (alpha k) * eps)) as [_ B].
  - intros k Hk. split; [apply Rmult_le_pos; [apply Rabs_pos|exact He]|].
    specialize (Hs p k I Hk). cbv zeta in Hs. fold rho psi in Hs.
    assert (E2 : build_mtx_amp (phi k) qx qy p = cis (- (rho * cos (phi k - psi)))).
    { unfold build_mtx_amp. f_equal. f_equal. rewrite cos_minus. destruct (polar qx qy p) as [P1 P2]. fold rho psi in P1, P2. rewrite <- P1 at 1. rewrite <- P2 at 1. ring. }
    rewrite E2. replace (Csub _ _) with (Cmul (RtoC (alpha k)) (Csub (series jv M rho (phi k - psi)) (cis (- (rho * cos (phi k - psi)))))) by ring.
    rewrite Cabs2_mul. unfold RtoC at 1. unfold Cabs2 at 1. cbn [fst snd].
    replace (Rabs (alpha k) * eps * (Rabs (alpha k) * eps)) with ((alpha k * alpha k + 0 * 0) * (eps * eps)); [apply Rmult_le_compat_l; [nra|exact Hs]|].
    assert (Rabs (alpha k) * Rabs (alpha k) = alpha k * alpha k) by (rewrite <- Rabs_mult; apply Rabs_right; nra). nra.
  - rewrite bsum_scal_r in B. rewrite (Rmult_comm eps). exact B.
Qed.
Print Assumptions C148_mapping.

(** ** Half vectors *)
(** The real half vectors of b and of the filter stand for exactly the Hermitian sequences. *)
Theorem C148_expand : forall K M,
  (forall b, hermitian (2 * M) (b_opt M b)) /\
  (forall x, hermitian (2 * M) x -> exists b, forall i, (i < 2 * M + 1)%nat -> b_opt M b i = x i) /\
  (forall b b', (forall i, (i < 2 * M + 1)%nat -> b_opt M b i = b_opt M b' i) -> forall r, (r < 2 * M + 1)%nat -> b r = b' r) /\
  (forall c, length (c_opt K c) = (K + 1)%nat /\ hermitian K (fun i => nth i (c_opt K c) C0)) /\
  (forall x, hermitian K x -> exists c, forall i, (i < K + 1)%nat -> nth i (c_opt K c) C0 = x i) /\
  (forall c c', c_opt K c = c_opt K c' -> forall r, (r < K + 1)%nat -> c r = c' r).
Proof.
  intros K M. split; [|split; [|split; [|split; [|split]]]].
  - intros b i Hi. rewrite !b_opt_expand by lia. apply expand_hermitian. exact Hi.
  - intros x Hx. exists (halve (2 * M) x). intros i Hi. rewrite b_opt_expand by exact Hi. apply expand_halve; [exact Hx|lia].
  - intros b b' E r Hr. rewrite <- (halve_expand (2 * M) b r), <- (halve_expand (2 * M) b' r) by lia. apply halve_ext; [lia|].
    intros i Hi. rewrite <- !b_opt_expand by lia. apply E. lia.
  - intro c. split; [apply c_opt_length|]. intros i Hi. rewrite !c_opt_expand by lia. apply expand_hermitian. exact Hi.
  - intros x Hx. exists (halve K x). intros i Hi. rewrite c_opt_expand by exact Hi. apply expand_halve; [exact Hx|lia].
  - intros c c' E r Hr. rewrite <- (halve_expand K c r), <- (halve_expand K c' r) by lia. apply halve_ext; [lia|].
    intros i Hi. rewrite <- !c_opt_expand by lia. rewrite E. reflexivity.
Qed.
Print Assumptions C148_expand.

(** the filter applied to the samples: c_0 b_(K + n) + .. + c_K b_n *)
Definition filtered (K M : nat) (b c : vect) (n : nat) : C := csum (K + 1) (fun k => Cmul (nth k (c_opt K c) C0) (b_opt M b (K + n - k)%nat)).
Lemma filtered_conv K M b c n : (K + n < 2 * M + 1)%nat -> filtered K M b c n = conv K (expand (2 * M) b) (expand K c) n.
Proof. intro Hn. unfold filtered, conv. apply csum_ext. intros k Hk. rewrite c_opt_expand, b_opt_expand by lia. reflexivity. Qed.

(** The two real matrices of the shrunk output are the convolution: T(b) c = R(c) b, and it is zero exactly when the
    filter annihilates b wherever it fits. *)
Theorem C148_convolution : forall K M b c, (K <= 2 * M)%nat ->
  (forall r, (r < 2 * M + 1 - K)%nat -> mv (K + 1) (Tmtx K M b) c r = mv (2 * M + 1) (Rmtx K M c) b r) /\
  ((forall r, (r < 2 * M + 1 - K)%nat -> mv (2 * M + 1) (Rmtx K M c) b r = 0) <-> (forall n, (K + n < 2 * M + 1)%nat -> filtered K M b c n = C0)).
Proof.
  intros K M b c H. split.
  - intros r Hr. rewrite T_mv, R_mv by assumption. reflexivity.
  - rewrite (R_zero K M H b c). split; intros Z n Hn.
    + rewrite filtered_conv by exact Hn. apply Z. lia.
    + rewrite <- filtered_conv by lia. apply Z. lia.
Qed.
Print Assumptions C148_convolution.

(** ** The search *)
Definition inverses (M na : nat) (bands : list band) : Prop := forall d, In d bands -> forall i j, (i < 2 * M + 1)%nat -> (j < 2 * M + 1)%nat ->
  bsum (2 * M + 1) (fun k => bsum na (fun r => b_G d r i * b_G d r k) * b_inv d k j) = kron i j.
(** || a - G b ||^2 of a band *)
Definition misfit (M na : nat) (d : band) (b : vect) : R := bsum na (fun i => (b_a d i - mv (2 * M + 1) (b_G d) b i) ^ 2).
Lemma misfit_residual M na d b : misfit M na d b = residual M na d b.
Proof. unfold misfit, residual. apply bsum_ext. intros; ring. Qed.

Lemma foldM_inv {A} (f : A -> option mat) : forall l acc m,
  foldM (fun s d => let* x := f d in Some (fun i j => s i j + x i j)) l acc = Some m ->
  exists xs, Forall2 (fun d x => f d = Some x) l xs /\ forall i j, m i j = acc i j + Rsum (map (fun x : mat => x i j) xs).
Proof.
  induction l as [|d l IH]; intros acc m H; cbn [foldM] in H.
  - exists []. split; [constructor|]. intros i j. cbn. assert (E : acc = m) by congruence. rewrite E. lra.
  - destruct (f d) as [x|] eqn:E; cbn [bind] in H; [|discriminate]. destruct (IH _ _ H) as [xs [F V]]. exists (x :: xs). split; [constructor; assumption|].
    intros i j. rewrite V. unfold Rsum. cbn [map fold_right]. lra.
Qed.

Lemma Rsum_nonneg l : (forall e, In e l -> 0 <= e) -> 0 <= Rsum l.
Proof. induction l; intro H; unfold Rsum in *; cbn [fold_right]; [lra|]. pose proof (H a (or_introl eq_refl)). assert (0 <= fold_right Rplus 0 l) by (apply IHl; intros; apply H; right; assumption). lra. Qed.

Lemma Rsum_zero_each l : (forall e, In e l -> 0 <= e) -> Rsum l = 0 -> forall e, In e l -> e = 0.
Proof.
  induction l; intros H E e He; [destruct He|]. unfold Rsum in *. cbn [fold_right] in E. pose proof (H a (or_introl eq_refl)).
  assert (0 <= fold_right Rplus 0 l) by (apply (Rsum_nonneg l); intros; apply H; right; assumption). destruct He as [->|He]; [lra|]. apply IHl; [intros; apply H; right; assumption|lra|exact He].
Qed.
Lemma Rsum_zero_of l : (forall e, In e l -> e = 0) -> Rsum l = 0.
Proof. induction l; intro H; unfold Rsum in *; cbn [fold_right]; [reflexivity|]. rewrite (H a (or_introl eq_refl)), IHl; [lra|]. intros; apply H; right; assumption. Qed.
Lemma Forall2_weaken {A B} (P Q : A -> B -> Prop) l m : (forall a b, P a b -> Q a b) -> Forall2 P l m -> Forall2 Q l m.
Proof. intros H F. induction F; constructor; auto. Qed.

Section Search.
Variables K M na : nat.
Hypothesis HKM : (K <= 2 * M)%nat.
Let L := (2 * M + 1)%nat.
Let o := (L - K)%nat.
Variable solve : nat -> nat -> mat -> mat -> option mat.
Hypothesis Hsolve : solve_ok solve.
Variable bands : list band.
Hypothesis Hinv : inverses M na bands.

Lemma band_inv d : In d bands -> forall i j, (i < L)%nat -> (j < L)%nat -> bsum L (fun k => GtG na (b_G d) i k * b_inv d k j) = kron i j.
Proof. intros Hd i j Hi Hj. rewrite <- (Hinv d Hd i j Hi Hj). reflexivity. Qed.

Let T d := Tmtx K M (beta M na d).
Let Q Rc d := R_GtGinv_Rt M Rc d.

Lemma obj_inv Rc m : mtx_obj K M solve na bands Rc = Some m ->
  exists xs, Forall2 (fun d X => forall w r, (r < o)%nat -> mv o (Q Rc d) (mv (K + 1) X w) r = mv (K + 1) (T d) w r) bands xs /\
    forall u w, ip (K + 1) u (mv (K + 1) m w) = Rsum (map (fun p => ip o (mv (K + 1) (T (fst p)) u) (mv (K + 1) (snd p) w)) (combine bands xs)).
Proof.
  intro H. unfold mtx_obj in H. fold L o in H.
  set (f := fun d => let* x := solve o (K + 1) (Q Rc d) (T d) in Some (mm o (transpose (T d)) x)).
  assert (H' : foldM (fun s d => let* x := f d in Some (fun i j => s i j + x i j)) bands zeros = Some m).
  { rewrite <- H. generalize zeros as acc. clear. induction bands as [|d l IH]; intro acc; [reflexivity|]. cbn [foldM]. unfold f at 1.
    unfold T, Q. destruct (solve o (K + 1) (R_GtGinv_Rt M Rc d) (Tmtx K M (beta M na d))) as [x|]; cbn [bind]; [|reflexivity]. apply IH. }
  clear H. apply foldM_inv in H'. destruct H' as [ys [F V]].
  assert (E : exists xs, Forall2 (fun d X => solve o (K + 1) (Q Rc d) (T d) = Some X) bands xs /\ ys = map (fun p => mm o (transpose (T (fst p))) (snd p)) (combine bands xs)).
  { clear V. induction F as [|d y l ys E F IH].
    - exists []. split; [constructor|reflexivity].
    - destruct IH as [xs [F2 ->]]; [intros d' Hd'; apply Hinv; right; exact Hd'|]. unfold f in E. destruct (solve o (K + 1) (Q Rc d) (T d)) as [x|] eqn:S1; cbn [bind] in E; [|discriminate].
      exists (x :: xs). split; [constructor; assumption|]. cbn [combine map fst snd]. f_equal. congruence. }
  destruct E as [xs [F2 ->]]. exists xs. split.
  - clear -F2 Hsolve. induction F2 as [|d X l xs E F IH]; constructor; [|apply IH]. intros w r Hr. rewrite <- mv_mm. unfold mv. apply bsum_ext. intros j Hj. f_equal.
    apply (Hsolve _ _ _ _ _ E); assumption.
  - intros u w. clear -V.
    assert (E : forall ps : list (band * mat), ip (K + 1) u (mv (K + 1) (fun i j => Rsum (map (fun x : mat => x i j) (map (fun p => mm o (transpose (T (fst p))) (snd p)) ps))) w) =
                 Rsum (map (fun p => ip o (mv (K + 1) (T (fst p)) u) (mv (K + 1) (snd p) w)) ps)).
    { induction ps as [|p ps IH].
      - cbn. apply ip_zero_r. intros. apply mv_none. reflexivity.
      - cbn [map Rsum fold_right]. unfold Rsum in *. cbn [map fold_right].
        rewrite <- IH. rewrite (ip_ext _ u _ u (fun i => mv (K + 1) (mm o (transpose (T (fst p))) (snd p)) w i +
          mv (K + 1) (fun i j => fold_right Rplus 0 (map (fun x : mat => x i j) (map (fun p => mm o (transpose (T (fst p))) (snd p)) ps))) w i)).
        + rewrite ip_plus_r. f_equal.
          transitivity (ip (K + 1) (mv o (transpose (T (fst p))) (mv (K + 1) (snd p) w)) u).
          * rewrite ip_comm. apply ip_ext; auto. intros. apply mv_mm.
          * rewrite mv_transpose_ip, ip_comm. reflexivity.
        + auto.
        + intros i Hi. unfold mv. rewrite <- bsum_plus. apply bsum_ext. intros; ring. }
    rewrite <- E. apply ip_ext; auto. intros i Hi. unfold mv. apply bsum_ext. intros j Hj. rewrite V. unfold zeros. rewrite Rplus_0_l. reflexivity.
Qed.

(** the objective is symmetric and not negative *)
Lemma obj_term Rc d X : In d bands -> (forall w r, (r < o)%nat -> mv o (Q Rc d) (mv (K + 1) X w) r = mv (K + 1) (T d) w r) ->
  forall u w, ip o (mv (K + 1) (T d) u) (mv (K + 1) X w) =
    ip na (mv L (b_G d) (lift K M d Rc (mv (K + 1) X u))) (mv L (b_G d) (lift K M d Rc (mv (K + 1) X w))).
Proof.
  intros Hd HX u w. unfold L. rewrite <- (Q_ip K M na d (band_inv d Hd)).
  rewrite (ip_comm _ (mv (K + 1) X u)). fold L o.
  transitivity (ip o (mv o (Q Rc d) (mv (K + 1) X u)) (mv (K + 1) X w)); [apply ip_ext; auto; intros; symmetry; apply HX; assumption|].
  rewrite ip_comm. unfold Q, o, L. rewrite (Q_ip K M na d (band_inv d Hd)), (ip_comm na), <- (Q_ip K M na d (band_inv d Hd)), ip_comm. reflexivity.
Qed.
Lemma obj_form Rc m : mtx_obj K M solve na bands Rc = Some m ->
  (forall u w, ip (K + 1) u (mv (K + 1) m w) = ip (K + 1) w (mv (K + 1) m u)) /\ forall u, 0 <= ip (K + 1) u (mv (K + 1) m u).
Proof.
  intro H. destruct (obj_inv Rc m H) as [xs [F V]]. split.
  - intros u w. rewrite !V. f_equal. apply map_ext_in. intros [d X] Hp. cbn [fst snd].
    assert (Hd : In d bands) by (eapply in_combine_l; exact Hp).
    assert (HX : forall w r, (r < o)%nat -> mv o (Q Rc d) (mv (K + 1) X w) r = mv (K + 1) (T d) w r).
    { clear -F Hp. induction F; [destruct Hp|]. cbn in Hp. destruct Hp as [E|Hp]; [injection E as <- <-; assumption|apply IHF; exact Hp]. }
    rewrite !(obj_term Rc d X Hd HX). apply ip_comm.
  - intro u. rewrite V. apply Rsum_nonneg. intros e He. apply in_map_iff in He. destruct He as [[d X] [<- Hp]]. cbn [fst snd].
    assert (Hd : In d bands) by (eapply in_combine_l; exact Hp).
    assert (HX : forall w r, (r < o)%nat -> mv o (Q Rc d) (mv (K + 1) X w) r = mv (K + 1) (T d) w r).
    { clear -F Hp. induction F; [destruct Hp|]. cbn in Hp. destruct Hp as [E|Hp]; [injection E as <- <-; assumption|apply IHF; exact Hp]. }
    rewrite (obj_term Rc d X Hd HX). apply ip_self_nonneg.
Qed.

(** the objective at its own filter: the excess of the constrained fits *)
Lemma obj_excess c m : mtx_obj K M solve na bands (Rmtx K M c) = Some m ->
  exists zs, Forall2 (fun d z => forall r, (r < o)%nat -> mv o (Q (Rmtx K M c) d) z r = mv L (Rmtx K M c) (beta M na d) r) bands zs /\
    ip (K + 1) c (mv (K + 1) m c) = Rsum (map (fun p => ip o (mv L (Rmtx K M c) (beta M na (fst p))) (snd p)) (combine bands zs)).
Proof.
  intro H. destruct (obj_inv _ _ H) as [xs [F V]]. exists (map (fun X => mv (K + 1) X c) xs). split.
  - clear -F HKM. induction F as [|d X l xs E F IH]; constructor; [|exact IH]. intros r Hr. rewrite E by exact Hr. unfold T. rewrite T_mv by assumption. unfold L. rewrite R_mv by assumption. reflexivity.
  - rewrite V. clear -HKM. f_equal. revert xs. induction bands as [|d l IH]; intro xs; [reflexivity|]. destruct xs as [|X xs]; [reflexivity|].
    cbn [combine map fst snd]. f_equal; [|apply IH]. apply ip_ext; auto. intros r Hr. unfold T. rewrite T_mv by assumption. unfold L. rewrite R_mv by assumption. reflexivity.
Qed.

(** the bordered system: c0 . c = 1 and m c = - lambda c0 *)
Lemma bordered m c0 x : solve (K + 2) 1 (mtx_loop K m c0) (rhs K) = Some x ->
  let c := fun i => x i 0%nat in ip (K + 1) c0 c = 1 /\ forall i, (i < K + 1)%nat -> mv (K + 1) m c i = - (x (K + 1)%nat 0%nat) * c0 i.
Proof.
  intros H c. pose proof (Hsolve _ _ _ _ _ H) as E.
  assert (X : forall i, (i < K + 2)%nat -> mv (K + 1 + 1) (mtx_loop K m c0) c i = if Nat.ltb i (K + 1) then 0 else 1).
  { intros i Hi. replace (K + 1 + 1)%nat with (K + 2)%nat by lia. exact (E i 0%nat Hi ltac:(lia)). }
  unfold mtx_loop in X. split.
  - specialize (X (K + 1)%nat ltac:(lia)). rewrite mv_vstack, Nat.ltb_irrefl, Nat.sub_diag, mv_hstack, mv_zeros in X. unfold mv, transpose, col in X. unfold ip. lra.
  - intros i Hi. specialize (X i ltac:(lia)). rewrite mv_vstack in X. destruct (Nat.ltb_spec i (K + 1)); [|lia]. rewrite mv_hstack in X.
    unfold col in X. unfold mv at 2 in X. cbn [bsum] in X. unfold c in X at 2. rewrite Nat.add_0_r in X. lra.
Qed.

(** One iteration: the new filter minimises the quadratic of the previous one among the filters with c0 . c = 1. *)
Lemma step_best Rc m c0 x : mtx_obj K M solve na bands Rc = Some m -> solve (K + 2) 1 (mtx_loop K m c0) (rhs K) = Some x ->
  let c := fun i => x i 0%nat in ip (K + 1) c0 c = 1 /\
  forall c', ip (K + 1) c0 c' = 1 -> ip (K + 1) c (mv (K + 1) m c) <= ip (K + 1) c' (mv (K + 1) m c').
Proof.
  intros Hm Hx c. destruct (bordered m c0 x Hx) as [E1 E2]. fold c in E1, E2. split; [exact E1|]. intros c' E3.
  destruct (obj_form Rc m Hm) as [Sy Po]. set (v := fun i => c' i - c i). specialize (Po v).
  assert (C : ip (K + 1) v (mv (K + 1) m c) = 0).
  { rewrite (ip_ext _ v _ v (fun i => - x (K + 1)%nat 0%nat * c0 i)) by auto. rewrite ip_scal_r. unfold v. rewrite ip_sub_l, (ip_comm _ c'), (ip_comm _ c), E1, E3. ring. }
  assert (X : ip (K + 1) v (mv (K + 1) m v) = ip (K + 1) c' (mv (K + 1) m c') - ip (K + 1) c (mv (K + 1) m c) - 2 * ip (K + 1) v (mv (K + 1) m c)).
  { unfold v. rewrite !ip_sub_l. rewrite (ip_ext _ c' (mv (K + 1) m (fun i => c' i - c i)) c' (fun i => mv (K + 1) m c' i - mv (K + 1) m c i)) by (auto; intros; apply mv_minus).
    rewrite (ip_ext _ c (mv (K + 1) m (fun i => c' i - c i)) c (fun i => mv (K + 1) m c' i - mv (K + 1) m c i)) by (auto; intros; apply mv_minus).
    rewrite !ip_minus_r, (Sy c c'). ring. }
  rewrite C in X. lra.
Qed.

(** The matrix of the objective before iteration n from the start c0, and the filters found with their errors. *)
Fixpoint stage (c0 : vect) (n : nat) : option mat :=
  match n with
  | O => mtx_obj K M solve na bands (Rmtx K M c0)
  | S n => let* m := stage c0 n in let* x := solve (K + 2) 1 (mtx_loop K m c0) (rhs K) in mtx_obj K M solve na bands (Rmtx K M (fun i => x i 0%nat))
  end.
Definition found (c0 : vect) (n : nat) (c : vect) (e : R) : Prop := exists m x m',
  stage c0 n = Some m /\ solve (K + 2) 1 (mtx_loop K m c0) (rhs K) = Some x /\ c = (fun i => x i 0%nat) /\
  mtx_obj K M solve na bands (Rmtx K M c) = Some m' /\ 0 <= ip (K + 1) c (mv (K + 1) m' c) /\ e = sqrt (ip (K + 1) c (mv (K + 1) m' c)).

Definition best_of (best : option (R * vect)) (P : R -> vect -> Prop) : Prop :=
  match best with None => forall e c, ~ P e c | Some (e, c) => P e c /\ forall e' c', P e' c' -> e <= e' end.
Lemma best_ext best (P P' : R -> vect -> Prop) : (forall e c, P e c <-> P' e c) -> best_of best P -> best_of best P'.
Proof. intro H. destruct best as [[e c]|]; cbn; [intros [A B]; split; [apply H; exact A|intros; eapply B; apply H; eassumption]|intros A e c X; apply (A e c); apply H; exact X]. Qed.
Lemma keep_best best P e c : best_of best P -> best_of (keep best e c) (fun e' c' => P e' c' \/ (e = Some e' /\ c' = c)).
Proof.
  intro H. unfold keep. destruct e as [e|].
  - destruct best as [[e0 c0]|]; cbn in *.
    + destruct H as [H1 H2]. destruct (Rlt_dec e e0); cbn.
      * split; [right; split; reflexivity|]. intros e' c' [Pe|[E ->]]; [specialize (H2 _ _ Pe); lra|assert (e = e') by congruence; lra].
      * split; [left; exact H1|]. intros e' c' [Pe|[E ->]]; [apply (H2 _ _ Pe)|assert (e = e') by congruence; lra].
    + split; [right; split; reflexivity|]. intros e' c' [Pe|[E ->]]; [destruct (H _ _ Pe)|assert (e = e') by congruence; lra].
  - eapply best_ext; [|exact H]. intros e' c'. split; [left; assumption|intros [A|[A _]]; [exact A|discriminate]].
Qed.
Lemma stage_stop c0 n m : stage c0 n = Some m -> solve (K + 2) 1 (mtx_loop K m c0) (rhs K) = None -> forall j, stage c0 (S n + j) = None.
Proof.
  intros H S1 j. induction j.
  - rewrite Nat.add_0_r. cbn [stage]. rewrite H. cbn [bind]. rewrite S1. reflexivity.
  - replace (S n + S j)%nat with (S (S n + j)) by lia. cbn [stage]. change (stage c0 (S n + j)) with (stage c0 (S n + j)) in *.
    rewrite IHj. reflexivity.
Qed.
Lemma inner_best c0 : forall it n m best best' P, stage c0 n = Some m -> best_of best P -> inner K M solve na bands c0 it m best = Some best' ->
  best_of best' (fun e c => P e c \/ exists k, (n <= k < n + it)%nat /\ found c0 k c e).
Proof.
  induction it; intros n m best best' P Hs Hb H; cbn [inner] in H.
  - assert (best = best') by congruence. subst best'. eapply best_ext; [|exact Hb]. intros e c. split; [left; assumption|]. intros [A|[k [Hk _]]]; [exact A|lia].
  - destruct (solve (K + 2) 1 (mtx_loop K m c0) (rhs K)) as [x|] eqn:Sx.
    + set (c := fun i => x i 0%nat) in *. destruct (mtx_obj K M solve na bands (Rmtx K M c)) as [m'|] eqn:Em; cbn [bind] in H; [|discriminate].
      assert (St : stage c0 (S n) = Some m') by (cbn [stage]; rewrite Hs; cbn [bind]; rewrite Sx; cbn [bind]; exact Em).
      pose proof (IHit (S n) m' _ _ _ St (keep_best best P (fitting_error K m' c) c Hb) H) as R. eapply best_ext; [|exact R].
      intros e c'. split.
      * intros [[Pe|[Fe ->]]|[k [Hk Fk]]]; [left; exact Pe| |right; exists k; split; [lia|exact Fk]].
        right. exists n. split; [lia|]. exists m, x, m'. unfold fitting_error in Fe. cbv zeta in Fe. destruct (Rlt_dec _ 0) as [|Hn]; [discriminate|].
        split; [exact Hs|]. split; [exact Sx|]. split; [reflexivity|]. split; [exact Em|]. split; [apply Rnot_lt_le in Hn; exact Hn|congruence].
      * intros [Pe|[k [Hk Fk]]]; [left; left; exact Pe|]. destruct (Nat.eq_dec k n) as [->|Nk]; [|right; exists k; split; [lia|exact Fk]].
        left. right. destruct Fk as [m1 [x1 [m2 [A [B [-> [D0 [Nn ->]]]]]]]]. assert (m1 = m) by congruence. subst m1. assert (x1 = x) by congruence. subst x1.
        fold c in D0, Nn |- *. assert (m2 = m') by congruence. subst m2. split; [|reflexivity]. unfold fitting_error. cbv zeta. destruct (Rlt_dec _ 0) as [Hn|]; [lra|reflexivity].
    + assert (best = best') by congruence. subst best'. eapply best_ext; [|exact Hb]. intros e c. split; [left; assumption|]. intros [A|[k [Hk Fk]]]; [exact A|].
      exfalso. destruct Fk as [m1 [x1 [m2 [A [B _]]]]]. destruct (Nat.eq_dec k n) as [->|Nk]; [congruence|].
      pose proof (stage_stop c0 n m Hs Sx (k - S n)) as Z. replace (S n + (k - S n))%nat with k in Z by lia. congruence.
Qed.
Lemma search_best max_iter : forall starts best best' P, best_of best P ->
  foldM (fun best c0 => let* mtx := mtx_obj K M solve na bands (Rmtx K M c0) in inner K M solve na bands c0 max_iter mtx best) starts best = Some best' ->
  best_of best' (fun e c => P e c \/ exists c0 n, In c0 starts /\ (n < max_iter)%nat /\ found c0 n c e).
Proof.
  induction starts as [|c0 l IH]; intros best best' P Hb H; cbn [foldM] in H.
  - assert (best = best') by congruence. subst best'. eapply best_ext; [|exact Hb]. intros e c. split; [left; assumption|]. intros [A|[c0 [n [[] _]]]]. exact A.
  - destruct (mtx_obj K M solve na bands (Rmtx K M c0)) as [m|] eqn:Em; cbn [bind] in H; [|discriminate].
    destruct (inner K M solve na bands c0 max_iter m best) as [b1|] eqn:Ei; cbn [bind] in H; [|discriminate].
    pose proof (inner_best c0 max_iter 0%nat m best b1 P Em Hb Ei) as B1. eapply best_ext; [|exact (IH _ _ _ B1 H)]. intros e c. split.
    + intros [[A|[k [Hk Fk]]]|[c1 [n [I [Hn Fn]]]]]; [left; exact A|right; exists c0, k; split; [left; reflexivity|split; [lia|exact Fk]]|].
      right. exists c1, n. split; [right; exact I|]. split; assumption.
    + intros [A|[c1 [n [[->|I] [Hn Fn]]]]]; [left; left; exact A|left; right; exists n; split; [lia|exact Fn]|]. right. exists c1, n. auto.
Qed.

(** the excess and the fit of one band, for the solution of compute_b *)
Lemma compute_b_fit Rc d b : In d bands -> compute_b K M solve na Rc d = Some b ->
  exists y, (forall r, (r < o)%nat -> mv o (Q Rc d) y r = mv L Rc (beta M na d) r) /\ b = fit K M na d Rc y.
Proof.
  intros Hd H. unfold compute_b in H. fold L o in H. destruct (solve o 1 (R_GtGinv_Rt M Rc d) (col (mv L Rc (beta M na d)))) as [Y|] eqn:E; cbn [bind] in H; [|discriminate].
  exists (fun r => Y r 0%nat). split.
  - intros r Hr. exact (Hsolve _ _ _ _ _ E r 0%nat Hr ltac:(lia)).
  - unfold fit, lift. fold L o. congruence.
Qed.

(** ** What dirac_recon returns *)
Lemma recon_inv max_iter starts c e bs : dirac_recon K M solve na bands max_iter starts = Some (c, e, bs) ->
  (exists c0 n, In c0 starts /\ (n < max_iter)%nat /\ found c0 n c e) /\
  (forall c0 n c' e', In c0 starts -> (n < max_iter)%nat -> found c0 n c' e' -> e <= e') /\
  mapM (compute_b K M solve na (Rmtx K M c)) bands = Some bs.
Proof.
  intro H. unfold dirac_recon in H. destruct (search K M solve na bands max_iter starts) as [best|] eqn:Es; cbn [bind] in H; [|discriminate].
  destruct best as [[e1 c1]|]; cbn [bind] in H; [|discriminate]. cbn [fst snd] in H.
  destruct (mapM (compute_b K M solve na (Rmtx K M c1)) bands) as [bs1|] eqn:Em; cbn [bind] in H; [|discriminate].
  assert (Ec : c1 = c) by congruence. assert (Ee : e1 = e) by congruence. assert (Eb : bs1 = bs) by congruence. subst c1 e1 bs1.
  unfold search in Es. pose proof (search_best max_iter starts None (Some (e, c)) (fun _ _ => False) ltac:(cbn; tauto) Es) as B. cbn in B.
  destruct B as [[[]|X] Y]. split; [exact X|]. split; [|exact Em]. intros c0 n c' e' I Hn F. apply (Y e' c'). right. exists c0, n. auto.
Qed.
End Search.

(** ** Theorems about the search and the fit *)
(** Each filter found has c0 . c = 1 for its start c0 and minimises the quadratic of the step before among such filters;
    the filter returned is one of those found, and none has a smaller error. *)
Theorem C148_search : forall K M na solve bands max_iter starts c e bs, (K <= 2 * M)%nat -> solve_ok solve -> inverses M na bands ->
  dirac_recon K M solve na bands max_iter starts = Some (c, e, bs) ->
  (exists c0 n, In c0 starts /\ (n < max_iter)%nat /\ found K M na solve bands c0 n c e) /\
  (forall c0 n c' e', In c0 starts -> (n < max_iter)%nat -> found K M na solve bands c0 n c' e' -> e <= e') /\
  (forall c0 n c' e', found K M na solve bands c0 n c' e' -> bsum (K + 1) (fun i => c0 i * c' i) = 1 /\
     exists m, stage K M na solve bands c0 n = Some m /\
       forall d, bsum (K + 1) (fun i => c0 i * d i) = 1 -> quadratic (K + 1) m c' <= quadratic (K + 1) m d).
Proof.
  intros K M na solve bands max_iter starts c e bs HK Hs Hi H. destruct (recon_inv K M na HK solve bands max_iter starts c e bs H) as [A [B _]].
  split; [exact A|]. split; [exact B|]. intros c0 n c' e' F. destruct F as [m [x [m' [S1 [S2 [-> _]]]]]].
  assert (O : exists Rc, mtx_obj K M solve na bands Rc = Some m).
  { destruct n; cbn [stage] in S1; [eexists; exact S1|]. destruct (stage K M na solve bands c0 n); cbn [bind] in S1; [|discriminate].
    destruct (solve _ _ _ _) in S1; cbn [bind] in S1; [|discriminate]. eexists; exact S1. }
  destruct O as [Rc O]. destruct (step_best K M na HK solve Hs bands Hi Rc m c0 x O S2) as [X Y]. split; [exact X|]. exists m. split; [exact S1|]. exact Y.
Qed.
Print Assumptions C148_search.

(** For every band the samples returned are annihilated by the filter, no annihilated samples fit the measurements
    better, and the square of the error is what the constraint costs over the best fit of all, summed over the bands. *)
Theorem C148_fit : forall K M na solve bands max_iter starts c e bs, (K <= 2 * M)%nat -> solve_ok solve -> inverses M na bands ->
  dirac_recon K M solve na bands max_iter starts = Some (c, e, bs) ->
  0 <= e /\
  Forall2 (fun d b => (forall n, (K + n < 2 * M + 1)%nat -> filtered K M b c n = C0) /\
                      (forall b', (forall n, (K + n < 2 * M + 1)%nat -> filtered K M b' c n = C0) -> misfit M na d b <= misfit M na d b')) bands bs /\
  exists least, Forall2 (fun d q => (exists b, misfit M na d b = q) /\ forall b, q <= misfit M na d b) bands least /\
    e ^ 2 = Rsum (map (fun p => misfit M na (fst p) (snd p)) (combine bands bs)) - Rsum least.
Proof.
  intros K M na solve bands max_iter starts c e bs HK Hs Hi H. destruct (recon_inv K M na HK solve bands max_iter starts c e bs H) as [[c0 [n [_ [_ F]]]] [_ Em]].
  destruct F as [m [x [m' [_ [_ [_ [O [Po ->]]]]]]]].
  destruct (obj_excess K M na HK solve Hs bands Hi c m' O) as [zs [FZ EZ]]. split; [apply sqrt_pos|].
  assert (BF : Forall2 (fun d b => In d bands /\ exists y, (forall r, (r < 2 * M + 1 - K)%nat -> mv (2 * M + 1 - K) (R_GtGinv_Rt M (Rmtx K M c) d) y r = mv (2 * M + 1) (Rmtx K M c) (beta M na d) r) /\
                 b = fit K M na d (Rmtx K M c) y) bands bs).
  { assert (G : forall l bs, (forall d, In d l -> In d bands) -> mapM (compute_b K M solve na (Rmtx K M c)) l = Some bs ->
        Forall2 (fun d b => In d bands /\ exists y, (forall r, (r < 2 * M + 1 - K)%nat -> mv (2 * M + 1 - K) (R_GtGinv_Rt M (Rmtx K M c) d) y r = mv (2 * M + 1) (Rmtx K M c) (beta M na d) r) /\
                 b = fit K M na d (Rmtx K M c) y) l bs).
    { induction l as [|d l IH]; intros bs' Hl E; cbn [mapM] in E; [assert (E' : [] = bs') by congruence; rewrite <- E'; constructor|].
      destruct (compute_b K M solve na (Rmtx K M c) d) as [b|] eqn:Eb; cbn [bind] in E; [|discriminate].
      destruct (mapM (compute_b K M solve na (Rmtx K M c)) l) as [bs2|] eqn:E2; cbn [bind] in E; [|discriminate].
      assert (E' : b :: bs2 = bs') by congruence. rewrite <- E'. constructor; [|apply IH; [intros; apply Hl; right; assumption|reflexivity]].
      split; [apply Hl; left; reflexivity|]. apply (compute_b_fit K M na HK solve Hs bands _ d b); [apply Hl; left; reflexivity|exact Eb]. }
    apply G; [auto|exact Em]. }
  split.
  - eapply Forall2_weaken; [|exact BF]. intros d b [Hd [y [Hy ->]]]. pose proof (band_inv M na bands Hi d Hd) as HI. split.
    + apply (proj2 (C148_convolution K M (fit K M na d (Rmtx K M c) y) c HK)). intros r Hr. apply (fit_constraint K M na d (Rmtx K M c) y Hy r Hr).
    + intros b' Hb'. rewrite !misfit_residual. apply (fit_best K M na d HI (Rmtx K M c) y Hy). apply (proj2 (C148_convolution K M b' c HK)). exact Hb'.
  - exists (map (fun d => misfit M na d (beta M na d)) bands). split.
    + clear -Hi. assert (G : forall l, (forall d, In d l -> In d bands) -> Forall2 (fun d q => (exists b, misfit M na d b = q) /\ forall b, q <= misfit M na d b) l (map (fun d => misfit M na d (beta M na d)) l)).
      { induction l as [|d l IH]; intro Hl; cbn [map]; constructor; [|apply IH; intros; apply Hl; right; assumption].
        split; [eexists; reflexivity|]. intro b. rewrite !misfit_residual.
        pose proof (band_inv M na bands Hi d (Hl d (or_introl eq_refl))) as HI.
        pose proof (residual_beta M na d HI (fun i => b i - beta M na d i)) as E.
        rewrite (residual_ext M na d _ b) in E by (intros; ring). rewrite E. match goal with |- ?a <= ?a + ?q => assert (0 <= q) by apply ip_self_nonneg end. lra. }
      apply G. auto.
    + rewrite <- Rsqr_pow2, Rsqr_sqrt by exact Po. rewrite EZ. clear EZ Po O Em H. 
      revert zs FZ. induction BF as [|d b l bs [Hd [y [Hy ->]]] BF IH]; intros zs FZ.
      * cbn. unfold Rsum. cbn. lra.
      * inversion FZ as [|d' z l' zs' Hz FZ' E1 E2]; subst. cbn [combine map fst snd]. unfold Rsum in *. cbn [fold_right].
        pose proof (band_inv M na bands Hi d Hd) as HI.
        rewrite !misfit_residual, (fit_residual K M na d HI (Rmtx K M c) y Hy), (excess_unique K M na d HI (Rmtx K M c) y Hy z Hz).
        specialize (IH zs' FZ'). lra.
Qed.
Print Assumptions C148_fit.

(** ** Sources on the circle *)
Lemma cpow_cis a n : cpow (cis a) n = cis (INR n * a).
Proof.
  induction n; [cbn [cpow INR]; rewrite Rmult_0_l, cis_0; reflexivity|]. cbn [cpow]. rewrite IHn, <- cis_add, S_INR. f_equal. ring.
Qed.
Lemma cpow_add z a b : cpow z (a + b) = Cmul (cpow z a) (cpow z b).
Proof. induction a; cbn [cpow Nat.add]; [ring|rewrite IHa; ring]. Qed.
Lemma fourier_pow n M alpha phi i : fourier n M alpha phi i = csum n (fun k => Cmul (Cmul (RtoC (alpha k)) (cis (INR M * phi k))) (cpow (cis (- phi k)) i)).
Proof.
  unfold fourier. apply csum_ext. intros k Hk. rewrite cpow_cis.
  replace (cis (- ((INR i - INR M) * phi k))) with (Cmul (cis (INR M * phi k)) (cis (INR i * - phi k))) by (rewrite <- cis_add; f_equal; ring). ring.
Qed.
Lemma conv_pow K n0 (w u : nat -> C) x h n : (forall k, (k < K + 1)%nat -> x (K + n - k)%nat = csum n0 (fun l => Cmul (w l) (cpow (u l) (K + n - k)))) ->
  conv K x h n = csum n0 (fun l => Cmul (Cmul (w l) (ev h K (u l))) (cpow (u l) n)).
Proof.
  intro H. unfold conv.
  transitivity (csum (K + 1) (fun k => csum n0 (fun l => Cmul (Cmul (w l) (cpow (u l) n)) (Cmul (h k) (cpow (u l) (K - k)))))).
  - apply csum_ext. intros k Hk. rewrite (H k Hk), <- csum_scal. apply csum_ext. intros l Hl. replace (K + n - k)%nat with (n + (K - k))%nat by lia. rewrite cpow_add. ring.
  - rewrite csum_swap. apply csum_ext. intros l Hl. rewrite csum_scal, <- ev_csum. ring.
Qed.

(** the Hermitian filter with the roots exp(- j phi_k) *)
Fixpoint true_filter (phi : nat -> R) (n : nat) (k : nat) : C :=
  match n with
  | O => C1
  | S n => let a := Cmul (0, 1) (cis (phi n / 2)) in
           Cadd (if Nat.leb k n then Cmul a (true_filter phi n k) else C0) (match k with O => C0 | S k => Cmul (Conj a) (true_filter phi n k) end)
  end.
Lemma true_hermitian phi n : hermitian n (true_filter phi n).
Proof.
  induction n; intros k Hk.
  - cbn. unfold Conj, C1. cbn [fst snd]. f_equal. lra.
  - cbn [true_filter]. set (a := Cmul (0, 1) (cis (phi n / 2))). rewrite Conj_add.
    assert (C00 : Conj C0 = C0) by (unfold Conj, C0; cbn [fst snd]; f_equal; lra).
    assert (X : (if Nat.leb k n then Cmul a (true_filter phi n k) else C0) = Conj (match (S n - k)%nat with O => C0 | S k0 => Cmul (Conj a) (true_filter phi n k0) end)).
    { destruct (Nat.leb_spec k n); [|replace (S n - k)%nat with 0%nat by lia; symmetry; exact C00].
      replace (S n - k)%nat with (S (n - k)) by lia. rewrite Conj_mul, Conj_conj. f_equal. apply IHn. lia. }
    assert (Y : match k with O => C0 | S k0 => Cmul (Conj a) (true_filter phi n k0) end = Conj (if Nat.leb (S n - k) n then Cmul a (true_filter phi n (S n - k)) else C0)).
    { destruct k as [|k]; [destruct (Nat.leb_spec (S n - 0) n); [lia|symmetry; exact C00]|].
      destruct (Nat.leb_spec (S n - S k) n); [|lia]. rewrite Conj_mul. f_equal. replace (S n - S k)%nat with (n - k)%nat by lia. apply IHn. lia. }
    rewrite X, Y. ring.
Qed.
Lemma true_ev phi n x : ev (true_filter phi (S n)) (S n) x =
  Cmul (Cadd (Cmul (Cmul (0, 1) (cis (phi n / 2))) x) (Conj (Cmul (0, 1) (cis (phi n / 2))))) (ev (true_filter phi n) n x).
Proof.
  rewrite !ev_csum. cbn [true_filter]. set (a := Cmul (0, 1) (cis (phi n / 2))).
  transitivity (Cadd (csum (S n + 1) (fun k => Cmul (if Nat.leb k n then Cmul a (true_filter phi n k) else C0) (cpow x (S n - k))))
                     (csum (S n + 1) (fun k => Cmul (match k with O => C0 | S k => Cmul (Conj a) (true_filter phi n k) end) (cpow x (S n - k))))).
  - rewrite <- csum_add. apply csum_ext. intros; ring.
  - set (E := csum (n + 1) (fun i => Cmul (true_filter phi n i) (cpow x (n - i)))).
    assert (A : csum (S n + 1) (fun k => Cmul (if Nat.leb k n then Cmul a (true_filter phi n k) else C0) (cpow x (S n - k))) = Cmul (Cmul a x) E).
    { replace (S n + 1)%nat with (S (n + 1)) by lia. rewrite csum_S. destruct (Nat.leb_spec (n + 1) n); [lia|]. unfold E. rewrite <- csum_scal.
      replace (Cmul C0 (cpow x (S n - (n + 1)))) with C0 by ring.
      transitivity (csum (n + 1) (fun k => Cmul (if Nat.leb k n then Cmul a (true_filter phi n k) else C0) (cpow x (S n - k)))); [ring|].
      apply csum_ext. intros k Hk. destruct (Nat.leb_spec k n); [|lia]. replace (S n - k)%nat with (S (n - k)) by lia. cbn [cpow]. ring. }
    assert (B : csum (S n + 1) (fun k => Cmul (match k with O => C0 | S k => Cmul (Conj a) (true_filter phi n k) end) (cpow x (S n - k))) = Cmul (Conj a) E).
    { replace (S n + 1)%nat with (S (n + 1)) by lia. rewrite csum_shift. unfold E. rewrite <- csum_scal.
      replace (Cmul C0 (cpow x (S n - 0))) with C0 by ring. 
      transitivity (csum (n + 1) (fun i => Cmul (Cmul (Conj a) (true_filter phi n i)) (cpow x (S n - S i)))); [ring|]. apply csum_ext. intros k Hk. cbn [Nat.sub]. ring. }
    rewrite A, B. ring.
Qed.
Lemma true_root phi n l : (l < n)%nat -> ev (true_filter phi n) n (cis (- phi l)) = C0.
Proof.
  induction n; intro Hl; [lia|]. rewrite true_ev. destruct (Nat.eq_dec l n) as [->|]; [|rewrite IHn by lia; ring].
  assert (Z : Cadd (Cmul (Cmul (0, 1) (cis (phi n / 2))) (cis (- phi n))) (Conj (Cmul (0, 1) (cis (phi n / 2)))) = C0).
  { replace (Cmul (Cmul (0, 1) (cis (phi n / 2))) (cis (- phi n))) with (Cmul (0, 1) (cis (- (phi n / 2)))).
    - rewrite Conj_mul, <- cis_opp. unfold Conj. cbn [fst snd]. unfold Cadd, Cmul, C0. cbn [fst snd]. f_equal; ring.
    - replace (- (phi n / 2)) with (phi n / 2 + - phi n) by field. rewrite cis_add. ring. }
  rewrite Z. ring.
Qed.
Lemma cis_nz a : cis a <> C0.
Proof. intro E. pose proof (cis_abs2 a) as H. rewrite E in H. unfold Cabs2, C0 in H. cbn [fst snd] in H. lra. Qed.
Lemma true_lead phi n : true_filter phi n 0 <> C0.
Proof.
  induction n; cbn [true_filter]; [intro E; apply (f_equal fst) in E; cbn in E; lra|].
  cbn [Nat.leb]. intro E. apply IHn. apply (C_integral (Cmul (0, 1) (cis (phi n / 2)))); [rewrite <- E; ring|].
  intro Z. apply (C_integral (0, 1)) in Z; [exact (cis_nz _ Z)|]. intro W. apply (f_equal snd) in W. cbn in W. lra.
Qed.

(** The measurements of a band are exactly those of sources at the azimuths phi with the given powers. *)
Definition exact_band (K M na : nat) (phi alpha : nat -> R) (d : band) : Prop :=
  exists b, (forall i, (i < 2 * M + 1)%nat -> b_opt M b i = fourier K M alpha phi i) /\ forall i, (i < na)%nat -> b_a d i = mv (2 * M + 1) (b_G d) b i.

(** For every choice of K directions there is a filter, not zero, that annihilates their Fourier coefficients whatever the
    powers; in exact measurements its error is zero, the least possible. *)
Theorem C148_zero : forall K M phi, (K <= 2 * M)%nat -> exists c, (exists i, (i < K + 1)%nat /\ c i <> 0) /\
  (forall alpha b, (forall i, (i < 2 * M + 1)%nat -> b_opt M b i = fourier K M alpha phi i) -> forall n, (K + n < 2 * M + 1)%nat -> filtered K M b c n = C0) /\
  forall na solve bands m, solve_ok solve -> inverses M na bands -> (forall d, In d bands -> exists alpha, exact_band K M na phi alpha d) ->
    mtx_obj K M solve na bands (Rmtx K M c) = Some m -> fitting_error K m c = Some 0.
Proof.
  intros K M phi HK. destruct (C148_expand K M) as [_ [_ [_ [_ [S5 _]]]]]. destruct (S5 _ (true_hermitian phi K)) as [c Hc]. exists c.
  assert (Z : forall alpha b, (forall i, (i < 2 * M + 1)%nat -> b_opt M b i = fourier K M alpha phi i) -> forall n, (K + n < 2 * M + 1)%nat -> filtered K M b c n = C0).
  { intros alpha b Hb n Hn. unfold filtered.
    transitivity (conv K (b_opt M b) (true_filter phi K) n); [unfold conv; apply csum_ext; intros k Hk; rewrite Hc by exact Hk; reflexivity|].
    rewrite (conv_pow K K (fun k => Cmul (RtoC (alpha k)) (cis (INR M * phi k))) (fun k => cis (- phi k))).
    - apply csum_zero_ext. intros l Hl. rewrite true_root by exact Hl. ring.
    - intros k Hk. rewrite Hb by lia. apply fourier_pow. }
  split; [|split; [exact Z|]].
  - destruct (Classical_Prop.classic (exists i, (i < K + 1)%nat /\ c i <> 0)) as [E|N]; [exact E|]. exfalso. apply (true_lead phi K). rewrite <- (Hc 0%nat) by lia.
    assert (A : forall i, (i < K + 1)%nat -> c i = 0) by (intros i Hi; destruct (Req_dec (c i) 0) as [E|E]; [exact E|exfalso; apply N; exists i; split; assumption]).
    rewrite c_opt_expand by lia. unfold expand. pose proof (half_lt K) as Hh. apply C_eq; cbn [fst snd].
    + apply A. lia.
    + ltb_cases; try reflexivity; [apply A; lia|lia].
  - intros na solve bands m Hs Hi He Hm. destruct (obj_excess K M na HK solve Hs bands Hi c m Hm) as [zs [FZ EZ]].
    unfold fitting_error. cbv zeta. rewrite EZ. rewrite (Rsum_zero_of (map _ (combine bands zs))).
    + destruct (Rlt_dec 0 0); [lra|]. rewrite sqrt_0. reflexivity.
    + intros e H. apply in_map_iff in H. destruct H as [[d z] [<- Hp]]. cbn [fst snd]. rewrite ip_comm. apply ip_zero_r. intros r Hr.
      assert (Hd : In d bands) by (eapply in_combine_l; exact Hp). destruct (He d Hd) as [alpha [b [Hb Ha]]].
      assert (Eb : forall i, (i < 2 * M + 1)%nat -> beta M na d i = b i) by (apply (exact_beta M na d (band_inv M na bands Hi d Hd)); exact Ha).
      rewrite (mv_ext _ _ _ b) by exact Eb. revert r Hr. apply (proj2 (C148_convolution K M b c HK)). exact (Z alpha b Hb).
Qed.
Print Assumptions C148_zero.

(** ** Azimuths *)
Lemma mod_range x : 0 <= mod_2pi x < 2 * PI.
Proof.
  unfold mod_2pi. pose proof PI_RGT_0 as P. destruct (base_Int_part (x / (2 * PI))) as [A B]. set (k := IZR (Int_part (x / (2 * PI)))) in *.
  assert (E : x = x / (2 * PI) * (2 * PI)) by (field; lra). set (q := x / (2 * PI)) in *. rewrite E. split; nra.
Qed.
Lemma cis_mod x : cis (mod_2pi x) = cis x.
Proof. unfold mod_2pi. rewrite <- (cis_period x (- Int_part (x / (2 * PI)))). f_equal. rewrite opp_IZR. ring. Qed.
Lemma cis_inj a b : 0 <= a < 2 * PI -> 0 <= b < 2 * PI -> cis a = cis b -> a = b.
Proof.
  intros Ha Hb E. assert (C : cos (a - b) = 1).
  { rewrite cos_minus. pose proof (f_equal fst E) as E1. pose proof (f_equal snd E) as E2. unfold cis in E1, E2. cbn [fst snd] in E1, E2. rewrite E1, E2.
    pose proof (sin2_cos2 b) as S2. unfold Rsqr in S2. lra. }
  set (h := (a - b) / 2). assert (Eh : a - b = 2 * h) by (unfold h; lra). rewrite Eh, cos_2a_sin in C.
  assert (Z : sin h = 0) by nra. assert (h = 0); [|lra].
  destruct (Rtotal_order h 0) as [L0|[L0|L0]]; [|exact L0|].
  - assert (0 < sin (- h)) by (apply sin_gt_0; lra). rewrite sin_neg in H. lra.
  - assert (0 < sin h) by (apply sin_gt_0; lra). lra.
Qed.

(** np.roots: if the polynomial c_0 x^n + .. + c_n, c_0 not zero, splits into linear factors, these are returned. *)
Definition poly_at (c : list C) (x : C) : C := csum (length c) (fun i => Cmul (nth i c C0) (cpow x (length c - 1 - i))).
Definition splits (c l : list C) : Prop := nth 0 c C0 <> C0 /\ length c = S (length l) /\ forall x, poly_at c x = Cmul (nth 0 c C0) (cprod (map (Csub x) l)).
Definition roots_ok (K : nat) (roots : list C -> list C) : Prop := forall c l, length c = (K + 1)%nat -> splits c l -> splits c (roots c).

(** The measurements of a band are exactly those of sources at the azimuths theta (direction of propagation theta + pi). *)
Definition exact_measurement (K M nv : nat) (theta alpha : nat -> R) (Ga : mat * (nat -> C)) : Prop :=
  exists b, (forall i, (i < 2 * M + 1)%nat -> b_opt M b i = fourier K M alpha (fun k => theta k + PI) i) /\
    forall i, (i < nv)%nat -> snd Ga i = (mv (2 * M + 1) (fst Ga) b i, mv (2 * M + 1) (fst Ga) b (nv + i)%nat).

Lemma NoDup_map_in {A B} (f : A -> B) l : (forall a b, In a l -> In b l -> f a = f b -> a = b) -> NoDup l -> NoDup (map f l).
Proof.
  intros H N. induction N as [|a l Na N IH]; cbn; constructor; [|apply IH; intros; apply H; try (right; assumption); assumption].
  intro I. apply in_map_iff in I. destruct I as [b [E Ib]]. apply Na. rewrite (H a b); [exact Ib|left; reflexivity|right; exact Ib|symmetry; exact E].
Qed.
Lemma cprod_zero l : cprod l = C0 -> In C0 l.
Proof.
  induction l as [|a l IH]; intro E; [cbn in E; apply (f_equal fst) in E; cbn in E; lra|]. destruct (C_eq_dec a C0) as [->|N]; [left; reflexivity|].
  right. apply IH. apply (C_integral a); assumption.
Qed.

(** If the measurements of all bands are exactly those of K sources with different azimuths, each with a nonzero power in
    some band, and the search ends with error zero, then the azimuths returned are exactly those of the sources. *)
Theorem C148_locations : forall K M n_mics solve inv roots max_iter starts bands theta powers az,
  solve_ok solve -> inv_ok inv -> roots_ok K roots ->
  (forall i j, (i < K)%nat -> (j < K)%nat -> cis (theta i) = cis (theta j) -> i = j) ->
  Forall2 (fun Ga alpha => exact_measurement K M (n_mics * (n_mics - 1)) theta alpha Ga) bands powers ->
  (forall k, (k < K)%nat -> exists alpha, In alpha powers /\ alpha k <> 0) ->
  pt_src_recon_multiband K M solve inv roots n_mics max_iter starts bands = Some (az, 0) ->
  Permutation az (map (fun k => mod_2pi (theta k)) (seq 0 K)).
Proof.
  intros K M n_mics solve inv roots max_iter starts bands theta powers az Hs Hv Hr Hd Hm Hp H.
  unfold pt_src_recon_multiband in H. destruct (Nat.ltb_spec M K) as [|HMK]; [discriminate|]. destruct (Nat.ltb_spec (n_mics * (n_mics - 1)) (2 * M + 1)) as [|Hn]; [discriminate|].
  set (nv := (n_mics * (n_mics - 1))%nat) in *.
  match type of H with (let* ds := ?E in _) = _ => destruct E as [ds|] eqn:Ed end; cbn [bind] in H; [|discriminate].
  match type of H with (let* r := ?E in _) = _ => destruct E as [[[c e] bs]|] eqn:Er end; cbn [bind fst snd] in H; [|discriminate].
  match type of H with (let* uk := ?E in _) = _ => destruct E as [uk|] eqn:Eu end; cbn [bind] in H; [|discriminate].
  assert (Ea : map (fun phi => mod_2pi (phi - PI)) (map azimuth uk) = az) by congruence. assert (Ee : e = 0) by congruence. subst e. clear H.
  set (phi := fun k => theta k + PI).
  assert (HK : (K <= 2 * M)%nat) by lia.
  (* the bands *)
  assert (DS : Forall2 (fun Ga d => exists i, inv (2 * M + 1)%nat (GtG (2 * nv) (fst Ga)) = Some i /\ d = (fst Ga, i, a_ri nv (snd Ga))) bands ds).
  { clear -Ed. revert ds Ed. induction bands as [|Ga l IH]; intros ds Ed; cbn [mapM] in Ed; [assert (E : [] = ds) by congruence; rewrite <- E; constructor|].
    unfold GtG_inv in Ed at 1. destruct (inv (2 * M + 1)%nat (GtG (2 * nv) (fst Ga))) as [i|] eqn:Ei; cbn [bind] in Ed; [|discriminate].
    match type of Ed with (let* ys := ?E in _) = _ => destruct E as [ds2|] eqn:E2 end; cbn [bind] in Ed; [|discriminate].
    assert (E : (fst Ga, i, a_ri nv (snd Ga)) :: ds2 = ds) by congruence. rewrite <- E. constructor; [exists i; auto|]. apply IH. reflexivity. }
  assert (Hi : inverses M (2 * nv) ds).
  { intros d Hin i j Hi Hj. assert (E : exists Ga i0, inv (2 * M + 1)%nat (GtG (2 * nv) (fst Ga)) = Some i0 /\ d = (fst Ga, i0, a_ri nv (snd Ga))).
    { clear -DS Hin. induction DS as [|Ga d' l ds' [i [A B]] DS IH]; [destruct Hin|]. destruct Hin as [->|Hin]; [exists Ga, i; auto|apply IH; exact Hin]. }
    destruct E as [Ga [i0 [E ->]]]. exact (Hv _ _ _ E i j Hi Hj). }
  assert (EB : Forall2 (fun d alpha => exact_band K M (2 * nv) phi alpha d) ds powers).
  { clear -Hm DS. revert powers Hm. induction DS as [|Ga d l ds [i [A ->]] DS IH]; intros powers Hm; inversion Hm as [|? al ? pw Hx Hm' Q1 Q2]; subst; constructor; [|apply IH; exact Hm'].
    destruct Hx as [b [Hb Ha]]. exists b. split; [exact Hb|]. intros r Hr. unfold b_a, b_G. cbn [fst snd]. unfold a_ri. destruct (Nat.ltb_spec r nv).
    - rewrite Ha by assumption. reflexivity.
    - rewrite Ha by lia. cbn [snd]. f_equal. lia. }
  (* the filter annihilates the samples of every band *)
  destruct (recon_inv K M (2 * nv) HK solve ds max_iter starts c 0 bs Er) as [[c0 [n [_ [_ F]]]] _].
  destruct F as [m [x [m' [_ [Sx [Ec [O [Po E0]]]]]]]].
  destruct (bordered K M HK solve Hs m c0 x Sx) as [N1 _]. rewrite <- Ec in N1.
  destruct (obj_excess K M (2 * nv) HK solve Hs ds Hi c m' O) as [zs [FZ EZ]].
  assert (SZ : Rsum (map (fun p => ip (2 * M + 1 - K) (mv (2 * M + 1) (Rmtx K M c) (beta M (2 * nv) (fst p))) (snd p)) (combine ds zs)) = 0).
  { transitivity (ip (K + 1) c (mv (K + 1) m' c)); [symmetry; exact EZ|]. apply sqrt_eq_0; [exact Po|]. symmetry. exact E0. }
  assert (AN : forall d, In d ds -> forall r, (r < 2 * M + 1 - K)%nat -> mv (2 * M + 1) (Rmtx K M c) (beta M (2 * nv) d) r = 0).
  { intros d Hd'. assert (X : exists z, In (d, z) (combine ds zs) /\ forall r, (r < 2 * M + 1 - K)%nat -> mv (2 * M + 1 - K) (R_GtGinv_Rt M (Rmtx K M c) d) z r = mv (2 * M + 1) (Rmtx K M c) (beta M (2 * nv) d) r).
    { clear -FZ Hd'. induction FZ as [|d' z l zs Hz FZ IH]; [destruct Hd'|]. destruct Hd' as [->|Hd']; [exists z; split; [left; reflexivity|exact Hz]|].
      destruct (IH Hd') as [z' [A B]]. exists z'. split; [right; exact A|exact B]. }
    destruct X as [z [Iz Hz]]. apply (excess_zero K M (2 * nv) d (band_inv M (2 * nv) ds Hi d Hd') (Rmtx K M c) z Hz).
    assert (NN : forall e, In e (map (fun p => ip (2 * M + 1 - K) (mv (2 * M + 1) (Rmtx K M c) (beta M (2 * nv) (fst p))) (snd p)) (combine ds zs)) -> 0 <= e).
    { intros e He. apply in_map_iff in He. destruct He as [[d2 z2] [<- Hp2]]. cbn [fst snd].
      assert (Hd2 : In d2 ds) by (eapply in_combine_l; exact Hp2).
      apply (excess_nonneg K M (2 * nv) d2 (band_inv M (2 * nv) ds Hi d2 Hd2) (Rmtx K M c) z2).
      clear -FZ Hp2. induction FZ as [|d' z l zs Hz FZ IH]; [destruct Hp2|]. cbn in Hp2. destruct Hp2 as [E|Hp2]; [injection E as <- <-; exact Hz|apply IH; exact Hp2]. }
    apply (Rsum_zero_each _ NN SZ). apply in_map_iff. exists (d, z). split; [reflexivity|exact Iz]. }
  (* the sources are roots *)
  set (h := fun k => nth k (c_opt K c) C0).
  assert (RT : forall k, (k < K)%nat -> ev h K (cis (- phi k)) = C0).
  { intros k Hk. destruct (Hp k Hk) as [alpha [Ia Na]].
    assert (X : exists d, In d ds /\ exact_band K M (2 * nv) phi alpha d).
    { clear -EB Ia. induction EB as [|d al l pw Hx EB IH]; [destruct Ia|]. destruct Ia as [->|Ia]; [exists d; split; [left; reflexivity|exact Hx]|].
      destruct (IH Ia) as [d' [A B]]. exists d'. split; [right; exact A|exact B]. }
    destruct X as [d [Id [b [Hb Ha]]]].
    assert (Eb : forall i, (i < 2 * M + 1)%nat -> beta M (2 * nv) d i = b i) by (apply (exact_beta M (2 * nv) d (band_inv M (2 * nv) ds Hi d Id)); exact Ha).
    assert (Z : forall n1, (K + n1 < 2 * M + 1)%nat -> filtered K M b c n1 = C0).
    { apply (proj2 (C148_convolution K M b c HK)). intros r Hr1. rewrite <- (AN d Id r Hr1). apply mv_ext. intros; symmetry; apply Eb; assumption. }
    assert (W : Cmul (Cmul (RtoC (alpha k)) (cis (INR M * phi k))) (ev h K (cis (- phi k))) = C0).
    { apply (vandermonde K (fun l => Cmul (Cmul (RtoC (alpha l)) (cis (INR M * phi l))) (ev h K (cis (- phi l)))) (fun l => cis (- phi l))).
      - intros i j Hi1 Hj1 E. apply Hd; [exact Hi1|exact Hj1|]. rewrite !cis_opp in E. apply (f_equal Conj) in E. rewrite !Conj_conj in E. unfold phi in E. rewrite !cis_add in E.
        assert (X : Cmul (cis PI) (Csub (cis (theta i)) (cis (theta j))) = C0).
        { replace (Cmul (cis PI) (Csub (cis (theta i)) (cis (theta j)))) with (Csub (Cmul (cis (theta i)) (cis PI)) (Cmul (cis (theta j)) (cis PI))) by ring. rewrite E. ring. }
        apply (C_integral (cis PI)) in X; [|apply cis_nz]. replace (cis (theta i)) with (Cadd (Csub (cis (theta i)) (cis (theta j))) (cis (theta j))) by ring. rewrite X. ring.
      - intros n1 Hn1. rewrite <- (Z n1) by lia. symmetry. apply (conv_pow K K (fun k => Cmul (RtoC (alpha k)) (cis (INR M * phi k))) (fun k => cis (- phi k)) (b_opt M b) h n1).
        intros k1 Hk1. rewrite Hb by lia. apply fourier_pow.
      - exact Hk. }
    apply (C_integral (Cmul (RtoC (alpha k)) (cis (INR M * phi k)))); [exact W|]. intro E. apply (C_integral (RtoC (alpha k))) in E; [exact (cis_nz _ E)|].
    intro E'. apply Na. apply (f_equal fst) in E'. exact E'. }
  set (us := map (fun k => cis (- phi k)) (seq 0 K)).
  assert (ND : NoDup us).
  { unfold us. apply NoDup_map_in; [|apply seq_NoDup]. intros i j Ii Ij E. apply in_seq in Ii, Ij. apply Hd; [lia|lia|].
    rewrite !cis_opp in E. apply (f_equal Conj) in E. rewrite !Conj_conj in E. unfold phi in E. rewrite !cis_add in E.
    assert (X : Cmul (cis PI) (Csub (cis (theta i)) (cis (theta j))) = C0).
    { replace (Cmul (cis PI) (Csub (cis (theta i)) (cis (theta j)))) with (Csub (Cmul (cis (theta i)) (cis PI)) (Cmul (cis (theta j)) (cis PI))) by ring. rewrite E. ring. }
    apply (C_integral (cis PI)) in X; [|apply cis_nz]. replace (cis (theta i)) with (Cadd (Csub (cis (theta i)) (cis (theta j))) (cis (theta j))) by ring. rewrite X. ring. }
  assert (LU : length us = K) by (unfold us; rewrite map_length, seq_length; reflexivity).
  assert (RU : forall r, In r us -> ev h K r = C0) by (intros r Ir; unfold us in Ir; apply in_map_iff in Ir; destruct Ir as [k [<- Ik]]; apply in_seq in Ik; apply RT; lia).
  assert (LC : h 0%nat <> C0).
  { intro Z. assert (AZ : forall k, (k < K + 1)%nat -> h k = C0).
    { destruct K as [|K']; [intros k Hk; replace k with 0%nat by lia; exact Z|].
      assert (P : forall m1 x1, ev h (S m1) x1 = ev (fun i => h (S i)) m1 x1).
      { induction m1; intro x1; [cbn [ev]; rewrite Z; ring|]. change (ev h (S (S m1)) x1) with (Cadd (Cmul x1 (ev h (S m1) x1)) (h (S (S m1)))). rewrite IHm1. reflexivity. }
      intros [|k] Hk; [exact Z|]. apply (too_many_roots K' (fun i => h (S i)) us LU ND); [|lia]. intros r Ir. rewrite <- P. apply RU. exact Ir. }
    assert (CZ : forall r, (r < K + 1)%nat -> c r = 0).
    { intros r Hr1. rewrite <- (halve_expand K c r) by lia. rewrite (halve_ext K _ (fun _ => C0) r); [|lia|intros i Hi1; rewrite <- c_opt_expand by lia; apply AZ; lia].
      unfold halve. destruct (Nat.ltb r (K / 2 + 1)); reflexivity. }
    rewrite (ip_zero_r (K + 1) c0 c CZ) in N1. lra. }
  assert (SP : splits (c_opt K c) us).
  { split; [exact LC|]. split; [rewrite c_opt_length, LU; lia|]. intro x1. unfold poly_at. rewrite c_opt_length. replace (K + 1 - 1)%nat with K by lia.
    change (csum (K + 1) (fun i => Cmul (h i) (cpow x1 (K - i))) = Cmul (h 0%nat) (cprod (map (Csub x1) us))). rewrite <- ev_csum. apply factor; assumption. }
  pose proof (Hr _ _ (c_opt_length K c) SP) as [_ [LR FR]]. set (rs := roots (c_opt K c)) in *.
  assert (PU : Permutation us rs).
  { apply NoDup_Permutation_bis; [exact ND|rewrite c_opt_length in LR; lia|]. intros r Ir.
    assert (E : poly_at (c_opt K c) r = C0).
    { destruct SP as [_ [_ SP]]. rewrite SP. assert (cprod (map (Csub r) us) = C0); [|rewrite H; ring]. clear -Ir. induction us as [|a l IH]; [destruct Ir|].
      cbn [map cprod fold_right]. fold (cprod (map (Csub r) l)). destruct Ir as [->|Ir]; [replace (Csub r r) with C0 by ring; ring|rewrite (IH Ir); ring]. }
    rewrite FR in E. apply C_integral in E; [|exact LC]. apply cprod_zero in E. apply in_map_iff in E. destruct E as [s [E Is]].
    replace r with s; [exact Is|]. replace s with (Csub r (Csub r s)) by ring. rewrite E. ring. }
  assert (AG : forall l, (forall r, In r l -> exists k, r = cis (- phi k)) -> mapM unit l = Some l).
  { clear. induction l as [|r l IH]; intro G; [reflexivity|]. cbn [mapM]. destruct (G r (or_introl eq_refl)) as [k ->]. unfold unit at 1. rewrite cis_abs2.
    destruct (Req_EM_T 1 0); [lra|]. rewrite sqrt_1. cbn [bind]. rewrite IH by (intros; apply G; right; assumption). cbn [bind]. f_equal. f_equal. rewrite Rinv_1. unfold Cscal. apply C_eq; cbn [fst snd]; ring. }
  assert (uk = rs). { rewrite (AG rs) in Eu; [congruence|]. intros r Ir. apply (Permutation_in _ (Permutation_sym PU)) in Ir. unfold us in Ir. apply in_map_iff in Ir. destruct Ir as [k [<- _]]. exists k. reflexivity. }
  subst uk. rewrite <- Ea. apply Permutation_trans with (map (fun phi => mod_2pi (phi - PI)) (map azimuth us)).
  - apply Permutation_map. apply Permutation_map. apply Permutation_sym. exact PU.
  - unfold us. rewrite !map_map. erewrite map_ext; [apply Permutation_refl|]. intro k. cbv beta.
    apply cis_inj; [apply mod_range|apply mod_range|]. rewrite !cis_mod. unfold azimuth.
    replace (mod_2pi (- atan2 (snd (cis (- phi k))) (fst (cis (- phi k)))) - PI) with (mod_2pi (- atan2 (snd (cis (- phi k))) (fst (cis (- phi k)))) + - PI) by ring.
    rewrite cis_add, cis_mod, cis_opp. unfold cis at 2 3. cbn [fst snd].
    destruct (atan2_spec (sin (- phi k)) (cos (- phi k))) as [A1 A2].
    replace (cos (- phi k) * cos (- phi k) + sin (- phi k) * sin (- phi k)) with 1 in A1, A2 by (pose proof (sin2_cos2 (- phi k)) as Q; unfold Rsqr in Q; lra).
    rewrite sqrt_1, Rmult_1_l in A1, A2.
    assert (E : cis (atan2 (sin (- phi k)) (cos (- phi k))) = cis (- phi k)) by (unfold cis; rewrite A1, A2; reflexivity).
    rewrite E, cis_opp, Conj_conj, <- cis_add. f_equal. unfold phi. ring.
Qed.
Print Assumptions C148_locations.

(** ** Examples *)
(** One source at azimuth 3 pi / 2, three microphones, M = K = 1: the mapping is the identity on the half vector of b. *)
Definition ex_G : mat := fun i j => if Nat.ltb i 3 then eye i j else 0.
Definition ex_a : nat -> C := fun i => match i with 1%nat | 2%nat => C1 | _ => C0 end.
Definition ex_start : vect := fun i => match i with O => 1 | _ => -1 end.
Definition ex_solve (n m : nat) (A B : mat) : option mat :=
  match n with
  | 2%nat => let det := A 0%nat 0%nat * A 1%nat 1%nat - A 0%nat 1%nat * A 1%nat 0%nat in
             if Req_EM_T det 0 then None else
             Some (fun i j => match i with O => (A 1%nat 1%nat * B 0%nat j - A 0%nat 1%nat * B 1%nat j) / det | _ => (A 0%nat 0%nat * B 1%nat j - A 1%nat 0%nat * B 0%nat j) / det end)
  | 3%nat => let x : mat := fun i _ => match i with O => 1 / 2 | 1%nat => - (1 / 2) | _ => 0 end in
             let ok i := Req_EM_T (A i 0%nat * x 0%nat 0%nat + A i 1%nat * x 1%nat 0%nat) (B i 0%nat) in
             if Nat.eqb m 1 then if ok 0%nat then if ok 1%nat then if ok 2%nat then Some x else None else None else None else None
  | _ => None
  end.
Definition ex_inv (n : nat) (A : mat) : option mat :=
  if Nat.eqb n 3 then
    let ok i j := Req_EM_T (A i j) (eye i j) in
    if ok 0%nat 0%nat then if ok 0%nat 1%nat then if ok 0%nat 2%nat then if ok 1%nat 0%nat then if ok 1%nat 1%nat then if ok 1%nat 2%nat then
    if ok 2%nat 0%nat then if ok 2%nat 1%nat then if ok 2%nat 2%nat then Some eye else None else None else None else None else None else None else None else None else None
  else None.
Definition ex_roots (c : list C) : list C :=
  match c with [a; b] => [Cmul (Copp b) (Cscal (/ Cabs2 a) (Conj a))] | _ => [] end.

Lemma ex_solve_ok : solve_ok ex_solve.
Proof.
  intros n m A B X H i j Hi Hj. destruct n as [|[|[|[|n]]]]; cbn in H; try discriminate.
  - destruct (Req_EM_T _ 0) as [|N]; [discriminate|].
    match type of H with Some ?x = Some _ => assert (E : X = x) by congruence end. rewrite E.
    destruct i as [|[|i]]; [| |lia]; cbn [bsum]; field; exact N.
  - destruct (Nat.eqb_spec m 1) as [->|]; [|discriminate]. replace j with 0%nat by lia.
    destruct (Req_EM_T _ _) as [E0|]; [|discriminate]. destruct (Req_EM_T _ _) as [E1|]; [|discriminate]. destruct (Req_EM_T _ _) as [E2|]; [|discriminate].
    match type of H with Some ?x = Some _ => assert (E : X = x) by congruence end. rewrite E.
    destruct i as [|[|[|i]]]; [| | |lia]; cbn [bsum]; lra.
Qed.
Lemma ex_inv_ok : inv_ok ex_inv.
Proof.
  intros n A B H i j Hi Hj. unfold ex_inv in H. destruct (Nat.eqb_spec n 3) as [->|]; [|discriminate]. cbv zeta in H.
  repeat match type of H with (if ?x then _ else _) = _ => destruct x; [|discriminate] end. assert (E : B = eye) by congruence. rewrite E. clear H E.
  unfold kron, eye in *. cbn in *.
  destruct i as [|[|[|i]]]; [| | |lia]; destruct j as [|[|[|j]]]; try lia; cbn [Nat.eqb bsum]; lra.
Qed.
Lemma ex_roots_ok : roots_ok 1 ex_roots.
Proof.
  intros c l Hc [N _]. destruct c as [|a [|b [|z c]]]; try discriminate. cbn [nth] in N. split; [exact N|]. split; [reflexivity|].
  intro x. unfold poly_at. cbn [length Nat.sub nth ex_roots map cprod fold_right]. rewrite !csum_S, csum_0. cbn [Nat.sub cpow nth].
  assert (Q : Cmul a (Cscal (/ Cabs2 a) (Conj a)) = C1).
  { rewrite Cscal_RtoC. replace (Cmul a (Cmul (RtoC (/ Cabs2 a)) (Conj a))) with (Cmul (RtoC (/ Cabs2 a)) (Cmul a (Conj a))) by ring. rewrite Cmul_conj, <- RtoC_mul.
    rewrite Rinv_l; [reflexivity|]. intro E. apply N. apply Cabs2_zero. exact E. }
  replace (Cmul a (Cmul (Csub x (Cmul (Copp b) (Cscal (/ Cabs2 a) (Conj a)))) C1)) with (Cadd (Cmul a x) (Cmul b (Cmul a (Cscal (/ Cabs2 a) (Conj a))))) by ring.
  rewrite Q. ring.
Qed.
Lemma ex_measured : exact_measurement 1 1 6 (fun _ => 3 * (PI / 2)) (fun _ => 1) (ex_G, ex_a).
Proof.
  exists (fun i => match i with O => 0 | _ => 1 end). split.
  - intros i Hi. rewrite b_opt_expand by exact Hi. unfold fourier. rewrite csum_S, csum_0.
    assert (P : forall x, cis (- (x * (3 * (PI / 2) + PI))) = cis (- (x * (PI / 2)) + x * (- 2 * PI))) by (intro; f_equal; field).
    rewrite P. unfold expand. change (2 * 1 / 2)%nat with 1%nat.
    destruct i as [|[|[|i]]]; [| | |lia]; cbn [INR Nat.min Nat.sub Nat.mul Nat.add Nat.ltb Nat.leb Nat.eqb].
    + replace (- ((0 - 1) * (PI / 2)) + (0 - 1) * (- 2 * PI)) with (PI / 2 + 2 * IZR 1 * PI) by (cbn; field). rewrite cis_period. unfold cis. rewrite cos_PI2, sin_PI2. unfold Cadd, Cmul, RtoC, C0. cbn [fst snd]. f_equal; ring.
    + replace (- ((1 - 1) * (PI / 2)) + (1 - 1) * (- 2 * PI)) with 0 by field. rewrite cis_0. unfold Cadd, Cmul, RtoC, C0, C1. cbn [fst snd]. f_equal; ring.
    + replace (- ((1 + 1 - 1) * (PI / 2)) + (1 + 1 - 1) * (- 2 * PI)) with (- (PI / 2) + 2 * IZR (-1) * PI) by (cbn; field). rewrite cis_period, cis_opp. unfold cis, Conj. rewrite cos_PI2, sin_PI2. unfold Cadd, Cmul, RtoC, C0. cbn [fst snd]. f_equal; ring.
  - intros i Hi. cbn [fst snd]. unfold ex_G, ex_a, eye, mv, C1, C0.
    destruct i as [|[|[|[|[|[|i]]]]]]; try lia; cbn; f_equal; ring.
Qed.
Lemma ex_T b : let T := Tmtx 1 1 b in T 0%nat 0%nat = b 0%nat + b 1%nat /\ T 0%nat 1%nat = b 2%nat /\ T 1%nat 0%nat = b 2%nat /\ T 1%nat 1%nat = b 1%nat - b 0%nat.
Proof.
  cbv -[Rplus Rmult Ropp Rminus IZR]. repeat split; ring.
Qed.
Lemma ex_R c : let R := Rmtx 1 1 c in R 0%nat 0%nat = c 0%nat /\ R 0%nat 1%nat = c 0%nat /\ R 0%nat 2%nat = c 1%nat /\ R 1%nat 0%nat = - c 1%nat /\ R 1%nat 1%nat = c 1%nat /\ R 1%nat 2%nat = c 0%nat.
Proof.
  cbv -[Rplus Rmult Ropp Rminus IZR]. repeat split; ring.
Qed.
Definition ex_band : band := (ex_G, eye, a_ri 6 ex_a).
Lemma ex_beta : beta 1 12 ex_band 0%nat = 0 /\ beta 1 12 ex_band 1%nat = 1 /\ beta 1 12 ex_band 2%nat = 1.
Proof. cbv -[Rplus Rmult Ropp Rminus IZR]. repeat split; ring. Qed.
Lemma ex_obj c s : s <> 0 -> c 0%nat = s -> c 1%nat = - s ->
  exists m, mtx_obj 1 1 ex_solve 12 [ex_band] (Rmtx 1 1 c) = Some m /\ forall i j, (i < 2)%nat -> (j < 2)%nat -> m i j = / (s * s).
Proof.
  intros Hs H0 H1. destruct (ex_R c) as [R00 [R01 [R02 [R10 [R11 R12]]]]]. set (Rc := Rmtx 1 1 c) in *.
  destruct (ex_T (beta 1 12 ex_band)) as [T00 [T01 [T10 T11]]]. destruct ex_beta as [B0 [B1 B2]]. rewrite B0, B1, B2 in *. set (T := Tmtx 1 1 (beta 1 12 ex_band)) in *.
  assert (Q : forall i j, (i < 2)%nat -> (j < 2)%nat -> R_GtGinv_Rt 1 Rc ex_band i j = if Nat.eqb i j then 3 * (s * s) else - (s * s)).
  { intros i j Hi Hj. unfold R_GtGinv_Rt, mm, transpose, ex_band, b_inv. cbn [fst snd]. cbn [Nat.mul Nat.add bsum]. unfold eye. cbn [Nat.eqb].
    destruct i as [|[|i]]; [| |lia]; (destruct j as [|[|j]]; [| |lia]); cbn [Nat.eqb]; rewrite R00, R01, R02, R10, R11, R12, H0, H1 || rewrite R00, R01, R02, H0, H1 || rewrite R10, R11, R12, H0, H1; ring. }
  unfold mtx_obj. cbn [foldM]. change (2 * 1 + 1 - 1)%nat with 2%nat. change (1 + 1)%nat with 2%nat. unfold ex_solve. rewrite !Q by lia. cbn [Nat.eqb].
  assert (N : 0 < s * s) by nra.
  destruct (Req_EM_T _ 0) as [E|E]; [nra|]. cbn [bind]. eexists. split; [reflexivity|]. intros i j Hi Hj. unfold mm, transpose, zeros. fold T. cbn [bsum].
  destruct i as [|[|i]]; [| |lia]; (destruct j as [|[|j]]; [| |lia]); rewrite ?T00, ?T01, ?T10, ?T11; field; split; assumption.
Qed.
Lemma ex_found : exists az, pt_src_recon_multiband 1 1 ex_solve ex_inv ex_roots 3 1 [ex_start] [(ex_G, ex_a)] = Some (az, 0).
Proof.
  assert (I : ex_inv 3 (GtG 12 ex_G) = Some eye).
  { assert (E : forall i j, (i < 3)%nat -> (j < 3)%nat -> GtG 12 ex_G i j = eye i j).
    { intros i j Hi Hj. destruct i as [|[|[|i]]]; try lia; (destruct j as [|[|[|j]]]; try lia); cbv -[Rplus Rmult Ropp Rminus IZR]; ring. }
    unfold ex_inv. cbn [Nat.eqb]. cbv zeta. repeat (destruct (Req_EM_T _ _) as [_|N]; [|exfalso; apply N; apply E; lia]). reflexivity. }
  unfold pt_src_recon_multiband. change (Nat.ltb 1 1) with false. change (3 * (3 - 1))%nat with 6%nat. change (Nat.ltb 6 (2 * 1 + 1)) with false. cbv iota.
  cbn [mapM]. unfold GtG_inv. change (2 * 1 + 1)%nat with 3%nat. change (2 * 6)%nat with 12%nat. cbn [fst snd]. rewrite I. cbn [bind]. fold ex_band.
  assert (D : exists c bs, dirac_recon 1 1 ex_solve 12 [ex_band] 1 [ex_start] = Some (c, 0, bs) /\ c 0%nat = 1 / 2 /\ c 1%nat = - (1 / 2)).
  { unfold dirac_recon, search. cbn [foldM].
    destruct (ex_obj ex_start 1 ltac:(lra) eq_refl eq_refl) as [m [Em Vm]]. rewrite Em. cbn [bind inner].
    set (x := fun (i _ : nat) => match i with O => 1 / 2 | 1%nat => - (1 / 2) | _ => 0 end).
    assert (Sx : ex_solve (1 + 2) 1 (mtx_loop 1 m ex_start) (rhs 1) = Some x).
    { change (1 + 2)%nat with 3%nat. unfold ex_solve. cbv zeta. change (Nat.eqb 1 1) with true. cbv iota. unfold mtx_loop, vstack, hstack, col, transpose, rhs, zeros, ex_start.
      change (1 + 1)%nat with 2%nat. cbn [Nat.ltb Nat.leb Nat.sub]. rewrite !Vm by lia. repeat (destruct (Req_EM_T _ _) as [_|N]; [|exfalso; apply N; lra]). reflexivity. }
    rewrite Sx. cbv zeta.
    destruct (ex_obj (fun i => x i 0%nat) (1 / 2) ltac:(lra) eq_refl eq_refl) as [m' [Em' Vm']]. rewrite Em'. cbn [bind inner].
    assert (Z : ip (1 + 1) (fun i => x i 0%nat) (mv (1 + 1) m' (fun i => x i 0%nat)) = 0).
    { unfold ip, mv. cbn [Nat.add bsum]. rewrite !Vm' by lia. unfold x. field. }
    unfold fitting_error at 1. cbv zeta. rewrite Z. destruct (Rlt_dec 0 0); [lra|]. rewrite sqrt_0. cbn [keep bind fst snd mapM]. unfold compute_b.
    destruct (ex_solve (2 * 1 + 1 - 1) 1 (R_GtGinv_Rt 1 (Rmtx 1 1 (fun i => x i 0%nat)) ex_band) (col (mv (2 * 1 + 1) (Rmtx 1 1 (fun i => x i 0%nat)) (beta 1 12 ex_band)))) as [Y|] eqn:EY.
    - cbn [bind]. eexists. eexists. split; [reflexivity|]. split; reflexivity.
    - exfalso. unfold mtx_obj in Em'. cbn [foldM] in Em'. change (2 * 1 + 1 - 1)%nat with 2%nat in *. unfold ex_solve in EY, Em'. destruct (Req_EM_T _ 0); [discriminate|discriminate]. }
  destruct D as [c [bs [D [C0' C1']]]]. match goal with |- context [dirac_recon ?a ?b ?c ?d ?e ?f ?g] => change (dirac_recon a b c d e f g) with (dirac_recon 1 1 ex_solve 12 [ex_band] 1 [ex_start]) end. rewrite D. cbn [bind fst snd].
  assert (Ec : c_opt 1 c = [(1 / 2, - (1 / 2)); (1 / 2, 1 / 2)]).
  { unfold c_opt. change (1 + 1)%nat with 2%nat. cbn [seq map]. f_equal; [|f_equal]; apply C_eq; cbv -[Rplus Rmult Ropp Rminus Rdiv IZR]; change (c 0%nat) with (c 0%nat); rewrite ?C0', ?C1'; lra. }
  rewrite Ec. cbn [ex_roots mapM]. unfold unit. destruct (Req_EM_T _ 0) as [E|E].
  - exfalso. revert E. unfold Cabs2, Cmul, Copp, Cscal, Conj. cbn [fst snd]. replace (/ (1 / 2 * (1 / 2) + - (1 / 2) * - (1 / 2))) with 2 by field. lra.
  - cbn [bind]. eexists. reflexivity.
Qed.

(** The hypotheses of C148_locations (and with them those of C148_fit, C148_search and C148_zero) hold here. *)
Example locations_example : solve_ok ex_solve /\ inv_ok ex_inv /\ roots_ok 1 ex_roots /\
  Forall2 (fun Ga alpha => exact_measurement 1 1 (3 * (3 - 1)) (fun _ => 3 * (PI / 2)) alpha Ga) [(ex_G, ex_a)] [fun _ => 1] /\
  exists az, pt_src_recon_multiband 1 1 ex_solve ex_inv ex_roots 3 1 [ex_start] [(ex_G, ex_a)] = Some (az, 0) /\ Permutation az [mod_2pi (3 * (PI / 2))].
Proof.
  split; [exact ex_solve_ok|]. split; [exact ex_inv_ok|]. split; [exact ex_roots_ok|].
  assert (F : Forall2 (fun Ga alpha => exact_measurement 1 1 (3 * (3 - 1)) (fun _ => 3 * (PI / 2)) alpha Ga) [(ex_G, ex_a)] [fun _ => 1]) by (constructor; [exact ex_measured|constructor]).
  split; [exact F|]. destruct ex_found as [az H]. exists az. split; [exact H|].
  apply (C148_locations 1 1 3 ex_solve ex_inv ex_roots 1 [ex_start] [(ex_G, ex_a)] (fun _ => 3 * (PI / 2)) [fun _ => 1] az ex_solve_ok ex_inv_ok ex_roots_ok); auto.
  - intros i j Hi Hj _. lia.
  - intros k Hk. exists (fun _ => 1). split; [left; reflexivity|lra].
Qed.

(** One source at azimuth 0 and two microphones half a wavelength apart. *)
Example visibility_example : let x q t := Cadd (csum 1 (fun k => Cmul C1 (arrival 1 1 0 (fun m => INR m * PI) (fun _ => 0) q))) C0 in
  chosen_frames 2 1 (3 / 2) 0 x = [0%nat] /\ visibilities 2 1 (3 / 2) 0 x = Some [(-1, 0); (-1, 0)].
Proof.
  intro x. assert (X : forall q t, (q < 2)%nat -> x q t = if Nat.eqb q 0 then (1, 0) else (-1, 0)).
  { intros q t Hq. unfold x, arrival, cis. rewrite csum_S, csum_0. rewrite cos_0, sin_0.
    destruct q as [|[|q]]; [| |lia]; cbn [Nat.eqb INR].
    - replace (1 * (0 * PI * 1 + 0 * 0) / 1) with 0 by field. rewrite cos_0, sin_0. unfold Cadd, Cmul, C0, C1. cbn [fst snd]. f_equal; ring.
    - replace (1 * (1 * PI * 1 + 0 * 0) / 1) with PI by field. rewrite cos_PI, sin_PI. unfold Cadd, Cmul, C0, C1. cbn [fst snd]. f_equal; ring. }
  assert (F : chosen_frames 2 1 (3 / 2) 0 x = [0%nat]).
  { unfold chosen_frames. cbn [seq filter]. destruct (Rlt_dec _ _) as [|N]; [reflexivity|]. exfalso. apply N. unfold energy, frame_mean. rewrite !csum_S, csum_0. cbn [bsum].
    rewrite !X by lia. cbn [Nat.eqb]. unfold Cabs2, Csub, Cscal, Cadd, C0. cbn [fst snd INR]. lra. }
  split; [exact F|]. unfold visibilities. rewrite F. unfold cov_mtx_est. cbn [length Nat.eqb bind]. unfold extract_off_diag.
  change (pairs 2) with [(0, 1)%nat; (1, 0)%nat]. cbn [map fst snd fold_right]. rewrite !X by lia. cbn [Nat.eqb]. f_equal.
  unfold Cscal, Cadd, Cmul, Conj, C0. cbn [fst snd INR]. f_equal; [|f_equal]; apply C_eq; cbn [fst snd]; field.
Qed.

(** A crude series, off by at most two: its hypothesis holds for every array and every azimuth. *)
Example mapping_example : forall rho t, Cabs2 (Csub (series (fun m _ => if Z.eqb m 0 then 1 else 0) 1 rho t) (cis (- (rho * cos t)))) <= 2 * 2.
Proof.
  intros rho t. replace (series _ 1 rho t) with C1.
  - unfold Cabs2, Csub, C1, cis. cbn [fst snd]. set (a := - (rho * cos t)). pose proof (sin2_cos2 a) as H. unfold Rsqr in H. pose proof (COS_bound a). nra.
  - unfold series. cbn [Nat.mul Nat.add]. rewrite !csum_S, csum_0. cbn [Z.of_nat Pos.of_succ_nat Pos.succ Z.sub Z.add Z.opp Z.pos_sub Pos.pred_double Z.eqb].
    unfold Cadd, Cmul, RtoC, cis, C0, C1. cbn [fst snd].
    replace (- (0 * (PI / 2))) with 0 by ring. replace (- (0 * t)) with 0 by ring. rewrite cos_0, sin_0. f_equal; ring.
Qed.

(** ** The mapping is kept from the first call *)
(** A second call at another frequency still uses the mapping of the first: whenever the Bessel function of order zero
    differs at 1 and 2 (it does), the mapping used is not that of the frequency. *)
Theorem C148_cache_refuted : exists M n_mics px py c w1 w2, w1 <> 0 /\ w2 <> 0 /\ c <> 0 /\ forall jv,
  let first := process_G jv M n_mics px py c None [w1] in
  let second := process_G jv M n_mics px py c (Some first) [w2] in
  second = [make_G jv M n_mics px py w1 c] /\
  (jv 0%Z 1 <> jv 0%Z 2 -> exists i j, (i < 2 * (n_mics * (n_mics - 1)))%nat /\ (j < 2 * M + 1)%nat /\ nth 0 second zeros i j <> make_G jv M n_mics px py w2 c i j).
Proof.
  exists 1%nat, 3%nat, (fun m => match m with 1%nat => 1 | _ => 0 end), (fun m => match m with 2%nat => 1 | _ => 0 end), 1, 1, 2.
  split; [lra|]. split; [lra|]. split; [lra|]. intros jv first second. split; [reflexivity|].
  intro H. exists 0%nat, 1%nat. split; [lia|]. split; [lia|].
  assert (E : forall w, 0 < w -> make_G jv 1 3 (fun m => match m with 1%nat => 1 | _ => 0 end) (fun m => match m with 2%nat => 1 | _ => 0 end) w 1 0%nat 1%nat = jv 0%Z w).
  { intros w Hw. unfold make_G.
    set (qx := fun m : nat => _). set (qy := fun m : nat => _).
    assert (X : forall g : mat, g 0%nat 1%nat = mv 3 g (fun j => if Nat.eqb j 1 then 1 else 0) 0%nat) by (intro g; unfold mv; cbn [bsum Nat.eqb]; ring).
    rewrite X. pose proof (G_mv jv 1 3 qx qy (fun j => if Nat.eqb j 1 then 1 else 0) 0%nat ltac:(cbn; lia)) as GE. cbv zeta in GE. apply (f_equal fst) in GE. cbn [fst] in GE.
    change (2 * 1 + 1)%nat with 3%nat in GE. rewrite GE. rewrite !csum_S, csum_0. rewrite !b_opt_expand by lia. unfold expand. change (2 * 1 / 2)%nat with 1%nat.
    cbn [Nat.min Nat.sub Nat.mul Nat.add Nat.ltb Nat.leb Nat.eqb]. change (nth 0 (pairs 3) (0, 0)%nat) with (0, 1)%nat.
    unfold mtx_freq2visi. cbn [Z.of_nat Pos.of_succ_nat Pos.succ Z.sub Z.add Z.opp Z.pos_sub Pos.pred_double].
    unfold baseline. cbn [fst snd]. unfold qx, qy. unfold Cadd, Cmul, RtoC, cis, C0. cbn [fst snd].
    replace (- (0 * (PI / 2))) with 0 by ring. rewrite Rmult_0_l, cos_0, sin_0.
    replace (sqrt ((0 / (1 / w) - 1 / (1 / w)) * (0 / (1 / w) - 1 / (1 / w)) + (0 / (1 / w) - 0 / (1 / w)) * (0 / (1 / w) - 0 / (1 / w)))) with w; [ring|].
    replace ((0 / (1 / w) - 1 / (1 / w)) * (0 / (1 / w) - 1 / (1 / w)) + (0 / (1 / w) - 0 / (1 / w)) * (0 / (1 / w) - 0 / (1 / w))) with (w * w) by (field; lra).
    rewrite sqrt_square; lra. }
  unfold second, first, process_G. cbn [map nth]. rewrite !E by lra. exact H.
Qed.
Print Assumptions C148_cache_refuted.
