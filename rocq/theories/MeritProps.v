(** C131: figures of merit of a beamformer and the designs that maximise them. *)
From Coq Require Import Reals List ZArith Lia Lra Bool.
From Verif Require Import Base BaseProofs Vec Sum Cpx GeometryModel SphereModel SphereProps ArrayModel BeamModel BeamMat BeamProps BeamTdProps MeritModel.
Import ListNotations.
Local Open Scope R_scope.

(** The bin used for the frequency [f]: none is nearer. *)
Definition nearest_bin (freqs : list R) (f : R) (i : nat) : Prop :=
  (i < length freqs)%nat /\ forall j, (j < length freqs)%nat -> Rabs (nth i freqs 0 - f) <= Rabs (nth j freqs 0 - f).
Lemma nearest_spec freqs f i : nearest freqs f = Some i -> nearest_bin freqs f i.
Proof.
  unfold nearest. destruct freqs as [|f0 fr]; [discriminate|]. intros H. injection H as <-. set (l := f0 :: fr).
  destruct (argmin_spec (fun i => Some (Rabs (nth i l 0 - f))) (length l) ltac:(cbn; lia)) as [H1 H2]. split; [exact H1|]. intros j Hj. specialize (H2 j Hj). cbn [lt_inf] in H2. apply Rnot_lt_le. intros C.
  unfold Rltb in H2. destruct (Rlt_dec (Rabs (nth j l 0 - f)) (Rabs (nth (argmin (fun i => Some (Rabs (nth i l 0 - f))) (length l)) l 0 - f))) as [|N]; [discriminate|]. now apply N.
Qed.
Lemma output_cdot M w a : output M w a = cdot M w a.
Proof. reflexivity. Qed.
Lemma cdot_abs M w a : (cdot M w a * cdot M a w)%C = RtoC (Cabs2 (output M w a)).
Proof. rewrite <- (cdot_conj M w a). apply Cmul_conj. Qed.
Lemma matrix_noise c Rm ctr f Xq Rn K : disturbance_matrix c Rm ctr f Xq Rn = Some K -> exists b, bad_field c Rm ctr f Xq true false = Some b /\ forall i j, K i j = noise_cov b Rn 0 i j.
Proof.
  unfold disturbance_matrix, bad_field. destruct Xq as [Q|].
  - destruct (steering c Rm ctr f Q true false) as [B|]; [|discriminate]. cbn [bind]. cbv zeta. intros H. injection H as <-. eexists. split; [reflexivity|]. intros i j. cbn [noise_cov]. replace (if Nat.eqb i j then RtoC 0 else C0) with C0 by (destruct (Nat.eqb i j); reflexivity). ring.
  - intros H. injection H as <-. exists None. split; auto. intros i j. cbn [noise_cov]. change (RtoC 0) with C0. ring.
Qed.
Lemma matrix_some c Rm ctr f Xq Rn b : bad_field c Rm ctr f Xq true false = Some b -> exists K, disturbance_matrix c Rm ctr f Xq Rn = Some K.
Proof. unfold disturbance_matrix, bad_field. destruct Xq as [Q|]; [|eauto]. destruct (steering c Rm ctr f Q true false); [|discriminate]. cbn [bind]. eauto. Qed.
Lemma den_real M K w : hermitian_mat M K -> cdot M w (cmv M K w) = RtoC (power M K w).
Proof.
  intros HK. unfold power. apply C_eq; [reflexivity|]. cbn [snd RtoC]. assert (E : Conj (cdot M w (cmv M K w)) = cdot M w (cmv M K w)) by (rewrite cdot_conj; symmetry; now apply herm_dot).
  apply (f_equal snd) in E. unfold Conj in E. cbn [snd] in E. lra.
Qed.
Lemma den_eq c Rm ctr f Xq Rn K w : hermitian_mat (length Rm) Rn -> disturbance_matrix c Rm ctr f Xq Rn = Some K ->
  exists b, bad_field c Rm ctr f Xq true false = Some b /\ cdot (length Rm) w (cmv (length Rm) K w) = RtoC (disturbance (length Rm) b Rn w).
Proof.
  intros HR HK. destruct (matrix_noise _ _ _ _ _ _ _ HK) as (b & Hb & E). exists b. split; auto. rewrite <- power_noise. rewrite <- den_real by now apply noise_hermitian.
  apply cdot_ext; [reflexivity|]. intros i _. unfold cmv. apply csum_ext. intros j _. now rewrite E.
Qed.
Lemma quotient_real x y r : quotient (RtoC x) (RtoC y) = Some r <-> y <> 0 /\ r * y = x.
Proof.
  unfold quotient. destruct (C_eq_dec (RtoC y) C0) as [E|E].
  - split; [discriminate|]. intros [Hy _]. exfalso. apply Hy. now injection E.
  - assert (Hy : y <> 0) by (intros ->; now apply E). assert (EQ : fst (RtoC x * Cinv (RtoC y))%C = x / y). { unfold Cinv, RtoC, Conj, Cscal, Cmul, Cabs2. cbn [fst snd]. field. auto. }
    rewrite EQ. split.
    + intros H. injection H as <-. split; auto. field. auto.
    + intros [_ H]. f_equal. rewrite <- H. field. auto.
Qed.
Section Merit.
Variables (c : R) (Rm : list (list R)) (ctr : list R) (freqs : list R) (X : list (list R)) (Xq : option (list (list R))) (Rn : nat -> nat -> C) (f : R).
Hypothesis HR : hermitian_mat (length Rm) Rn.
Let M := length Rm.
Lemma csum_abs w A K : csum K (fun k => (cdot M w (fun m => A m k) * cdot M (fun m => A m k) w)%C) = RtoC (bsum K (fun k => Cabs2 (output M w (fun m => A m k)))).
Proof. rewrite <- csum_RtoC. apply csum_ext. intros k _. apply cdot_abs. Qed.
Lemma snr_iff W i A b r : nearest freqs f = Some i -> steering c Rm ctr (nth i freqs 0) X true false = Some A -> bad_field c Rm ctr (nth i freqs 0) Xq true false = Some b ->
  (snr c Rm ctr freqs W X Xq Rn f = Some r <-> disturbance M b Rn (fun m => W m i) <> 0 /\ r * disturbance M b Rn (fun m => W m i) = Cabs2 (output M (fun m => W m i) (fun m => csum (length X) (fun k => A m k)))).
Proof.
  intros Hi HA Hb. unfold snr. rewrite Hi. cbn [bind]. rewrite HA. cbn [bind]. destruct (matrix_some c Rm ctr _ Xq Rn b Hb) as [K HK]. rewrite HK. cbn [bind]. cbv zeta.
  destruct (den_eq c Rm ctr _ Xq Rn K (fun m => W m i) HR HK) as (b' & Hb' & E). assert (b' = b) by congruence. subst b'. rewrite E, cdot_abs. apply quotient_real.
Qed.
Lemma udr_iff W i A b r : nearest freqs f = Some i -> steering c Rm ctr (nth i freqs 0) X true false = Some A -> bad_field c Rm ctr (nth i freqs 0) Xq true false = Some b ->
  (udr c Rm ctr freqs W X Xq Rn f = Some r <-> disturbance M b Rn (fun m => W m i) <> 0 /\ r * disturbance M b Rn (fun m => W m i) = bsum (length X) (fun k => Cabs2 (output M (fun m => W m i) (fun m => A m k)))).
Proof.
  intros Hi HA Hb. unfold udr. rewrite Hi. cbn [bind]. rewrite HA. cbn [bind]. destruct (matrix_some c Rm ctr _ Xq Rn b Hb) as [K HK]. rewrite HK. cbn [bind]. cbv zeta.
  destruct (den_eq c Rm ctr _ Xq Rn K (fun m => W m i) HR HK) as (b' & Hb' & E). assert (b' = b) by congruence. subst b'. rewrite E, csum_abs. apply quotient_real.
Qed.
End Merit.
Lemma snr_inv c Rm ctr freqs W X Xq Rn f r : snr c Rm ctr freqs W X Xq Rn f = Some r ->
  exists i A b, nearest freqs f = Some i /\ steering c Rm ctr (nth i freqs 0) X true false = Some A /\ bad_field c Rm ctr (nth i freqs 0) Xq true false = Some b.
Proof.
  unfold snr. destruct (nearest freqs f) as [i|]; [|discriminate]. cbn [bind]. destruct (steering c Rm ctr (nth i freqs 0) X true false) as [A|] eqn:EA; [|discriminate]. cbn [bind]. destruct (disturbance_matrix c Rm ctr (nth i freqs 0) Xq Rn) as [K|] eqn:EK; [|discriminate]. intros _.
  destruct (matrix_noise _ _ _ _ _ _ _ EK) as (b & Hb & _). exists i, A, b. auto.
Qed.
Lemma udr_inv c Rm ctr freqs W X Xq Rn f r : udr c Rm ctr freqs W X Xq Rn f = Some r ->
  exists i A b, nearest freqs f = Some i /\ steering c Rm ctr (nth i freqs 0) X true false = Some A /\ bad_field c Rm ctr (nth i freqs 0) Xq true false = Some b.
Proof.
  unfold udr. destruct (nearest freqs f) as [i|]; [|discriminate]. cbn [bind]. destruct (steering c Rm ctr (nth i freqs 0) X true false) as [A|] eqn:EA; [|discriminate]. cbn [bind]. destruct (disturbance_matrix c Rm ctr (nth i freqs 0) Xq Rn) as [K|] eqn:EK; [|discriminate]. intros _.
  destruct (matrix_noise _ _ _ _ _ _ _ EK) as (b & Hb & _). exists i, A, b. auto.
Qed.

(** snr is the power that the weights of the nearest bin let through of the sum of the source's images over that of
    the noise and the interferer; udr adds up the powers of the single images instead. *)
Theorem C131_ratios : forall c Rm ctr freqs W X Xq Rn f r, hermitian_mat (length Rm) Rn ->
  (snr c Rm ctr freqs W X Xq Rn f = Some r -> exists i A b, nearest_bin freqs f i /\ steering c Rm ctr (nth i freqs 0) X true false = Some A /\ bad_field c Rm ctr (nth i freqs 0) Xq true false = Some b /\
     let w := fun m => W m i in let d := disturbance (length Rm) b Rn w in d <> 0 /\ r = Cabs2 (output (length Rm) w (fun m => csum (length X) (fun k => A m k))) / d) /\
  (udr c Rm ctr freqs W X Xq Rn f = Some r -> exists i A b, nearest_bin freqs f i /\ steering c Rm ctr (nth i freqs 0) X true false = Some A /\ bad_field c Rm ctr (nth i freqs 0) Xq true false = Some b /\
     let w := fun m => W m i in let d := disturbance (length Rm) b Rn w in d <> 0 /\ r = bsum (length X) (fun k => Cabs2 (output (length Rm) w (fun m => A m k))) / d).
Proof.
  intros c Rm ctr freqs W X Xq Rn f r HR. split; intros H.
  - destruct (snr_inv _ _ _ _ _ _ _ _ _ _ H) as (i & A & b & Hi & HA & Hb). destruct (proj1 (snr_iff c Rm ctr freqs X Xq Rn f HR W i A b r Hi HA Hb) H) as [H1 H2]. exists i, A, b. split; [now apply nearest_spec|]. split; auto. split; auto. split; auto. rewrite <- H2. field. auto.
  - destruct (udr_inv _ _ _ _ _ _ _ _ _ _ H) as (i & A & b & Hi & HA & Hb). destruct (proj1 (udr_iff c Rm ctr freqs X Xq Rn f HR W i A b r Hi HA Hb) H) as [H1 H2]. exists i, A, b. split; [now apply nearest_spec|]. split; auto. split; auto. split; auto. rewrite <- H2. field. auto.
Qed.
Print Assumptions C131_ratios.

(** ** Maximum SINR *)
Lemma output_scal M w a k : output M (fun m => (w m * k)%C) a = (Conj k * output M w a)%C.
Proof. unfold output. rewrite <- csum_scal. apply csum_ext. intros m _. rewrite Conj_mul. ring. Qed.
Lemma power_scal M K w k : power M K (fun m => (w m * k)%C) = Cabs2 k * power M K w.
Proof.
  unfold power. rewrite (cdot_ext M _ _ (fun m => (w m * k)%C) (fun i => (cmv M K w i * k)%C)); [|reflexivity|intros; apply cmv_scal].
  rewrite cdot_scal_r. assert (E : cdot M (fun m => (w m * k)%C) (cmv M K w) = (Conj k * cdot M w (cmv M K w))%C) by apply output_scal. rewrite E.
  set (z := cdot M w (cmv M K w)). unfold Cabs2, Conj, Cmul. cbn [fst snd]. ring.
Qed.
Lemma disturbance_ext M b Rn v w : (forall m, (m < M)%nat -> v m = w m) -> disturbance M b Rn v = disturbance M b Rn w.
Proof.
  intros H. rewrite <- !power_noise. unfold power. f_equal. apply cdot_ext; auto. intros i Hi. now apply cmv_ext.
Qed.
Lemma output_ext M v w a : (forall m, (m < M)%nat -> v m = w m) -> output M v a = output M w a.
Proof. intros H. unfold output. apply csum_ext. intros m Hm. now rewrite H. Qed.
(** With a positive definite noise covariance the weights of rake_max_sinr_weights have the largest snr of all weights. *)
Theorem C131_max_sinr : forall c Rm ctr pinv freqs W X Xq Rn f i A b w,
  nearest freqs f = Some i -> steering c Rm ctr (nth i freqs 0) X true false = Some A -> bad_field c Rm ctr (nth i freqs 0) Xq true false = Some b ->
  penrose (length Rm) (noise_cov b Rn 0) (pinv (length Rm) (noise_cov b Rn 0)) -> hermitian_mat (length Rm) Rn -> positive (length Rm) Rn ->
  nonzero (length Rm) (fun m => csum (length X) (fun k => A m k)) ->
  max_sinr_weights c Rm ctr pinv (nth i freqs 0) X Xq Rn 0 true false = Some w -> (forall m, (m < length Rm)%nat -> W m i = w m) ->
  exists r, snr c Rm ctr freqs W X Xq Rn f = Some r /\ 0 < r /\ forall W' r', snr c Rm ctr freqs W' X Xq Rn f = Some r' -> r' <= r.
Proof.
  intros c Rm ctr pinv freqs W X Xq Rn f i A b w Hi HA Hb HP HR Hpos Hd Hw HW. set (M := length Rm) in *. set (a := fun m => csum (length X) (fun k => A m k)) in *.
  destruct (C73_max_sinr c Rm ctr pinv (nth i freqs 0) X Xq Rn true false A b HP HR Hpos HA Hb Hd) as (w' & Hw' & Hu & Hopt). fold M a in Hu, Hopt. assert (w' = w) by congruence. subst w'.
  assert (Pos : forall v, nonzero M v -> 0 < disturbance M b Rn v). { intros v Hv. rewrite <- power_noise. apply noise_positive; auto. }
  assert (Wn : nonzero M w). { destruct Hd as (_ & _). assert (D : forall m, (forall j, (j < m)%nat -> w j = C0) \/ exists j, (j < m)%nat /\ w j <> C0).
    { induction m as [|m [IH|[j [Hj Hj']]]]; [left; intros; lia| |right; exists j; split; [lia|exact Hj']]. destruct (C_eq_dec (w m) C0) as [E0|E0]; [left|right; exists m; split; [lia|exact E0]]. intros j Hj. destruct (Nat.eq_dec j m) as [->|]; [exact E0|apply IH; lia]. }
    destruct (D M) as [H0|H0]; [|exact H0]. exfalso. assert (E : output M w a = C0). { unfold output. apply csum_zero_ext. intros m Hm. rewrite H0 by auto. cring. } rewrite E in Hu. injection Hu as Hu. lra. }
  assert (EW : disturbance M b Rn (fun m => W m i) = disturbance M b Rn w) by (apply disturbance_ext; auto). assert (EO : output M (fun m => W m i) a = C1) by (rewrite <- Hu; apply output_ext; auto).
  pose proof (Pos w Wn) as Pw. exists (/ disturbance M b Rn w). split.
  - apply (snr_iff c Rm ctr freqs X Xq Rn f HR W i A b _ Hi HA Hb). fold M a. rewrite EW, EO. split; [lra|]. replace (Cabs2 C1) with 1 by (unfold Cabs2; cbn; ring). field. lra.
  - split; [now apply Rinv_0_lt_compat|]. intros W' r' H. destruct (proj1 (snr_iff c Rm ctr freqs X Xq Rn f HR W' i A b _ Hi HA Hb) H) as [H1 H2]. fold M a in H1, H2. set (v := fun m => W' m i) in *.
    assert (Dv : 0 < disturbance M b Rn v). { pose proof (power_nonneg M (noise_cov b Rn 0) v (noise_positive _ _ _ Hpos)) as P0. rewrite power_noise in P0. lra. }
    set (o := output M v a) in *. destruct (C_eq_dec o C0) as [E0|E0].
    + rewrite E0 in H2. replace (Cabs2 C0) with 0 in H2 by (unfold Cabs2; cbn; ring). assert (r' = 0) by (apply Rmult_integral in H2 as [|]; lra). subst r'. left. now apply Rinv_0_lt_compat.
    + set (k := Conj (Cinv o)). assert (Ho : output M (fun m => (v m * k)%C) a = C1). { rewrite output_scal. fold o. unfold k. rewrite Conj_conj. now apply C_inv_l. }
      pose proof (Hopt _ Ho) as HO. rewrite <- !power_noise in HO. rewrite power_scal in HO. rewrite !power_noise in HO.
      assert (Ok : Cabs2 k * Cabs2 o = 1). { rewrite <- Cabs2_mul. unfold k. rewrite <- (Cabs2_conj (_ * o)%C), Conj_mul, Conj_conj. rewrite Cabs2_mul, Cabs2_conj, <- Cabs2_mul. rewrite C_inv_l by auto. unfold Cabs2. cbn. ring. }
      assert (Po : 0 < Cabs2 o). { destruct (Rle_lt_or_eq_dec 0 (Cabs2 o) (Cabs2_nonneg o)) as [|Z]; auto. symmetry in Z. apply Cabs2_zero in Z. contradiction. }
      apply (Rmult_le_reg_r (disturbance M b Rn w)); [auto|]. rewrite Rinv_l by lra. apply (Rmult_le_reg_r (disturbance M b Rn v)); [auto|].
      apply Rle_trans with (Cabs2 o * disturbance M b Rn w); [rewrite <- H2; right; ring|]. apply Rle_trans with (Cabs2 o * (Cabs2 k * disturbance M b Rn v)); [apply Rmult_le_compat_l; lra|]. right. transitivity (Cabs2 k * Cabs2 o * disturbance M b Rn v); [ring|]. rewrite Ok. ring.
Qed.
Print Assumptions C131_max_sinr.

(** ** Maximum UDR, weights *)
(** What numpy.linalg promises for the matrices of one call: the Cholesky factor, inverses, and eigenvectors for the
    eigenvalues [lam], in no particular order. *)
Definition ident (i j : nat) : C := if Nat.eqb i j then C1 else C0.
Definition inverse_of (n : nat) (A B : nat -> nat -> C) : Prop := meq n (cmm n A B) ident /\ meq n (cmm n B A) ident.
Definition factor_of (n : nat) (K L : nat -> nat -> C) : Prop := meq n (cmm n L (herm L)) K.
Definition eigenvectors (n : nat) (S V : nat -> nat -> C) (lam : nat -> R) : Prop :=
  forall j, (j < n)%nat -> nonzero n (fun r => V r j) /\ forall r, (r < n)%nat -> cmv n S (fun r => V r j) r = Cscal (lam j) (V r j).
Definition orthonormal (n : nat) (V : nat -> nat -> C) : Prop := inverse_of n V (herm V).
Definition linalg (n : nat) (chol inv eig : nat -> (nat -> nat -> C) -> option (nat -> nat -> C)) (lam : (nat -> nat -> C) -> nat -> R) : Prop :=
  (forall K L, chol n K = Some L -> factor_of n K L) /\ (forall A B, inv n A = Some B -> inverse_of n A B) /\ (forall S V, hermitian_mat n S -> eig n S = Some V -> eigenvectors n S V (lam S)).

Lemma cmv_ident n v i : (i < n)%nat -> cmv n ident v i = v i.
Proof. intros Hi. unfold cmv. rewrite (csum_delta n i); auto; [|intros j Hj Hne]; unfold ident; [rewrite Nat.eqb_refl; ring|]. destruct (Nat.eqb_spec i j); [congruence|]. ring. Qed.
Lemma inverse_cmv n A B v i : inverse_of n A B -> (i < n)%nat -> cmv n A (cmv n B v) i = v i /\ cmv n B (cmv n A v) i = v i.
Proof. intros [H1 H2] Hi. split; rewrite cmv_cmv. - rewrite (cmv_meq n _ ident) by auto. now apply cmv_ident. - rewrite (cmv_meq n _ ident) by auto. now apply cmv_ident. Qed.
Lemma herm_inverse n A B : inverse_of n A B -> inverse_of n (herm A) (herm B).
Proof.
  intros [H1 H2]. split; intros i j Hi Hj.
  - rewrite <- herm_mm. unfold herm. rewrite H2 by auto. unfold ident. rewrite Nat.eqb_sym. destruct (Nat.eqb i j); cring.
  - rewrite <- herm_mm. unfold herm. rewrite H1 by auto. unfold ident. rewrite Nat.eqb_sym. destruct (Nat.eqb i j); cring.
Qed.
Lemma term_le : forall n f, (forall i, (i < n)%nat -> 0 <= f i) -> forall i, (i < n)%nat -> f i <= bsum n f.
Proof.
  induction n as [|n IH]; intros f H i Hi; [lia|]. cbn [bsum]. destruct (Nat.eq_dec i n) as [->|].
  - pose proof (bsum_nonneg n f ltac:(intros; apply H; lia)). lra.
  - pose proof (IH f ltac:(intros; apply H; lia) i ltac:(lia)). pose proof (H n ltac:(lia)). lra.
Qed.
Definition norm2 (n : nat) (v : nat -> C) : R := bsum n (fun i => Cabs2 (v i)).
Lemma cdot_self n v : cdot n v v = RtoC (norm2 n v).
Proof. unfold cdot, norm2. rewrite <- csum_RtoC. apply csum_ext. intros i _. rewrite <- Cmul_conj. ring. Qed.
Section Udr.
Variables (M K : nat) (A Nq L Li LHi : nat -> nat -> C).
Hypotheses (HL : factor_of M Nq L) (HLi : inverse_of M L Li) (HLH : inverse_of M (herm L) LHi).
Let S := cmm M (cmm K (cmm M Li A) (herm A)) (herm Li).
(** the power of the noise is the norm of L^H w *)
Lemma noise_norm w : cdot M w (cmv M Nq w) = RtoC (norm2 M (cmv M (herm L) w)).
Proof.
  rewrite <- cdot_self. transitivity (cdot M w (cmv M L (cmv M (herm L) w))).
  - apply cdot_ext; [reflexivity|]. intros i Hi. rewrite cmv_cmv. symmetry. now apply cmv_meq.
  - apply cdot_adj.
Qed.
Lemma useful_S w : RtoC (bsum K (fun k => Cabs2 (output M w (fun m => A m k)))) = cdot M (cmv M (herm L) w) (cmv M S (cmv M (herm L) w)).
Proof.
  set (u := cmv M (herm L) w). assert (E1 : forall i, (i < M)%nat -> cmv M (herm Li) u i = w i). { intros i Hi. unfold u. apply (inverse_cmv M (herm L) (herm Li) w i (herm_inverse M L Li HLi) Hi). }
  transitivity (cdot M u (cmv M Li (cmv K A (cmv M (herm A) w)))).
  - rewrite cdot_adj. transitivity (cdot M w (cmv K A (cmv M (herm A) w))); [|apply cdot_ext; [intros i Hi; symmetry; now apply E1|reflexivity]].
    rewrite cdot_adj, cdot_self. f_equal. unfold norm2. apply bsum_ext. intros k _. unfold output. rewrite <- Cabs2_conj, csum_conj. f_equal. unfold cmv, herm. apply csum_ext. intros m _. rewrite Conj_mul, Conj_conj. ring.
  - apply cdot_ext; [reflexivity|]. intros i Hi. unfold S. rewrite <- cmv_cmv, <- cmv_cmv, <- cmv_cmv. unfold cmv at 1 4. apply csum_ext. intros j Hj. f_equal. apply cmv_ext. intros k Hk. apply cmv_ext. intros m Hm. symmetry. now apply E1.
Qed.
Variables (V : nat -> nat -> C) (lam : nat -> R).
Hypothesis HV : eigenvectors M S V lam.
Let w0 := cmv M LHi (fun r => V r 0%nat).
Lemma u0 i : (i < M)%nat -> cmv M (herm L) w0 i = V i 0%nat.
Proof. intros Hi. unfold w0. apply (inverse_cmv M (herm L) LHi (fun r => V r 0%nat) i HLH Hi). Qed.
Lemma udr_first : (0 < M)%nat -> 0 < norm2 M (fun r => V r 0%nat) /\ bsum K (fun k => Cabs2 (output M w0 (fun m => A m k))) = lam 0%nat * norm2 M (fun r => V r 0%nat) /\
  cdot M w0 (cmv M Nq w0) = RtoC (norm2 M (fun r => V r 0%nat)).
Proof.
  intros HM. destruct (HV 0%nat HM) as [[i [Hi Ni]] HE]. split; [|split].
  - unfold norm2. apply Rlt_le_trans with (Cabs2 (V i 0%nat)).
    + destruct (Rle_lt_or_eq_dec 0 (Cabs2 (V i 0%nat)) (Cabs2_nonneg _)) as [|Z]; auto. symmetry in Z. apply Cabs2_zero in Z. contradiction.
    + apply (term_le M (fun i => Cabs2 (V i 0%nat))); auto. intros. apply Cabs2_nonneg.
  - pose proof (useful_S w0) as U. assert (E : cdot M (cmv M (herm L) w0) (cmv M S (cmv M (herm L) w0)) = RtoC (lam 0%nat * norm2 M (fun r => V r 0%nat))).
    { rewrite (cdot_ext M _ _ (fun r => V r 0%nat) (fun r => (V r 0%nat * RtoC (lam 0%nat))%C)).
      - rewrite cdot_scal_r, cdot_self, <- RtoC_mul. f_equal. ring.
      - intros j Hj. now apply u0.
      - intros j Hj. rewrite (cmv_ext M S _ (fun r => V r 0%nat)) by (intros; now apply u0). rewrite HE by auto. cring. }
    rewrite E in U. now injection U.
  - rewrite noise_norm. f_equal. unfold norm2. apply bsum_ext. intros j Hj. now rewrite u0.
Qed.
Hypotheses (HO : orthonormal M V) (Hmax : forall j, (j < M)%nat -> lam j <= lam 0%nat).
Lemma udr_bound w : bsum K (fun k => Cabs2 (output M w (fun m => A m k))) <= lam 0%nat * fst (cdot M w (cmv M Nq w)).
Proof.
  rewrite noise_norm. cbn [fst RtoC]. set (u := cmv M (herm L) w). pose proof (useful_S w) as U. fold u in U. apply (f_equal fst) in U. cbn [fst RtoC] in U. rewrite U. clear U.
  set (co := cmv M (herm V) u). assert (Eu : forall i, (i < M)%nat -> u i = cmv M V co i). { intros i Hi. symmetry. apply (inverse_cmv M V (herm V) u i HO Hi). }
  assert (N1 : norm2 M u = norm2 M co).
  { assert (E : cdot M u u = cdot M co co); [|rewrite !cdot_self in E; now injection E]. transitivity (cdot M u (cmv M V co)); [apply cdot_ext; [reflexivity|exact Eu]|]. apply cdot_adj. }
  assert (ES : cdot M u (cmv M S u) = csum M (fun j => Cscal (lam j) (RtoC (Cabs2 (co j))))).
  { assert (E2 : forall i, (i < M)%nat -> cmv M S u i = cmv M V (fun j => Cscal (lam j) (co j)) i).
    { intros i Hi. rewrite (cmv_ext M S u (cmv M V co)) by exact Eu. transitivity (csum M (fun j => (co j * cmv M S (fun r => V r j) i)%C)).
      - unfold cmv. transitivity (csum M (fun l => csum M (fun j => (S i l * V l j * co j)%C))); [apply csum_ext; intros; rewrite <- csum_scal; apply csum_ext; intros; ring|]. rewrite csum_swap. apply csum_ext. intros j _. rewrite csum_scal_r. ring.
      - unfold cmv at 2. apply csum_ext. intros j Hj. rewrite (proj2 (HV j Hj)) by auto. cring. }
    transitivity (cdot M u (cmv M V (fun j => Cscal (lam j) (co j)))); [apply cdot_ext; [reflexivity|exact E2]|]. rewrite cdot_adj. fold co. unfold cdot. apply csum_ext. intros j _. rewrite <- Cmul_conj. cring. }
  rewrite ES, N1. cbn [fst csum]. unfold norm2. rewrite <- bsum_scal. apply bsum_le. intros j Hj. cbn [Cscal fst RtoC]. apply Rmult_le_compat_r; [apply Cabs2_nonneg|auto].
Qed.
End Udr.
Lemma udr_weights_inv c Rm ctr chol inv eig f X Xq Rn attn ff w : max_udr_weights c Rm ctr chol inv eig f X Xq Rn attn ff = Some w ->
  exists A b L Li LHi V, steering c Rm ctr f X attn ff = Some A /\ bad_field c Rm ctr f Xq attn ff = Some b /\ chol (length Rm) (noise_cov b Rn 0) = Some L /\ inv (length Rm) L = Some Li /\ inv (length Rm) (herm L) = Some LHi /\
    eig (length Rm) (cmm (length Rm) (cmm (length X) (cmm (length Rm) Li A) (herm A)) (herm Li)) = Some V /\ w = cmv (length Rm) LHi (fun r => V r 0%nat).
Proof.
  unfold max_udr_weights. destruct (Nat.eqb (length X) 1); [discriminate|]. destruct (steering c Rm ctr f X attn ff) as [A|]; [|discriminate]. cbn [bind]. destruct (bad_field c Rm ctr f Xq attn ff) as [b|]; [|discriminate]. cbn [bind].
  destruct (chol (length Rm) (noise_cov b Rn 0)) as [L|] eqn:E1; [|discriminate]. cbn [bind]. destruct (inv (length Rm) L) as [Li|] eqn:E2; [|discriminate]. cbn [bind]. destruct (eig _ _) as [V|] eqn:E4; [|discriminate]. cbn [bind]. destruct (inv (length Rm) (herm L)) as [LHi|] eqn:E3; [|discriminate]. cbn [bind]. intros H. injection H as <-.
  exists A, b, L, Li, LHi, V. repeat (split; auto).
Qed.
(** The udr of the weights of rake_max_udr_weights is the eigenvalue that numpy.linalg.eig lists first; where that is
    the largest (and the eigenvectors are orthonormal) no weights have a larger udr. *)
Theorem C131_max_udr : forall c Rm ctr chol inv eig lam freqs W X Xq Rn f i w,
  nearest freqs f = Some i -> Rm <> [] -> linalg (length Rm) chol inv eig lam -> hermitian_mat (length Rm) Rn ->
  max_udr_weights c Rm ctr chol inv eig (nth i freqs 0) X Xq Rn true false = Some w -> (forall m, (m < length Rm)%nat -> W m i = w m) ->
  exists S V, eig (length Rm) S = Some V /\ udr c Rm ctr freqs W X Xq Rn f = Some (lam S 0%nat) /\
    (orthonormal (length Rm) V -> (forall j, (j < length Rm)%nat -> lam S j <= lam S 0%nat) -> positive (length Rm) Rn -> forall W' r', udr c Rm ctr freqs W' X Xq Rn f = Some r' -> r' <= lam S 0%nat).
Proof.
  intros c Rm ctr chol inv eig lam freqs W X Xq Rn f i w Hi HM (LC & LI & HE) HR Hw HW. destruct (udr_weights_inv _ _ _ _ _ _ _ _ _ _ _ _ _ Hw) as (A & b & L & Li & LHi & V & HA & Hb & E1 & E2 & E3 & E4 & ->). set (M := length Rm) in *.
  apply LC in E1. apply LI in E2, E3. set (S := cmm M (cmm (length X) (cmm M Li A) (herm A)) (herm Li)) in *.
  assert (HS : hermitian_mat M S).
  { assert (ES : forall p q, S p q = cmm (length X) (cmm M Li A) (herm (cmm M Li A)) p q).
    { intros p q. unfold S. rewrite cmm_assoc. set (B := cmm M Li A). unfold cmm at 1. unfold cmm at 2. apply csum_ext. intros k _. f_equal. unfold B. now rewrite herm_mm. }
    intros p q Hp Hq. rewrite !ES. set (B := cmm M Li A). unfold cmm. rewrite csum_conj. apply csum_ext. intros k _. unfold herm. rewrite Conj_mul, Conj_conj. ring. }
  exists S, V. split; auto. pose proof (HE S V HS E4) as HV. assert (PM : (0 < M)%nat) by (unfold M; destruct Rm; [easy|cbn; lia]).
  destruct (udr_first M (length X) A (noise_cov b Rn 0) L Li LHi E1 E2 E3 V (lam S) HV PM) as (P0 & U0 & D0). set (w0 := cmv M LHi (fun r => V r 0%nat)) in *.
  assert (ED : disturbance M b Rn (fun m => W m i) = norm2 M (fun r => V r 0%nat)). { rewrite (disturbance_ext M b Rn _ w0) by auto. rewrite <- power_noise. unfold power. now rewrite D0. }
  split.
  - apply (udr_iff c Rm ctr freqs X Xq Rn f HR W i A b _ Hi HA Hb). fold M. rewrite ED. split; [lra|]. rewrite <- U0. apply bsum_ext. intros k _. f_equal. symmetry. now apply output_ext.
  - intros HO Hmax Hpos W' r' H. destruct (proj1 (udr_iff c Rm ctr freqs X Xq Rn f HR W' i A b _ Hi HA Hb) H) as [H1 H2]. fold M in H1, H2. set (v := fun m => W' m i) in *.
    pose proof (udr_bound M (length X) A (noise_cov b Rn 0) L Li E1 E2 V (lam S) HV HO Hmax v) as B. fold (power M (noise_cov b Rn 0) v) in B. rewrite power_noise in B. rewrite <- H2 in B.
    assert (Dv : 0 < disturbance M b Rn v). { pose proof (power_nonneg M (noise_cov b Rn 0) v (noise_positive _ _ _ Hpos)) as Q0. rewrite power_noise in Q0. lra. }
    apply (Rmult_le_reg_r (disturbance M b Rn v)); auto.
Qed.
Print Assumptions C131_max_udr.

(** ** Maximum UDR, filters *)
(** Energies of the response to the source in the useful taps and in the others, to the interferer, and of the noise. *)
Definition energy_taps (n : nat) (Hc : nat -> nat -> R) (g : nat -> R) (a b : nat) : R := bsum (b - a) (fun t => response_tap n Hc g (a + t) * response_tap n Hc g (a + t)).
Definition useful (n L kappa precedence : nat) (Hc : nat -> nat -> R) (g : nat -> R) : R := energy_taps n Hc g kappa (Nat.min L (kappa + precedence)).
Definition detrimental (n L kappa precedence : nat) (Hc : nat -> nat -> R) (Rn : nat -> nat -> R) (g : nat -> R) : R :=
  energy_taps n Hc g 0 kappa + energy_taps n Hc g (Nat.min L (kappa + precedence)) L + energy_taps n Hc g L (2 * L) + quadratic n Rn g.
Lemma gram_quadratic n Hc a b g : quadratic n (gram_cols Hc a b) g = energy_taps n Hc g a b.
Proof.
  unfold quadratic, ip, mv, gram_cols, energy_taps, response_tap.
  transitivity (bsum n (fun i => bsum n (fun j => bsum (b - a) (fun t => g i * Hc i (a + t)%nat * (Hc j (a + t)%nat * g j))))).
  - apply bsum_ext. intros i _. rewrite <- bsum_scal. apply bsum_ext. intros j _. rewrite <- bsum_scal_r, <- bsum_scal. apply bsum_ext. intros. ring.
  - transitivity (bsum n (fun i => bsum (b - a) (fun t => bsum n (fun j => g i * Hc i (a + t)%nat * (Hc j (a + t)%nat * g j))))); [apply bsum_ext; intros; apply bsum_swap|]. rewrite bsum_swap. apply bsum_ext. intros t _. rewrite bsum_mul. apply bsum_ext. intros i _. apply bsum_ext. intros j _. ring.
Qed.
Lemma quadratic_plus n K1 K2 g : quadratic n (fun i j => K1 i j + K2 i j) g = quadratic n K1 g + quadratic n K2 g.
Proof. unfold quadratic, ip. rewrite <- bsum_plus. apply bsum_ext. intros i _. rewrite <- Rmult_plus_distr_l. f_equal. unfold mv. rewrite <- bsum_plus. apply bsum_ext. intros. ring. Qed.
Lemma quadratic_mat_ext n K1 K2 g : (forall i j, K1 i j = K2 i j) -> quadratic n K1 g = quadratic n K2 g.
Proof. intros H. unfold quadratic, ip. apply bsum_ext. intros i _. f_equal. unfold mv. apply bsum_ext. intros j _. now rewrite H. Qed.
Lemma gram_sym n Hc a b : sym n (gram_cols Hc a b).
Proof. intros i j _ _. unfold gram_cols. apply bsum_ext. intros. ring. Qed.
Lemma eigh_bound n A B lam V : sym n B -> (0 < n)%nat -> eigh_result n A B lam V ->
  (forall x, quadratic n A x <= lam (n - 1)%nat * quadratic n B x) /\ quadratic n A (fun r => V r (n - 1)%nat) = lam (n - 1)%nat /\ quadratic n B (fun r => V r (n - 1)%nat) = 1.
Proof.
  intros HS Hn (HO & HC & HE & HL). split; [|split].
  - intros x. set (co := fun i => ip n (fun r => V r i) (mv n B x)).
    assert (Eip : forall y, ip n x y = bsum n (fun i => co i * ip n (fun r => V r i) y)).
    { intros y. transitivity (bsum n (fun r => bsum n (fun i => co i * (V r i * y r)))).
      - unfold ip at 1. apply bsum_ext. intros r Hr. rewrite (HC x r Hr) at 1. rewrite <- bsum_scal_r. apply bsum_ext. intros i _. unfold co. ring.
      - rewrite bsum_swap. apply bsum_ext. intros i _. unfold ip. now rewrite <- bsum_scal. }
    assert (EB : quadratic n B x = bsum n (fun i => co i * co i)) by (unfold quadratic; rewrite Eip; reflexivity).
    assert (EA : quadratic n A x = bsum n (fun i => lam i * (co i * co i))).
    { unfold quadratic. transitivity (ip n x (fun r => bsum n (fun i => co i * (lam i * mv n B (fun r => V r i) r)))).
      - apply ip_ext; [reflexivity|]. intros r Hr. unfold mv at 1. transitivity (bsum n (fun l => bsum n (fun i => co i * (A r l * V l i)))).
        + apply bsum_ext. intros l Hl. rewrite (HC x l Hl) at 1. rewrite <- bsum_scal. apply bsum_ext. intros i _. unfold co. ring.
        + rewrite bsum_swap. apply bsum_ext. intros i Hi. rewrite <- HE by auto. rewrite bsum_scal. reflexivity.
      - transitivity (bsum n (fun i => co i * lam i * ip n x (mv n B (fun r => V r i)))).
        + unfold ip. transitivity (bsum n (fun r => bsum n (fun i => co i * lam i * (x r * mv n B (fun r => V r i) r)))); [apply bsum_ext; intros; rewrite <- bsum_scal; apply bsum_ext; intros; ring|]. rewrite bsum_swap. apply bsum_ext. intros i _. now rewrite bsum_scal.
        + apply bsum_ext. intros i _. rewrite (ip_mv_sym n B _ _ HS). rewrite (ip_comm n (mv n B x)). fold (co i). ring. }
    rewrite EA, EB, <- bsum_scal. apply bsum_le. intros i Hi. apply Rmult_le_compat_r; [nra|]. apply HL. lia.
  - unfold quadratic. rewrite (ip_ext n _ _ (fun r => V r (n - 1)%nat) (fun r => lam (n - 1)%nat * mv n B (fun r => V r (n - 1)%nat) r)); [|reflexivity|intros; apply HE; lia].
    rewrite ip_scal_r, HO by lia. unfold kron. rewrite Nat.eqb_refl. ring.
  - unfold quadratic. rewrite HO by lia. unfold kron. now rewrite Nat.eqb_refl.
Qed.
(** With an interferer, the filters of rake_max_udr_filters have the largest ratio of useful energy - the taps
    from the delay to 30 ms after it - to that of all other taps, the interferer and the noise; the ratio is returned. *)
Theorem C131_max_udr_filters : forall n L kappa precedence Hc Rn g ratio, (kappa <= L)%nat -> sym n Rn -> max_udr_filters n L kappa precedence Hc true Rn g ratio ->
  detrimental n L kappa precedence Hc Rn g = 1 /\ useful n L kappa precedence Hc g = ratio /\ forall g', useful n L kappa precedence Hc g' <= ratio * detrimental n L kappa precedence Hc Rn g'.
Proof.
  intros n L kappa pr Hc Rn g ratio HK HS (Hn & lam & V & HE & -> & Hg).
  assert (EA : forall x, quadratic n (udr_A L kappa pr Hc true) x = useful n L kappa pr Hc x). { intros x. unfold udr_A, useful. rewrite gram_quadratic. unfold ncol, last_useful. now rewrite Nat.min_l by lia. }
  assert (EB : forall x, quadratic n (udr_B L kappa pr Hc true Rn) x = detrimental n L kappa pr Hc Rn x).
  { intros x. unfold udr_B. rewrite !(quadratic_plus n). rewrite (quadratic_plus n (fun i j => gram_cols Hc 0 (Nat.min kappa (ncol L true)) i j) (fun i j => gram_cols Hc L (ncol L true) i j)) || idtac. rewrite !gram_quadratic. unfold detrimental, ncol, last_useful. rewrite Nat.min_l by lia. ring. }
  assert (SB : sym n (udr_B L kappa pr Hc true Rn)). { intros i j Hi Hj. unfold udr_B. rewrite (HS i j Hi Hj), !(gram_sym n Hc _ _ i j Hi Hj). reflexivity. }
  destruct (eigh_bound n _ _ lam V SB Hn HE) as (B1 & B2 & B3). rewrite <- EA, <- EB. rewrite (quadratic_ext n _ g (fun r => V r (n - 1)%nat)) by auto. rewrite (quadratic_ext n (udr_A _ _ _ _ _) g (fun r => V r (n - 1)%nat)) by auto.
  split; auto. split; auto. intros g'. rewrite <- EA, <- EB. apply B1.
Qed.
Print Assumptions C131_max_udr_filters.

(** ** The order of the eigenvectors *)
Lemma csum_2 f : csum 2 f = (f 0%nat + f 1%nat)%C.
Proof. apply C_eq; cbn; ring. Qed.
Definition is_ident (K : nat -> nat -> C) : bool :=
  if C_eq_dec (K 0%nat 0%nat) C1 then if C_eq_dec (K 0%nat 1%nat) C0 then if C_eq_dec (K 1%nat 0%nat) C0 then if C_eq_dec (K 1%nat 1%nat) C1 then true else false else false else false else false.
Lemma is_ident_spec K : is_ident K = true <-> meq 2 K ident.
Proof.
  unfold is_ident. split.
  - destruct (C_eq_dec (K 0%nat 0%nat) C1) as [E1|]; [|discriminate]. destruct (C_eq_dec (K 0%nat 1%nat) C0) as [E2|]; [|discriminate]. destruct (C_eq_dec (K 1%nat 0%nat) C0) as [E3|]; [|discriminate]. destruct (C_eq_dec (K 1%nat 1%nat) C1) as [E4|]; [|discriminate]. intros _ i j Hi Hj. destruct i as [|[|]], j as [|[|]]; try lia; assumption.
  - intros H. rewrite (H 0%nat 0%nat), (H 0%nat 1%nat), (H 1%nat 0%nat), (H 1%nat 1%nat) by lia. cbn [ident Nat.eqb]. unfold ident. cbn [Nat.eqb].
    repeat (destruct (C_eq_dec _ _) as [|E]; [|exfalso; now apply E]). reflexivity.
Qed.
(** linear algebra that only knows the identity *)
Definition id_only (n : nat) (K : nat -> nat -> C) : option (nat -> nat -> C) := if Nat.eqb n 2 then if is_ident K then Some ident else None else None.
Lemma ident_inverse K : meq 2 K ident -> inverse_of 2 K ident.
Proof. intros H. split; intros i j Hi Hj; unfold cmm; rewrite csum_2; (destruct i as [|[|]], j as [|[|]]; try lia; rewrite ?(H 0%nat 0%nat), ?(H 0%nat 1%nat), ?(H 1%nat 0%nat), ?(H 1%nat 1%nat) by lia; unfold ident; cbn [Nat.eqb]; ring). Qed.
Lemma id_only_ok : (forall K L, id_only 2 K = Some L -> factor_of 2 K L) /\ (forall A B, id_only 2 A = Some B -> inverse_of 2 A B).
Proof.
  split; intros A B H; unfold id_only in H; cbn [Nat.eqb] in H; destruct (is_ident A) eqn:E; try discriminate; injection H as <-; apply is_ident_spec in E; [|now apply ident_inverse].
  intros i j Hi Hj. rewrite (E i j Hi Hj). unfold cmm, herm. rewrite csum_2. destruct i as [|[|]], j as [|[|]]; try lia; unfold ident; cbn [Nat.eqb]; cring.
Qed.
Lemma id_only_ident K : meq 2 K ident -> id_only 2 K = Some ident.
Proof. intros H. apply is_ident_spec in H. unfold id_only. cbn [Nat.eqb]. now rewrite H. Qed.

Definition two_mics : list (list R) := [[0; 0]; [3; 0]].
Definition two_images : list (list R) := [[1; 0]; [2; 0]].
Definition alpha : R := 1 / (4 * PI).
Definition two_A (m k : nat) : R := if Nat.eqb m k then alpha else alpha / 2.
Lemma two_dist m k : (m < 2)%nat -> (k < 2)%nat -> near_distance two_mics two_images m k = if Nat.eqb m k then 1 else 2.
Proof.
  intros Hm Hk. unfold near_distance, vdist, vnorm. destruct m as [|[|]], k as [|[|]]; try lia; cbn.
  all: match goal with |- sqrt ?x = ?y => transitivity (sqrt (y * y)); [f_equal; ring|apply sqrt_square; lra] end.
Qed.
Lemma two_steering : exists A, steering 343 two_mics [0; 0] 0 two_images true false = Some A /\ forall m k, (m < 2)%nat -> (k < 2)%nat -> A m k = RtoC (two_A m k).
Proof.
  unfold steering. set (ex := existsb _ _). assert (E : ex = false).
  { unfold ex. cbn [entries length two_mics two_images seq flat_map map app existsb]. fold two_mics two_images. rewrite !two_dist by lia. cbn [Nat.eqb]. repeat (destruct (Req_EM_T _ 0); [lra|]). reflexivity. }
  rewrite E. eexists. split; [reflexivity|]. intros m k Hm Hk. cbv beta. rewrite two_dist by auto. unfold phase. unfold two_A, alpha. pose proof PI_RGT_0.
  destruct (Nat.eqb m k).
  - replace (- (2 * PI * 0 * 1 / 343)) with 0 by field. rewrite cis_0. apply C_eq; cbn; field; lra.
  - replace (- (2 * PI * 0 * 2 / 343)) with 0 by field. rewrite cis_0. apply C_eq; cbn; field; lra.
Qed.
Definition h2 : R := / sqrt 2.
Lemma h2_sq : h2 * h2 = / 2.
Proof. unfold h2. rewrite <- Rinv_mult. f_equal. apply sqrt_sqrt. lra. Qed.
(** an eig that knows one matrix and lists its eigenvalues in either order *)
Definition two_S (i j : nat) : C := RtoC (if Nat.eqb i j then alpha * alpha * 5 / 4 else alpha * alpha).
Definition two_lam (small : bool) (_ : nat -> nat -> C) (j : nat) : R := if Bool.eqb small (Nat.eqb j 0) then alpha * alpha / 4 else alpha * alpha * 9 / 4.
Definition two_V (small : bool) (r j : nat) : C := RtoC (if (Bool.eqb small (Nat.eqb j 0) && Nat.eqb r 1)%bool then - h2 else h2).
Definition is_S (S : nat -> nat -> C) : bool :=
  if C_eq_dec (S 0%nat 0%nat) (two_S 0 0) then if C_eq_dec (S 0%nat 1%nat) (two_S 0 1) then if C_eq_dec (S 1%nat 0%nat) (two_S 1 0) then if C_eq_dec (S 1%nat 1%nat) (two_S 1 1) then true else false else false else false else false.
Definition two_eig (small : bool) (n : nat) (S : nat -> nat -> C) : option (nat -> nat -> C) := if Nat.eqb n 2 then if is_S S then Some (two_V small) else None else None.
Lemma is_S_spec S : is_S S = true <-> meq 2 S two_S.
Proof.
  unfold is_S. split.
  - destruct (C_eq_dec (S 0%nat 0%nat) _) as [E1|]; [|discriminate]. destruct (C_eq_dec (S 0%nat 1%nat) _) as [E2|]; [|discriminate]. destruct (C_eq_dec (S 1%nat 0%nat) _) as [E3|]; [|discriminate]. destruct (C_eq_dec (S 1%nat 1%nat) _) as [E4|]; [|discriminate]. intros _ i j Hi Hj. destruct i as [|[|]], j as [|[|]]; try lia; assumption.
  - intros H. rewrite (H 0%nat 0%nat), (H 0%nat 1%nat), (H 1%nat 0%nat), (H 1%nat 1%nat) by lia. repeat (destruct (C_eq_dec _ _) as [|E]; [|exfalso; now apply E]). reflexivity.
Qed.
Lemma two_linalg small : linalg 2 id_only id_only (two_eig small) (two_lam small).
Proof.
  pose proof h2_sq as H2. destruct id_only_ok as [I1 I2]. split; [exact I1|]. split; [exact I2|]. intros S V _ H. unfold two_eig in H. cbn [Nat.eqb] in H. destruct (is_S S) eqn:E; [|discriminate]. injection H as <-. apply is_S_spec in E. intros j Hj. split.
  - exists 0%nat. split; [lia|]. unfold two_V. cbn [Nat.eqb]. rewrite andb_false_r. intros Z. injection Z as Z. nra.
  - intros r Hr. unfold cmv. rewrite csum_2. destruct r as [|[|]]; [| |lia]; rewrite !E by lia; destruct j as [|[|]]; try lia; destruct small; unfold two_S, two_V, two_lam; cbn [Nat.eqb Bool.eqb andb]; apply C_eq; unfold Conj, Cmul, Cadd, RtoC, Cscal; cbn [fst snd]; field.
Qed.
Lemma two_orthonormal small : orthonormal 2 (two_V small).
Proof. pose proof h2_sq as H2. split; intros i j Hi Hj; unfold cmm, herm; rewrite csum_2; destruct i as [|[|]], j as [|[|]]; try lia; destruct small; unfold two_V, ident; cbn [Nat.eqb Bool.eqb andb]; apply C_eq; unfold Conj, Cmul, Cadd, RtoC, C1, C0; cbn [fst snd]; nra. Qed.
(** the weights found *)
Lemma two_weights small : max_udr_weights 343 two_mics [0; 0] id_only id_only (two_eig small) 0 two_images None ident true false = Some (cmv 2 ident (fun r => two_V small r 0%nat)).
Proof.
  destruct two_steering as (A & HA & EA). unfold max_udr_weights. cbn [length two_mics two_images Nat.eqb]. fold two_mics two_images. rewrite HA. cbn [bind bad_field].
  rewrite id_only_ident by (intros i j _ _; cbn [noise_cov]; destruct (Nat.eqb i j); change (RtoC 0) with C0; ring). cbn [bind]. rewrite id_only_ident by (intros i j _ _; reflexivity). cbn [bind].
  assert (E : is_S (cmm 2 (cmm 2 (cmm 2 ident A) (herm A)) (herm ident)) = true).
  { apply is_S_spec. intros i j Hi Hj. unfold cmm, herm. rewrite !csum_2. rewrite !EA by lia. destruct i as [|[|]], j as [|[|]]; try lia; unfold two_A, ident, two_S; cbn [Nat.eqb]; apply C_eq; unfold Conj, Cmul, Cadd, RtoC, C1, C0; cbn [fst snd]; field. }
  unfold two_eig. cbn [Nat.eqb]. rewrite E. cbn [bind]. rewrite id_only_ident; [reflexivity|]. intros i j _ _. unfold herm, ident. rewrite Nat.eqb_sym. destruct (Nat.eqb i j); cring.
Qed.
Lemma ident_herm n : hermitian_mat n ident.
Proof. intros i j _ _. unfold ident. rewrite Nat.eqb_sym. destruct (Nat.eqb j i); cring. Qed.
Lemma two_udr W v0 v1 : W 0%nat 0%nat = RtoC v0 -> W 1%nat 0%nat = RtoC v1 -> 0 < v0 * v0 + v1 * v1 ->
  udr 343 two_mics [0; 0] [0] W two_images None ident 0 = Some (((v0 * alpha + v1 * alpha / 2) * (v0 * alpha + v1 * alpha / 2) + (v0 * alpha / 2 + v1 * alpha) * (v0 * alpha / 2 + v1 * alpha)) / (v0 * v0 + v1 * v1)).
Proof.
  intros E0 E1 P. destruct two_steering as (A & HA & EA). assert (Hn : nearest [0] 0 = Some 0%nat) by reflexivity.
  apply (udr_iff 343 two_mics [0; 0] [0] two_images None ident 0 (ident_herm _) W 0%nat A None _ Hn HA eq_refl). cbn [length two_mics two_images].
  assert (D : disturbance 2 None ident (fun m => W m 0%nat) = v0 * v0 + v1 * v1).
  { unfold disturbance, power, cdot, cmv. rewrite !csum_2. rewrite E0, E1. unfold ident. cbn [Nat.eqb]. unfold C1, C0, RtoC, Conj, Cmul, Cadd. cbn [fst snd]. ring. }
  rewrite D. split; [lra|]. unfold output, cdot. cbn [bsum]. rewrite !csum_2. rewrite !EA by lia. rewrite E0, E1. unfold two_A. cbn [Nat.eqb]. unfold Cabs2, RtoC, Conj, Cmul, Cadd. cbn [fst snd]. field. lra.
Qed.
Lemma alpha_pos : 0 < alpha.
Proof. unfold alpha. apply Rdiv_lt_0_compat; [lra|pose proof PI_RGT_0; lra]. Qed.
(** The hypotheses of C131_max_udr, with the larger eigenvalue first: the weights are those of plain averaging *)
Example max_udr_case : linalg 2 id_only id_only (two_eig false) (two_lam false) /\ orthonormal 2 (two_V false) /\ positive 2 ident /\ (forall S j, (j < 2)%nat -> two_lam false S j <= two_lam false S 0%nat) /\
  max_udr_weights 343 two_mics [0; 0] id_only id_only (two_eig false) 0 two_images None ident true false = Some (cmv 2 ident (fun r => two_V false r 0%nat)) /\
  udr 343 two_mics [0; 0] [0] (fun m _ => cmv 2 ident (fun r => two_V false r 0%nat) m) two_images None ident 0 = Some (alpha * alpha * 9 / 4).
Proof.
  pose proof alpha_pos. pose proof h2_sq as H2. split; [apply two_linalg|]. split; [apply two_orthonormal|]. split; [|split; [|split; [apply two_weights|]]].
  - intros v (i & Hi & Ni). assert (E : power 2 ident v = Cabs2 (v 0%nat) + Cabs2 (v 1%nat)).
    { unfold power, cdot, cmv. rewrite !csum_2. unfold ident. cbn [Nat.eqb]. destruct (v 0%nat), (v 1%nat). unfold Cabs2, C1, C0, Conj, Cmul, Cadd. cbn [fst snd]. ring. }
    rewrite E. pose proof (Cabs2_nonneg (v 0%nat)). pose proof (Cabs2_nonneg (v 1%nat)).
    assert (N : Cabs2 (v i) <> 0) by (intros Z; apply Ni; now apply Cabs2_zero). destruct i as [|[|]]; [lra|lra|lia].
  - intros S j Hj. unfold two_lam. destruct j as [|[|]]; [| |lia]; cbn [Nat.eqb Bool.eqb]; nra.
  - rewrite (two_udr _ h2 h2); [|rewrite cmv_ident by lia; reflexivity|rewrite cmv_ident by lia; reflexivity|nra]. f_equal.
    replace (h2 * h2 + h2 * h2) with 1 by lra. replace ((h2 * alpha + h2 * alpha / 2) * (h2 * alpha + h2 * alpha / 2) + (h2 * alpha / 2 + h2 * alpha) * (h2 * alpha / 2 + h2 * alpha)) with (h2 * h2 * (alpha * alpha * 9 / 2)) by field. rewrite H2. field.
Qed.
(** numpy.linalg.eig lists the eigenvalues in no particular order and rake_max_udr_weights takes the first: with the
    smaller one first the weights have a ninth of the udr of plain averaging. *)
Theorem C131_order_refuted : exists Rm X eig lam w W r r',
  linalg (length Rm) id_only id_only eig lam /\ (forall S V, eig (length Rm) S = Some V -> orthonormal (length Rm) V) /\
  max_udr_weights 343 Rm [0; 0] id_only id_only eig 0 X None ident true false = Some w /\ (forall m i, W m i = w m) /\
  udr 343 Rm [0; 0] [0] W X None ident 0 = Some r /\ udr 343 Rm [0; 0] [0] (fun _ _ => C1) X None ident 0 = Some r' /\ r' = 9 * r /\ 0 < r.
Proof.
  pose proof alpha_pos as Hal. pose proof h2_sq as H2.
  exists two_mics, two_images, (two_eig true), (two_lam true), (cmv 2 ident (fun r => two_V true r 0%nat)), (fun m _ => cmv 2 ident (fun r => two_V true r 0%nat) m), (alpha * alpha / 4), (alpha * alpha * 9 / 4). cbn [length two_mics two_images]. fold two_mics two_images.
  split; [apply two_linalg|]. split; [|split; [apply two_weights|split; [reflexivity|split; [|split; [|split; [field|apply Rdiv_lt_0_compat; [now apply Rmult_lt_0_compat|lra]]]]]]].
  - intros S V H. unfold two_eig in H. cbn [Nat.eqb] in H. destruct (is_S S); [|discriminate]. injection H as <-. apply two_orthonormal.
  - rewrite (two_udr _ h2 (- h2)); [|rewrite cmv_ident by lia; reflexivity|rewrite cmv_ident by lia; reflexivity|nra]. f_equal.
    replace (h2 * h2 + - h2 * - h2) with 1 by lra. replace ((h2 * alpha + - h2 * alpha / 2) * (h2 * alpha + - h2 * alpha / 2) + (h2 * alpha / 2 + - h2 * alpha) * (h2 * alpha / 2 + - h2 * alpha)) with (h2 * h2 * (alpha * alpha / 2)) by field. rewrite H2. field.
  - rewrite (two_udr _ 1 1 eq_refl eq_refl) by lra. f_equal. field.
Qed.
Print Assumptions C131_order_refuted.

(** ** Late echoes *)
Definition late_H (i t : nat) : R := match i, t with 0%nat, 0%nat => 1 | 0%nat, 1%nat => 2 | 1%nat, 0%nat => 1 | _, _ => 0 end.
Lemma late_eigh : eigh_result 2 (udr_A 2 0 1 late_H false) (udr_B 2 0 1 late_H false kron) (fun j => match j with 0%nat => 0 | _ => 2 end) (fun r j => match r, j with 1%nat, 0%nat => - h2 | _, _ => h2 end).
Proof.
  pose proof h2_sq as H2. split; [|split; [|split]].
  - intros i j Hi Hj. destruct i as [|[|]], j as [|[|]]; try lia; unfold ip, mv, udr_B, gram_cols, ncol, kron, late_H; cbn [bsum Nat.min Nat.sub Nat.add Nat.eqb]; nra.
  - intros x r Hr. destruct r as [|[|]]; [| |lia]; unfold ip, mv, udr_B, gram_cols, ncol, kron, late_H; cbn [bsum Nat.min Nat.sub Nat.add Nat.eqb].
    + transitivity ((h2 * h2 + h2 * h2) * x 0%nat); [rewrite H2; field|ring].
    + transitivity ((h2 * h2 + h2 * h2) * x 1%nat); [rewrite H2; field|ring].
  - intros i r Hi Hr. destruct i as [|[|]], r as [|[|]]; try lia; unfold mv, udr_A, udr_B, gram_cols, ncol, last_useful, kron, late_H; cbn [bsum Nat.min Nat.sub Nat.add Nat.eqb]; ring.
  - intros i j H. destruct i as [|[|]], j as [|[|]]; try lia; lra.
Qed.
(** Without an interferer the echoes after the useful window are left out of the detrimental energy: other filters
    have a larger ratio of useful to detrimental energy than those designed, whose ratio is not the one returned. *)
Theorem C131_late_refuted : exists n L kappa precedence Hc Rn g ratio g', (kappa <= L)%nat /\ sym n Rn /\ max_udr_filters n L kappa precedence Hc false Rn g ratio /\
  (forall t i, (L <= t)%nat -> Hc i t = 0) /\ 0 < detrimental n L kappa precedence Hc Rn g' /\ 0 < detrimental n L kappa precedence Hc Rn g /\
  useful n L kappa precedence Hc g < ratio * detrimental n L kappa precedence Hc Rn g /\
  useful n L kappa precedence Hc g / detrimental n L kappa precedence Hc Rn g < useful n L kappa precedence Hc g' / detrimental n L kappa precedence Hc Rn g'.
Proof.
  pose proof h2_sq as H2. set (g := fun _ : nat => h2). set (g' := fun r : nat => match r with 1%nat => 1 | _ => 0 end).
  assert (U : useful 2 2 0 1 late_H g = 2). { unfold useful, energy_taps, response_tap, late_H, g. cbn [bsum Nat.min Nat.sub Nat.add]. nra. }
  assert (D : detrimental 2 2 0 1 late_H kron g = 3). { unfold detrimental, energy_taps, response_tap, quadratic, ip, mv, late_H, kron, g. cbn [bsum Nat.min Nat.sub Nat.add Nat.mul Nat.eqb]. nra. }
  assert (U' : useful 2 2 0 1 late_H g' = 1). { unfold useful, energy_taps, response_tap, late_H, g'. cbn [bsum Nat.min Nat.sub Nat.add]. ring. }
  assert (D' : detrimental 2 2 0 1 late_H kron g' = 1). { unfold detrimental, energy_taps, response_tap, quadratic, ip, mv, late_H, kron, g'. cbn [bsum Nat.min Nat.sub Nat.add Nat.mul Nat.eqb]. ring. }
  exists 2%nat, 2%nat, 0%nat, 1%nat, late_H, kron, g, 2, g'. rewrite U, D, U', D'. split; [lia|]. split; [intros i j _ _; unfold kron; now rewrite Nat.eqb_sym|]. split; [|split; [|repeat split; lra]].
  - split; [lia|]. eexists _, _. split; [exact late_eigh|]. split; [reflexivity|]. intros r Hr. destruct r as [|[|]]; [| |lia]; reflexivity.
  - intros t i Ht. destruct i as [|[|]], t as [|[|]]; try lia; reflexivity.
Qed.
Print Assumptions C131_late_refuted.
(** The hypotheses of C131_max_udr_filters: the same channels with an interferer heard by the first microphone only *)
Definition int_H (i t : nat) : R := match i, t with 0%nat, 0%nat => 1 | 1%nat, 0%nat => 1 | 0%nat, 1%nat => 1 | _, _ => 0 end.
Example max_udr_filters_case : max_udr_filters 2 1 0 1 int_H true kron (fun r => match r with 0%nat => / sqrt 6 | _ => 2 / sqrt 6 end) (3 / 2) /\
  useful 2 1 0 1 int_H (fun _ => 1) = 4 /\ detrimental 2 1 0 1 int_H kron (fun _ => 1) = 3.
Proof.
  set (s6 := / sqrt 6). set (s3 := / sqrt 3).
  assert (H6 : s6 * s6 = / 6) by (unfold s6; rewrite <- Rinv_mult, sqrt_sqrt by lra; reflexivity). assert (H3 : s3 * s3 = / 3) by (unfold s3; rewrite <- Rinv_mult, sqrt_sqrt by lra; reflexivity).
  split; [|split].
  - split; [lia|]. exists (fun j => match j with 0%nat => 0 | _ => 3 / 2 end), (fun r j => match j, r with 0%nat, 0%nat => - s3 | 0%nat, _ => s3 | _, 0%nat => s6 | _, _ => 2 * s6 end).
    split; [|split; [reflexivity|intros r Hr; destruct r as [|[|]]; [| |lia]; reflexivity]]. split; [|split; [|split]].
    + intros i j Hi Hj. destruct i as [|[|]], j as [|[|]]; try lia; unfold ip, mv, udr_B, gram_cols, ncol, last_useful, kron, int_H; cbn [bsum Nat.min Nat.sub Nat.add Nat.mul Nat.eqb]; ring_simplify; try (replace (s3 ^ 2) with (/ 3) by (rewrite <- H3; ring)); try (replace (s6 ^ 2) with (/ 6) by (rewrite <- H6; ring)); try field.
    + intros x r Hr. destruct r as [|[|]]; [| |lia]; unfold ip, mv, udr_B, gram_cols, ncol, last_useful, kron, int_H; cbn [bsum Nat.min Nat.sub Nat.add Nat.mul Nat.eqb].
      * transitivity (2 * (s3 * s3) * x 0%nat - s3 * s3 * x 1%nat + 2 * (s6 * s6) * x 0%nat + 2 * (s6 * s6) * x 1%nat); [rewrite H3, H6; field|ring].
      * transitivity (- 2 * (s3 * s3) * x 0%nat + s3 * s3 * x 1%nat + 4 * (s6 * s6) * x 0%nat + 4 * (s6 * s6) * x 1%nat); [rewrite H3, H6; field|ring].
    + intros i r Hi Hr. destruct i as [|[|]], r as [|[|]]; try lia; unfold mv, udr_A, udr_B, gram_cols, ncol, last_useful, kron, int_H; cbn [bsum Nat.min Nat.sub Nat.add Nat.mul Nat.eqb]; field.
    + intros i j H. destruct i as [|[|]], j as [|[|]]; try lia; lra.
  - unfold useful, energy_taps, response_tap, int_H. cbn [bsum Nat.min Nat.sub Nat.add]. ring.
  - unfold detrimental, energy_taps, response_tap, quadratic, ip, mv, int_H, kron. cbn [bsum Nat.min Nat.sub Nat.add Nat.mul Nat.eqb]. ring.
Qed.
