(** C155: low rank cleaning, dirty image and raw signals of FRIDA. *)
From Coq Require Import List ZArith Lia Reals Lra Bool.
From Verif Require Import Base BaseProofs Sum Cpx SphereModel DoaModel MusicProps FridaModel FridaProps FridaImgModel.
Import ListNotations.
Local Open Scope R_scope.

(** ** Specification *)
(** the part of the covariance that comes from the sources: [a i p] is the phase of source p at microphone i, [P] the covariance of the sources *)
Definition from_sources (K : nat) (a P : nat -> nat -> C) (i j : nat) : C := csum K (fun p => csum K (fun q => Cmul (Cmul (a i p) (P p q)) (Conj (a j q)))).
(** the power received from azimuth theta by an array that looks to azimuth phi *)
Definition beam (n_mics : nat) (px py : nat -> R) (omega c theta phi : R) : R :=
  Cabs2 (csum n_mics (fun q => cis (omega / c * (px q * (cos theta - cos phi) + py q * (sin theta - sin phi))))).

(** ** Low rank cleaning *)
Lemma fold_min_le d l : forall v, In v l -> fold_right Rmin d l <= v.
Proof. induction l as [|a l IH]; intros v H; [destruct H|]. cbn. destruct H as [->|H]; [apply Rmin_l|]. eapply Rle_trans; [apply Rmin_r|]. now apply IH. Qed.
Lemma fold_min_ge d l m : m <= d -> (forall v, In v l -> m <= v) -> m <= fold_right Rmin d l.
Proof. intros Hd. induction l as [|a l IH]; intros H; cbn; [exact Hd|]. apply Rmin_glb; [apply H; now left|]. apply IH. intros v Hv. apply H. now right. Qed.
Lemma smallest_le n w q : (q < n)%nat -> smallest n w <= w q.
Proof. intros H. apply fold_min_le. apply in_map, in_seq. lia. Qed.
Lemma smallest_eq n w m : (0 < n)%nat -> (forall q, (q < n)%nat -> m <= w q) -> (exists q, (q < n)%nat /\ w q = m) -> smallest n w = m.
Proof.
  intros Hn H (q & Hq & E). apply Rle_antisym; [rewrite <- E; now apply smallest_le|]. apply fold_min_ge; [now apply H|]. intros v Hv. apply in_map_iff in Hv as (i & <- & Hi). apply in_seq in Hi. apply H. lia.
Qed.

Section Clean.
Variables (M K : nat) (A a P : nat -> nat -> C) (sigma2 : R) (w : nat -> R) (E : nat -> nat -> C).
Hypothesis Hcov : source_covariance M K A a P sigma2.
Hypothesis Hpd : positive_definite K P.
Hypothesis Heig : is_eigh M A w E.
Hypothesis HK : (K < M)%nat.
Lemma noise_value q : (q < M - K)%nat -> w q = sigma2.
Proof.
  intros Hq. assert (Z : forall i, (i < M)%nat -> Cmul (RtoC (w q - sigma2)) (E i q) = C0).
  { intros i Hi. rewrite (range_eq M K A a P sigma2 w E Hcov Heig i q Hi ltac:(lia)). apply csum_zero_ext. intros p _. rewrite csum_zero_ext; [ring|]. intros r Hr. pose proof (noise_orthogonal M K A a P sigma2 w E Hcov Hpd Heig q Hq r Hr) as Y. cbv beta in Y. rewrite Y. ring. }
  destruct (Req_dec (w q - sigma2) 0) as [|N]; [lra|]. exfalso. destruct Heig as (On & _). specialize (On q q ltac:(lia) ltac:(lia)). unfold delta in On. rewrite Nat.eqb_refl in On.
  assert (E0 : cip M (fun i => E i q) (fun i => E i q) = C0). { unfold cip. apply csum_zero_ext. intros i Hi. assert (X : E i q = C0) by (apply (C_integral _ _ (Z i Hi)); intros Q; injection Q; lra). rewrite X. ring. }
  rewrite E0 in On. injection On. lra.
Qed.
Lemma all_values q : (q < M)%nat -> sigma2 <= w q.
Proof. intros Hq. destruct Heig as (_ & _ & _ & Mo). rewrite <- (noise_value 0) by lia. apply Mo; lia. Qed.
Lemma spectral i j : (i < M)%nat -> (j < M)%nat -> A i j = csum M (fun q => Cmul (Cmul (E i q) (RtoC (w q))) (Conj (E j q))).
Proof.
  intros Hi Hj. destruct Heig as (_ & Cp & Ev & _). transitivity (csum M (fun l => Cmul (A i l) (delta l j))).
  - rewrite (csum_delta M j); [unfold delta; rewrite Nat.eqb_refl; ring|exact Hj|]. intros l _ N. unfold delta. destruct (Nat.eqb_spec l j); [contradiction|ring].
  - transitivity (csum M (fun l => csum M (fun q => Cmul (Cmul (A i l) (E l q)) (Conj (E j q))))).
    + apply csum_ext. intros l Hl. rewrite <- (Cp l j Hl Hj), <- csum_scal. apply csum_ext. intros q _. ring.
    + rewrite csum_swap. apply csum_ext. intros q Hq. rewrite csum_scal_r, Ev by assumption. ring.
Qed.
Lemma cleaned_eq i j : 0 <= sigma2 -> (0 < K)%nat -> (i < M)%nat -> (j < M)%nat -> low_rank M K (w, E) i j = from_sources K a P i j.
Proof.
  intros S0 K0 Hi Hj. unfold low_rank. cbn [fst snd]. unfold last_from. destruct (Nat.eqb_spec K 0) as [|_]; [lia|]. assert (W : forall q, (q < M)%nat -> Rabs (w q) = w q) by (intros q Hq; apply Rabs_pos_eq; pose proof (all_values q Hq); lra).
  rewrite (smallest_eq M _ sigma2); [|lia|intros q Hq; rewrite W by exact Hq; now apply all_values|exists 0%nat; split; [lia|]; rewrite W by lia; apply noise_value; lia].
  transitivity (csum M (fun q => Cmul (Cmul (E i q) (RtoC (w q - sigma2))) (Conj (E j q)))).
  - replace M with (M - K + (M - (M - K)))%nat at 3 by lia. rewrite csum_split. rewrite (csum_zero_ext (M - K)) by (intros q Hq; rewrite noise_value by exact Hq; replace (sigma2 - sigma2) with 0 by ring; change (RtoC 0) with C0; ring).
    transitivity (csum (M - (M - K)) (fun q => Cmul (Cmul (E i (M - K + q)%nat) (RtoC (w (M - K + q)%nat - sigma2))) (Conj (E j (M - K + q)%nat)))); [|ring]. apply csum_ext. intros q Hq. now rewrite W by lia.
  - transitivity (Csub (csum M (fun q => Cmul (Cmul (E i q) (RtoC (w q))) (Conj (E j q)))) (Cmul (RtoC sigma2) (csum M (fun q => Cmul (E i q) (Conj (E j q)))))).
    + rewrite <- csum_scal, <- csum_sub. apply csum_ext. intros q _. unfold RtoC. apply C_eq; cbn; ring.
    + rewrite <- spectral by assumption. destruct Heig as (_ & Cp & _). rewrite Cp by assumption. rewrite (Hcov i j Hi Hj). unfold from_sources. rewrite Cscal_RtoC. ring.
Qed.
End Clean.

Lemma bsum_term_le : forall n (g : nat -> R) p, (forall k, (k < n)%nat -> 0 <= g k) -> (p < n)%nat -> g p <= bsum n g.
Proof.
  induction n as [|n IH]; intros g p H Hp; [lia|]. cbn [bsum]. destruct (Nat.eq_dec p n) as [->|].
  - pose proof (bsum_nonneg n g (fun k Hk => H k ltac:(lia))). lra.
  - pose proof (IH g p (fun k Hk => H k ltac:(lia)) ltac:(lia)). pose proof (H n ltac:(lia)). lra.
Qed.

(** C155.  Low rank cleaning takes the white noise out of the covariance of fewer sources than microphones exactly, on the diagonal too. *)
Theorem C155_cleaned : forall M K A a P sigma2 e, source_covariance M K A a P sigma2 -> positive_definite K P -> is_eigh M A (fst e) (snd e) -> (0 < K < M)%nat -> 0 <= sigma2 ->
  forall i j, (i < M)%nat -> (j < M)%nat -> low_rank M K e i j = from_sources K a P i j.
Proof. intros M K A a P sigma2 [w E] HC HP HE HK S0 i j Hi Hj. now apply (cleaned_eq M K A a P sigma2 w E). Qed.
Print Assumptions C155_cleaned.

(** C155.  Whatever the covariance, the cleaned one is a sum of num_src terms u u^H: positive, Hermitian and of that rank. *)
Theorem C155_rank : forall M K e, (0 < K <= M)%nat -> exists u : nat -> nat -> C, forall i j, low_rank M K e i j = csum K (fun p => Cmul (u p i) (Conj (u p j))).
Proof.
  intros M K [w E] HK. unfold low_rank. cbn [fst snd]. unfold last_from. destruct (Nat.eqb_spec K 0) as [|_]; [lia|]. set (s := smallest M (fun q => Rabs (w q))). replace (M - (M - K))%nat with K by lia.
  exists (fun p i => Cmul (E i (M - K + p)%nat) (RtoC (sqrt (Rabs (w (M - K + p)%nat) - s)))). intros i j. apply csum_ext. intros p Hp. set (v := Rabs (w (M - K + p)%nat) - s). assert (V : 0 <= v) by (unfold v, s; pose proof (smallest_le M (fun q => Rabs (w q)) (M - K + p) ltac:(lia)) as Q; cbv beta in Q; lra).
  rewrite Conj_mul, Conj_RtoC. transitivity (Cmul (Cmul (E i (M - K + p)%nat) (Cmul (RtoC (sqrt v)) (RtoC (sqrt v)))) (Conj (E j (M - K + p)%nat))); [|ring]. now rewrite <- RtoC_mul, sqrt_sqrt.
Qed.
Print Assumptions C155_rank.

(** C155.  With uncorrelated far away sources, fewer than microphones, in white noise of the same power at all microphones
    the visibilities with and without cleaning are the same. *)
Theorem C155_visibility : forall eigh n_mics n_src n_frames margin floor omega c px py theta power sigma2 s v,
  let x q t := Cadd (csum n_src (fun k => Cmul (s k t) (arrival omega c (theta k) px py q))) (v q t) in
  let F := chosen_frames n_mics n_frames margin floor x in
  F <> [] -> (0 < n_src < n_mics)%nat -> (forall k, (k < n_src)%nat -> 0 < power k) -> 0 <= sigma2 ->
  (forall k l, (k < n_src)%nat -> (l < n_src)%nat -> mean F (fun t => Cmul (Conj (s k t)) (s l t)) = if Nat.eqb k l then RtoC (power k) else C0) ->
  (forall k q, (k < n_src)%nat -> (q < n_mics)%nat -> mean F (fun t => Cmul (Conj (s k t)) (v q t)) = C0 /\ mean F (fun t => Cmul (Conj (v q t)) (s k t)) = C0) ->
  (forall q qp, (q < n_mics)%nat -> (qp < n_mics)%nat -> mean F (fun t => Cmul (Conj (v qp t)) (v q t)) = if Nat.eqb qp q then RtoC sigma2 else C0) ->
  (forall cov, cov_mtx_est F x = Some cov -> is_eigh n_mics cov (fst (eigh cov)) (snd (eigh cov))) ->
  exists vis, visibilities n_mics n_frames margin floor x = Some vis /\ visibilities_cleaned eigh n_mics n_frames n_src margin floor x = Some vis.
Proof.
  intros eigh n_mics n_src n_frames margin floor omega c px py theta power sigma2 s v x F HF HK HP S0 U N1 N2 HE.
  unfold visibilities, visibilities_cleaned. fold F. unfold cov_mtx_est in *. destruct (Nat.eqb_spec (length F) 0) as [Z|_]; [destruct F; [contradiction|discriminate]|]. cbn [bind]. specialize (HE _ eq_refl). set (cov := fun qp q => Cscal (/ INR (length F)) (fold_right Cadd C0 (map (fun t => Cmul (Conj (x qp t)) (x q t)) F))) in *.
  eexists. split; [reflexivity|]. f_equal. unfold extract_off_diag. apply map_ext_in. intros [q qp] I. apply pairs_in in I as (Hq & Hp & N). cbn [fst snd].
  set (a := fun q k => Conj (arrival omega c (theta k) px py q)). set (P := fun k l : nat => if Nat.eqb k l then RtoC (power k) else C0).
  assert (FS : forall i j, from_sources n_src a P i j = csum n_src (fun k => Cmul (RtoC (power k)) (Cmul (Conj (arrival omega c (theta k) px py i)) (arrival omega c (theta k) px py j)))).
  { intros i j. unfold from_sources. apply csum_ext. intros k Hk. rewrite (csum_delta n_src k); [unfold P, a; rewrite Nat.eqb_refl, Conj_conj; ring|exact Hk|]. intros l _ NE. unfold P. destruct (Nat.eqb_spec k l); [congruence|ring]. }
  assert (CV : forall i j, (i < n_mics)%nat -> (j < n_mics)%nat -> cov i j = Cadd (from_sources n_src a P i j) (Cscal sigma2 (delta i j))).
  { intros i j Hi Hj. change (cov i j) with (mean F (fun t => Cmul (Conj (x i t)) (x j t))). rewrite FS. set (b := fun k q => arrival omega c (theta k) px py q).
    change (csum n_src (fun k => Cmul (RtoC (power k)) (Cmul (Conj (arrival omega c (theta k) px py i)) (arrival omega c (theta k) px py j)))) with (csum n_src (fun k => Cmul (RtoC (power k)) (Cmul (Conj (b k i)) (b k j)))).
    transitivity (mean F (fun t => Cadd (Cadd (csum n_src (fun k => csum n_src (fun l => Cmul (Cmul (Conj (b k i)) (b l j)) (Cmul (Conj (s k t)) (s l t)))))
                                               (csum n_src (fun k => Cmul (Conj (b k i)) (Cmul (Conj (s k t)) (v j t)))))
                                         (Cadd (csum n_src (fun l => Cmul (b l j) (Cmul (Conj (v i t)) (s l t)))) (Cmul (Conj (v i t)) (v j t))))).
    - apply mean_ext. intro t. unfold x. change (csum n_src (fun k => Cmul (s k t) (arrival omega c (theta k) px py j))) with (csum n_src (fun k => Cmul (s k t) (b k j))). change (csum n_src (fun k => Cmul (s k t) (arrival omega c (theta k) px py i))) with (csum n_src (fun k => Cmul (s k t) (b k i))).
      rewrite Conj_add, csum_conj. set (S1 := csum n_src (fun k => Conj (Cmul (s k t) (b k i)))). set (S2 := csum n_src (fun k => Cmul (s k t) (b k j))).
      assert (E1 : csum n_src (fun k => csum n_src (fun l => Cmul (Cmul (Conj (b k i)) (b l j)) (Cmul (Conj (s k t)) (s l t)))) = Cmul S1 S2).
      { unfold S1. rewrite <- csum_scal_r. apply csum_ext. intros k Hk. unfold S2. rewrite <- csum_scal. apply csum_ext. intros l Hl. rewrite Conj_mul. ring. }
      assert (E2 : csum n_src (fun k => Cmul (Conj (b k i)) (Cmul (Conj (s k t)) (v j t))) = Cmul S1 (v j t)).
      { unfold S1. rewrite <- csum_scal_r. apply csum_ext. intros k Hk. rewrite Conj_mul. ring. }
      assert (E3 : csum n_src (fun l => Cmul (b l j) (Cmul (Conj (v i t)) (s l t))) = Cmul (Conj (v i t)) S2).
      { unfold S2. rewrite <- csum_scal. apply csum_ext. intros k Hk. ring. }
      rewrite E1, E2, E3. ring.
    - rewrite !mean_add, !mean_csum, N2 by assumption.
      rewrite (csum_zero_ext n_src (fun k => mean F (fun t => Cmul (Conj (b k i)) (Cmul (Conj (s k t)) (v j t))))) by (intros k Hk; rewrite mean_scal, (proj1 (N1 k j Hk Hj)); ring).
      rewrite (csum_zero_ext n_src (fun k => mean F (fun t => Cmul (b k j) (Cmul (Conj (v i t)) (s k t))))) by (intros k Hk; rewrite mean_scal, (proj2 (N1 k i Hk Hi)); ring).
      rewrite (csum_ext n_src (fun k => mean F _) (fun k => Cmul (RtoC (power k)) (Cmul (Conj (b k i)) (b k j)))).
      + unfold delta. destruct (Nat.eqb_spec i j); rewrite Cscal_RtoC; ring.
      + intros k Hk. rewrite mean_csum. rewrite (csum_delta n_src k); [rewrite mean_scal, U, Nat.eqb_refl by assumption; ring|exact Hk|]. intros l Hl NE. rewrite mean_scal, U by assumption. destruct (Nat.eqb_spec k l); [congruence|ring]. }
  rewrite (CV qp q Hp Hq). unfold delta at 1. destruct (Nat.eqb_spec qp q); [contradiction|]. transitivity (from_sources n_src a P qp q).
  - apply (C155_cleaned n_mics n_src cov a P sigma2); auto. intros z (p0 & Hp0 & Nz).
    assert (Q : csum n_src (fun k => csum n_src (fun l => Cmul (Cmul (Conj (z k)) (P k l)) (z l))) = RtoC (bsum n_src (fun k => power k * Cabs2 (z k)))).
    { rewrite <- csum_RtoC. apply csum_ext. intros k Hk. rewrite (csum_delta n_src k); [unfold P; rewrite Nat.eqb_refl, RtoC_mul, <- Cmul_conj; ring|exact Hk|]. intros l _ NE. unfold P. destruct (Nat.eqb_spec k l); [congruence|ring]. }
    rewrite Q. cbn [fst RtoC]. apply Rlt_le_trans with (power p0 * Cabs2 (z p0)).
    + apply Rmult_lt_0_compat; [now apply HP|]. destruct (Cabs2_nonneg (z p0)) as [L|L]; [exact L|]. symmetry in L. apply Cabs2_zero in L. contradiction.
    + apply (bsum_term_le n_src (fun k => power k * Cabs2 (z k)) p0); [intros k Hk; apply Rmult_le_pos; [left; auto|apply Cabs2_nonneg]|exact Hp0].
  - rewrite Cscal_RtoC. ring.
Qed.
Print Assumptions C155_visibility.

(** Two microphones half a wavelength apart, a source at azimuth 0, and four frames in which noise of power one is orthogonal. *)
Definition ex_noise (q t : nat) : C := (0, match q, t with 0%nat, 0%nat | 0%nat, 2%nat | 1%nat, 0%nat | 1%nat, 1%nat => 1 | _, _ => -1 end).
Definition ex_r : R := / sqrt 2.
Definition ex_vl (i q : nat) : C := (match i, q with 1%nat, 1%nat => - ex_r | _, _ => ex_r end, 0).
Definition ex_eigh2 (_ : nat -> nat -> C) : (nat -> R) * (nat -> nat -> C) := (fun q => match q with 0%nat => 1 | _ => 3 end, ex_vl).
Lemma ex_r2 : ex_r * ex_r = 1 / 2.
Proof. unfold ex_r. rewrite <- Rinv_mult, sqrt_sqrt by lra. lra. Qed.
Lemma ex_is_eigh A : A 0%nat 0%nat = (2, 0) -> A 0%nat 1%nat = (-1, 0) -> A 1%nat 0%nat = (-1, 0) -> A 1%nat 1%nat = (2, 0) -> is_eigh 2 A (fst (ex_eigh2 A)) (snd (ex_eigh2 A)).
Proof.
  intros A00 A01 A10 A11. pose proof ex_r2 as R2. unfold is_eigh, cip, delta. cbn [ex_eigh2 fst snd].
  repeat split.
  - intros [|[|p]] [|[|q]] Hp Hq; try lia; cbn [Nat.eqb]; rewrite !csum_S, csum_0; apply C_eq; cbn; nra.
  - intros [|[|p]] [|[|q]] Hp Hq; try lia; cbn [Nat.eqb]; rewrite !csum_S, csum_0; apply C_eq; cbn; nra.
  - intros [|[|p]] [|[|q]] Hp Hq; try lia; rewrite !csum_S, csum_0, ?A00, ?A01, ?A10, ?A11; apply C_eq; cbn; ring.
  - intros [|[|p]] [|[|q]] Hp Hq; try lia; cbn; lra.
Qed.
Example cleaned_example : let x q t := Cadd (csum 1 (fun k => Cmul C1 (arrival 1 1 0 (fun m => INR m * PI) (fun _ => 0) q))) (ex_noise q t) in
  visibilities 2 4 1 0 x = Some [(-1, 0); (-1, 0)] /\ visibilities_cleaned ex_eigh2 2 4 1 1 0 x = Some [(-1, 0); (-1, 0)] /\
  (forall i j, (i < 2)%nat -> (j < 2)%nat -> low_rank 2 1 (ex_eigh2 (fun _ _ => C0)) i j = if Nat.eqb i j then C1 else (-1, 0)).
Proof.
  intro x. assert (X : forall q t, (q < 2)%nat -> x q t = (if Nat.eqb q 0 then 1 else -1, snd (ex_noise q t))).
  { intros q t Hq. unfold x, arrival, cis. rewrite csum_S, csum_0. rewrite cos_0, sin_0. destruct q as [|[|q]]; [| |lia]; cbn [Nat.eqb INR].
    - replace (1 * (0 * PI * 1 + 0 * 0) / 1) with 0 by field. rewrite cos_0, sin_0. apply C_eq; cbn; ring.
    - replace (1 * (1 * PI * 1 + 0 * 0) / 1) with PI by field. rewrite cos_PI, sin_PI. apply C_eq; cbn; ring. }
  assert (EN : forall t, 0 < energy 2 x t). { intro t. unfold energy, frame_mean. rewrite !csum_S, csum_0. cbn [bsum]. rewrite !X by lia. generalize (snd (ex_noise 0 t)) (snd (ex_noise 1 t)). intros y0 y1. match goal with |- 0 < ?e => replace e with (1 + ((y0 - y1) / 2) ^ 2) by (unfold Cabs2; cbn; field) end. pose proof (pow2_ge_0 ((y0 - y1) / 2)). lra. }
  assert (F : chosen_frames 2 4 1 0 x = [0; 1; 2; 3]%nat).
  { unfold chosen_frames. cbn [seq filter]. repeat match goal with |- context [Rlt_dec ?a ?b] => destruct (Rlt_dec a b) as [_|N]; [|exfalso; apply N; rewrite Rmult_0_r; apply EN] end. reflexivity. }
  assert (LR : forall i j, (i < 2)%nat -> (j < 2)%nat -> low_rank 2 1 (ex_eigh2 (fun _ _ => C0)) i j = if Nat.eqb i j then C1 else (-1, 0)).
  { pose proof ex_r2 as R2. intros i j Hi Hj. unfold low_rank, smallest, last_from. cbn [ex_eigh2 fst snd Nat.eqb Nat.sub Nat.add seq map fold_right]. rewrite !Rabs_pos_eq by lra. rewrite (Rmin_right 3 1), !(Rmin_left 1 1) by lra. rewrite csum_S, csum_0.
    destruct i as [|[|i]], j as [|[|j]]; try lia; apply C_eq; cbn; nra. }
  split; [|split; [|exact LR]].
  - unfold visibilities. rewrite F. unfold cov_mtx_est. cbn [length Nat.eqb bind]. unfold extract_off_diag. change (pairs 2) with [(0, 1)%nat; (1, 0)%nat]. cbn [map fst snd fold_right]. rewrite !X by lia. apply (f_equal (@Some _)). apply (f_equal2 cons); [|apply (f_equal2 cons); [|reflexivity]]; apply C_eq; cbn; field.
  - unfold visibilities_cleaned. rewrite F. unfold cov_mtx_est. cbn [length Nat.eqb bind]. unfold extract_off_diag. change (pairs 2) with [(0, 1)%nat; (1, 0)%nat]. cbn [map fst snd]. match goal with |- context [ex_eigh2 ?A] => change (ex_eigh2 A) with (ex_eigh2 (fun _ _ => C0)) end. rewrite !LR by lia. reflexivity.
Qed.
(** the hypotheses of C155_visibility hold for it *)
Example visibility_hypotheses : let x q t := Cadd (csum 1 (fun k => Cmul C1 (arrival 1 1 0 (fun m => INR m * PI) (fun _ => 0) q))) (ex_noise q t) in
  let F := [0; 1; 2; 3]%nat in
  (forall q, (q < 2)%nat -> mean F (fun t => Cmul (Conj C1) (ex_noise q t)) = C0 /\ mean F (fun t => Cmul (Conj (ex_noise q t)) C1) = C0) /\
  (forall q qp, (q < 2)%nat -> (qp < 2)%nat -> mean F (fun t => Cmul (Conj (ex_noise qp t)) (ex_noise q t)) = if Nat.eqb qp q then RtoC 1 else C0) /\
  (forall cov, cov_mtx_est F x = Some cov -> is_eigh 2 cov (fst (ex_eigh2 cov)) (snd (ex_eigh2 cov))).
Proof.
  intros x F. unfold mean, F. cbn [length map fold_right]. split; [|split].
  - intros [|[|q]] Hq; try lia; split; apply C_eq; cbn; field.
  - intros [|[|q]] [|[|qp]] Hq Hp; try lia; apply C_eq; cbn; field.
  - assert (X : forall q t, (q < 2)%nat -> x q t = (if Nat.eqb q 0 then 1 else -1, snd (ex_noise q t))).
    { intros q t Hq. unfold x, arrival, cis. rewrite csum_S, csum_0. rewrite cos_0, sin_0. destruct q as [|[|q]]; [| |lia]; cbn [Nat.eqb INR].
      - replace (1 * (0 * PI * 1 + 0 * 0) / 1) with 0 by field. rewrite cos_0, sin_0. apply C_eq; cbn; ring.
      - replace (1 * (1 * PI * 1 + 0 * 0) / 1) with PI by field. rewrite cos_PI, sin_PI. apply C_eq; cbn; ring. }
    intros cov H. unfold cov_mtx_est in H. cbn [length Nat.eqb] in H. apply (f_equal (fun o => match o with Some g => g | None => cov end)) in H. cbv beta iota in H. rewrite <- H. apply ex_is_eigh; cbn [map fold_right]; rewrite !X by lia; apply C_eq; cbn; field.
Qed.

(** ** The dirty image *)
Lemma csum_list {A} (f : A -> C) d l : csum (length l) (fun i => f (nth i l d)) = fold_right Cadd C0 (map f l).
Proof.
  induction l as [|a l IH]; [reflexivity|]. cbn [length map fold_right]. rewrite <- IH. change (Datatypes.S (length l)) with (1 + length l)%nat. rewrite csum_split, csum_S, csum_0. cbn [nth Nat.add]. ring.
Qed.
Lemma fold_app (l l' : list C) : fold_right Cadd C0 (l ++ l') = Cadd (fold_right Cadd C0 l) (fold_right Cadd C0 l').
Proof. induction l as [|a l IH]; cbn; [ring|]. rewrite IH. ring. Qed.
Lemma fold_seq (f : nat -> C) n : fold_right Cadd C0 (map f (seq 0 n)) = csum n f.
Proof. rewrite <- (csum_list f 0%nat), seq_length. apply csum_ext. intros i Hi. now rewrite seq_nth. Qed.
Lemma fold_filter (f : nat -> C) (p : nat -> bool) l : fold_right Cadd C0 (map f (filter p l)) = fold_right Cadd C0 (map (fun i => if p i then f i else C0) l).
Proof. induction l as [|a l IH]; [reflexivity|]. cbn. destruct (p a); cbn; rewrite IH; ring. Qed.
Lemma csum_pairs n (f : nat * nat -> C) d : csum (length (pairs n)) (fun i => f (nth i (pairs n) d)) = csum n (fun q => csum n (fun qp => if Nat.eqb qp q then C0 else f (q, qp))).
Proof.
  rewrite csum_list. unfold pairs. rewrite <- (fold_seq (fun q => csum n (fun qp => if Nat.eqb qp q then C0 else f (q, qp)))).
  assert (G : forall l, fold_right Cadd C0 (map f (flat_map (fun q => map (fun qp => (q, qp)) (filter (fun qp => negb (Nat.eqb qp q)) (seq 0 n))) l)) = fold_right Cadd C0 (map (fun q => csum n (fun qp => if Nat.eqb qp q then C0 else f (q, qp))) l)); [|apply G].
  induction l as [|q l IH]; [reflexivity|]. cbn [flat_map map fold_right]. rewrite map_app, fold_app, IH, map_map, fold_filter, fold_seq. f_equal. apply csum_ext. intros qp _. now destruct (Nat.eqb qp q).
Qed.
Lemma off_diagonal n (z : nat -> C) : (forall q, (q < n)%nat -> Cabs2 (z q) = 1) ->
  csum n (fun q => csum n (fun qp => if Nat.eqb qp q then C0 else Cmul (z q) (Conj (z qp)))) = RtoC (Cabs2 (csum n z) - INR n).
Proof.
  intros H. transitivity (csum n (fun q => Csub (Cmul (z q) (Conj (csum n z))) C1)).
  - apply csum_ext. intros q Hq. rewrite csum_conj, <- csum_scal. transitivity (Csub (csum n (fun qp => Cmul (z q) (Conj (z qp)))) (csum n (fun qp => if Nat.eqb qp q then C1 else C0))).
    + rewrite <- csum_sub. apply csum_ext. intros qp Hp. destruct (Nat.eqb_spec qp q) as [->|]; [|ring]. rewrite Cmul_conj, H by exact Hq. change (RtoC 1) with C1. ring.
    + rewrite (csum_delta n q (fun qp => if Nat.eqb qp q then C1 else C0)); [now rewrite Nat.eqb_refl|exact Hq|]. intros l _ N. destruct (Nat.eqb_spec l q); [contradiction|reflexivity].
  - rewrite csum_sub, csum_scal_r, Cmul_conj. assert (E : csum n (fun _ => C1) = RtoC (INR n)). { clear. induction n as [|n IH]; [reflexivity|]. rewrite csum_S, IH, S_INR. apply C_eq; cbn; ring. }
    rewrite E. apply C_eq; cbn; ring.
Qed.
(** how far unit phasors are from being equal *)
Lemma spread n (z : nat -> C) : (forall q, (q < n)%nat -> Cabs2 (z q) = 1) -> bsum n (fun q => bsum n (fun l => Cabs2 (Csub (z q) (z l)))) = 2 * (INR n * INR n - Cabs2 (csum n z)).
Proof.
  intros H. set (S := csum n z). assert (E : RtoC (bsum n (fun q => bsum n (fun l => Cabs2 (Csub (z q) (z l))))) = RtoC (2 * (INR n * INR n - Cabs2 S))); [|apply (f_equal fst) in E; exact E].
  assert (CN : forall k, csum n (fun _ => k) = Cmul (RtoC (INR n)) k). { intros k. clear. induction n as [|n IH]; [cbn; apply C_eq; cbn; ring|]. rewrite csum_S, IH, S_INR. apply C_eq; cbn; ring. }
  rewrite <- csum_RtoC. transitivity (csum n (fun q => Csub (Cmul (RtoC (INR n)) (RtoC 2)) (Cadd (Cmul (z q) (Conj S)) (Cmul S (Conj (z q)))))).
  - apply csum_ext. intros q Hq. rewrite <- csum_RtoC, <- CN. unfold S. rewrite csum_conj, <- csum_scal, <- csum_scal_r, <- csum_add, <- csum_sub. apply csum_ext. intros l Hl. pose proof (H q Hq) as Q1. pose proof (H l Hl) as Q2. unfold Cabs2 in *. apply C_eq; cbn in *; nra.
  - rewrite csum_sub, csum_add, CN, csum_scal_r, csum_scal, <- csum_conj. fold S. rewrite Cmul_conj. apply C_eq; cbn; ring.
Qed.

Section Image.
Variables (n B K : nat) (px py : nat -> R) (c : R) (omega theta : nat -> R) (power : nat -> nat -> R) (vis : nat -> nat -> C).
Hypothesis Hn : (2 <= n)%nat.
Hypothesis Hc : c <> 0.
Hypothesis Hw : forall b, (b < B)%nat -> omega b <> 0.
Hypothesis Hvis : forall b i, (b < B)%nat -> (i < n * (n - 1))%nat -> vis b i = csum K (fun k => Cmul (RtoC (power b k))
  (build_mtx_amp (theta k + PI) (fun m => px m / (c / omega b)) (fun m => py m / (c / omega b)) (nth i (pairs n) (0, 0)%nat))).
Definition ph b t phi q := omega b / c * (px q * (cos t - cos phi) + py q * (sin t - sin phi)).
Lemma image_eq phi : dirty_img n B px py c omega vis phi =
  Some (RtoC (bsum B (fun b => bsum K (fun k => power b k * ((beam n px py (omega b) c (theta k) phi - INR n) / (INR n * INR (n - 1))))))).
Proof.
  assert (N0 : INR n <> 0) by (apply not_0_INR; lia). assert (N1 : INR (n - 1) <> 0) by (apply not_0_INR; lia).
  unfold dirty_img. destruct (Nat.ltb_spec n 2); [lia|]. apply (f_equal (@Some _)). rewrite Cscal_RtoC, <- csum_scal, <- csum_RtoC. apply csum_ext. intros b Hb.
  rewrite <- csum_RtoC. transitivity (Cmul (RtoC (/ (INR n * INR (n - 1)))) (csum K (fun k => Cmul (RtoC (power b k)) (RtoC (beam n px py (omega b) c (theta k) phi - INR n))))).
  - f_equal. transitivity (csum (length (pairs n)) (fun i => csum K (fun k => Cmul (RtoC (power b k)) ((fun p => Cmul (cis (ph b (theta k) phi (fst p))) (Conj (cis (ph b (theta k) phi (snd p))))) (nth i (pairs n) (0, 0)%nat))))).
    + apply csum_ext. intros i Hi. rewrite pairs_length in Hi. rewrite Hvis by assumption. rewrite <- csum_scal_r. apply csum_ext. intros k Hk. cbv beta. destruct (nth i (pairs n) (0, 0)%nat) as [q qp]. unfold build_mtx_amp, baseline. cbn [fst snd].
      rewrite <- cis_opp, <- cis_add. transitivity (Cmul (RtoC (power b k)) (Cmul (cis (- (cos (theta k + PI) * (px q / (c / omega b) - px qp / (c / omega b)) + sin (theta k + PI) * (py q / (c / omega b) - py qp / (c / omega b))))) (cis (- ((px q / (c / omega b) - px qp / (c / omega b)) * cos phi + (py q / (c / omega b) - py qp / (c / omega b)) * sin phi))))); [ring|].
      rewrite <- cis_add. f_equal. f_equal. rewrite neg_cos, neg_sin. unfold ph. field. auto.
    + rewrite csum_swap. apply csum_ext. intros k Hk. rewrite csum_scal. f_equal. rewrite (csum_pairs n (fun p => Cmul (cis (ph b (theta k) phi (fst p))) (Conj (cis (ph b (theta k) phi (snd p))))) (0, 0)%nat). cbn [fst snd].
      rewrite (off_diagonal n (fun q => cis (ph b (theta k) phi q))) by (intros; apply cis_abs2). reflexivity.
  - rewrite <- csum_scal. apply csum_ext. intros k Hk. rewrite <- !RtoC_mul. f_equal. field. auto.
Qed.
End Image.

(** C155.  The dirty image of exact visibilities (those of C148_visibility): every source shows the beam of the array around its own
    azimuth, with the power of the source; the image is real. *)
Theorem C155_image : forall n B K px py c omega theta power vis, (2 <= n)%nat -> c <> 0 -> (forall b, (b < B)%nat -> omega b <> 0) ->
  (forall b i, (b < B)%nat -> (i < n * (n - 1))%nat -> vis b i = csum K (fun k => Cmul (RtoC (power b k))
    (build_mtx_amp (theta k + PI) (fun m => px m / (c / omega b)) (fun m => py m / (c / omega b)) (nth i (pairs n) (0, 0)%nat)))) ->
  forall phi, dirty_img n B px py c omega vis phi =
    Some (RtoC (bsum B (fun b => bsum K (fun k => power b k * ((beam n px py (omega b) c (theta k) phi - INR n) / (INR n * INR (n - 1))))))).
Proof. intros. now apply image_eq. Qed.
Print Assumptions C155_image.

Lemma beam_le n px py w c t phi : beam n px py w c t phi <= INR n * INR n.
Proof.
  unfold beam. pose proof (spread n (fun q => cis (w / c * (px q * (cos t - cos phi) + py q * (sin t - sin phi)))) ltac:(intros; apply cis_abs2)) as E.
  match type of E with ?L = _ => assert (0 <= L) by (apply bsum_nonneg; intros; apply bsum_nonneg; intros; apply Cabs2_nonneg) end. lra.
Qed.
Lemma bsum_sub : forall n f g, bsum n (fun i => f i - g i) = bsum n f - bsum n g.
Proof. induction n as [|n IH]; intros f g; cbn; [ring|]. rewrite IH. ring. Qed.
Lemma bsum_all_zero : forall n (g : nat -> R), (forall i, (i < n)%nat -> 0 <= g i) -> bsum n g = 0 -> forall i, (i < n)%nat -> g i = 0.
Proof. intros n g H E i Hi. pose proof (bsum_term_le n g i H Hi). pose proof (H i Hi). lra. Qed.
Lemma beam_max n px py w c t phi : beam n px py w c t phi = INR n * INR n <->
  forall q l, (q < n)%nat -> (l < n)%nat -> cis (w / c * (px q * (cos t - cos phi) + py q * (sin t - sin phi))) = cis (w / c * (px l * (cos t - cos phi) + py l * (sin t - sin phi))).
Proof.
  unfold beam. set (z := fun q => cis (w / c * (px q * (cos t - cos phi) + py q * (sin t - sin phi)))). pose proof (spread n z ltac:(intros; apply cis_abs2)) as E. split.
  - intros Q q l Hq Hl. rewrite Q in E. assert (E0 : bsum n (fun q => bsum n (fun l => Cabs2 (Csub (z q) (z l)))) = 0) by lra.
    pose proof (bsum_all_zero n _ ltac:(intros; apply bsum_nonneg; intros; apply Cabs2_nonneg) E0 q Hq) as E1. cbv beta in E1. pose proof (bsum_all_zero n _ ltac:(intros; apply Cabs2_nonneg) E1 l Hl) as E2. cbv beta in E2. apply Cabs2_zero in E2. change (z q = z l). transitivity (Cadd (Csub (z q) (z l)) (z l)); [ring|]. rewrite E2. ring.
  - intros Q. assert (E0 : bsum n (fun q => bsum n (fun l => Cabs2 (Csub (z q) (z l)))) = 0). { apply bsum_zero_ext. intros q Hq. apply bsum_zero_ext. intros l Hl. unfold z at 1. rewrite (Q q l Hq Hl). fold (z l). unfold Cabs2. cbn. ring. }
    rewrite E0 in E. lra.
Qed.

(** C155.  No direction shows more than the whole power, and with a single source the whole power shows exactly in the directions
    that the array cannot tell from that of the source at any of the frequencies with power: the image has its maximum at the source. *)
Theorem C155_peak : forall n B K px py c omega theta power vis, (2 <= n)%nat -> c <> 0 -> (forall b, (b < B)%nat -> omega b <> 0) ->
  (forall b k, (b < B)%nat -> (k < K)%nat -> 0 <= power b k) ->
  (forall b i, (b < B)%nat -> (i < n * (n - 1))%nat -> vis b i = csum K (fun k => Cmul (RtoC (power b k))
    (build_mtx_amp (theta k + PI) (fun m => px m / (c / omega b)) (fun m => py m / (c / omega b)) (nth i (pairs n) (0, 0)%nat)))) ->
  forall phi, exists v, dirty_img n B px py c omega vis phi = Some (RtoC v) /\ v <= bsum B (fun b => bsum K (fun k => power b k)) /\
    (v = bsum B (fun b => bsum K (fun k => power b k)) <->
       forall b k, (b < B)%nat -> (k < K)%nat -> 0 < power b k -> forall q l, (q < n)%nat -> (l < n)%nat ->
         cis (omega b / c * (px q * (cos (theta k) - cos phi) + py q * (sin (theta k) - sin phi))) = cis (omega b / c * (px l * (cos (theta k) - cos phi) + py l * (sin (theta k) - sin phi)))).
Proof.
  intros n B K px py c omega theta power vis Hn Hc Hw HP Hv phi. eexists. split; [now apply (C155_image n B K px py c omega theta power vis)|].
  set (N := INR n * INR (n - 1)). assert (N0 : 0 < N) by (apply Rmult_lt_0_compat; apply lt_0_INR; lia). assert (NN : N = INR n * INR n - INR n) by (unfold N; rewrite minus_INR by lia; cbn [INR]; ring).
  set (g := fun b k => power b k * ((INR n * INR n - beam n px py (omega b) c (theta k) phi) / N)).
  assert (G0 : forall b k, (b < B)%nat -> (k < K)%nat -> 0 <= g b k). { intros b k Hb Hk. apply Rmult_le_pos; [auto|]. apply Rmult_le_pos; [pose proof (beam_le n px py (omega b) c (theta k) phi); lra|left; now apply Rinv_0_lt_compat]. }
  assert (D : bsum B (fun b => bsum K (fun k => power b k)) - bsum B (fun b => bsum K (fun k => power b k * ((beam n px py (omega b) c (theta k) phi - INR n) / N))) = bsum B (fun b => bsum K (fun k => g b k))).
  { rewrite <- bsum_sub. apply bsum_ext. intros b _. rewrite <- bsum_sub. apply bsum_ext. intros k _. unfold g. rewrite NN. field. lra. }
  assert (P0 : 0 <= bsum B (fun b => bsum K (fun k => g b k))) by (apply bsum_nonneg; intros b Hb; apply bsum_nonneg; intros k Hk; auto).
  split; [lra|]. split.
  - intros Q b k Hb Hk Pw. apply beam_max. assert (Z : bsum B (fun b => bsum K (fun k => g b k)) = 0) by lra.
    pose proof (bsum_all_zero B _ (fun b' Hb' => bsum_nonneg K (g b') (fun k' Hk' => G0 b' k' Hb' Hk')) Z b Hb) as E1. cbv beta in E1. pose proof (bsum_all_zero K (g b) (fun k' Hk' => G0 b k' Hb Hk') E1 k Hk) as E2. cbv beta in E2. unfold g in E2. apply Rmult_integral in E2 as [E2|E2]; [lra|]. apply Rmult_integral in E2 as [E2|E2]; [lra|]. pose proof (Rinv_0_lt_compat N N0). lra.
  - intros Q. assert (Z : bsum B (fun b => bsum K (fun k => g b k)) = 0). { apply bsum_zero_ext. intros b Hb. apply bsum_zero_ext. intros k Hk. unfold g. destruct (HP b k Hb Hk) as [Pw|<-]; [|ring]. rewrite (proj2 (beam_max n px py (omega b) c (theta k) phi)); [unfold Rdiv; ring|]. intros q l Hq Hl. now apply (Q b k Hb Hk Pw). }
    lra.
Qed.
Print Assumptions C155_peak.

(** The two microphones of the example: all the power at azimuth 0; azimuth pi cannot be told from it; a quarter turn shows minus the power. *)
Example image_example : let img := dirty_img 2 1 (fun m => INR m * PI) (fun _ => 0) 1 (fun _ => 1) (fun _ _ => (-1, 0)) in
  img 0 = Some (RtoC 1) /\ img PI = Some (RtoC 1) /\ img (PI / 2) = Some (RtoC (-1)).
Proof.
  assert (E : forall phi, dirty_img 2 1 (fun m => INR m * PI) (fun _ => 0) 1 (fun _ => 1) (fun _ _ => (-1, 0)) phi = Some (RtoC (- cos (PI * cos phi)))).
  { intro phi. unfold dirty_img. change (Nat.ltb 2 2) with false. cbv iota. change (pairs 2) with [(0, 1)%nat; (1, 0)%nat]. cbn [length Nat.sub]. rewrite !csum_S, !csum_0. cbn [nth]. unfold baseline. cbn [fst snd INR].
    replace (- ((0 * PI / (1 / 1) - 1 * PI / (1 / 1)) * cos phi + (0 / (1 / 1) - 0 / (1 / 1)) * sin phi)) with (PI * cos phi) by field.
    replace (- ((1 * PI / (1 / 1) - 0 * PI / (1 / 1)) * cos phi + (0 / (1 / 1) - 0 / (1 / 1)) * sin phi)) with (- (PI * cos phi)) by field.
    rewrite cis_opp. apply (f_equal (@Some _)). apply C_eq; cbn; field. }
  cbv zeta. rewrite !E. rewrite cos_0, cos_PI, cos_PI2. replace (PI * 1) with PI by ring. replace (PI * -1) with (- PI) by ring. rewrite Rmult_0_r, cos_neg, cos_PI, cos_0. repeat split; repeat f_equal; ring.
Qed.

(** ** Raw signals *)
(** C155.  The averaged raw signals: the factor meant to align the frames is one, so the result is the mean of the frames as they are.
    The frames of a stationary tone whose hop is a whole number of FFT lengths average to the tone. *)
Theorem C155_raw : forall fs nfft bin n_frames x, fs <> 0%Z -> nfft <> 0%Z -> (0 < n_frames)%nat ->
  raw_average fs nfft bin n_frames x = Some (Cscal (/ INR n_frames) (csum n_frames x)) /\
  (forall X0 m, (forall t, (t < n_frames)%nat -> x t = Cmul X0 (cis (2 * PI * freq_hz fs nfft bin * INR t * (IZR m * IZR nfft) / IZR fs))) -> raw_average fs nfft bin n_frames x = Some X0).
Proof.
  intros fs nfft bin n x Hf Hn H0. assert (F0 : IZR fs <> 0) by now apply not_0_IZR. assert (G0 : IZR nfft <> 0) by now apply not_0_IZR. assert (N0 : INR n <> 0) by (apply not_0_INR; lia).
  assert (T : forall t m, cis (2 * PI * freq_hz fs nfft bin * INR t * (IZR m * IZR nfft) / IZR fs) = C1).
  { intros t m. transitivity (cis (0 + 2 * IZR (Z.of_nat bin * Z.of_nat t * m) * PI)); [|rewrite cis_period; apply cis_0]. f_equal. rewrite !mult_IZR, <- !INR_IZR_INZ. unfold freq_hz. field. auto. }
  assert (A : raw_average fs nfft bin n x = Some (Cscal (/ INR n) (csum n x))).
  { unfold raw_average. destruct (Nat.eqb_spec n 0); [lia|]. apply (f_equal (@Some _)). f_equal. apply csum_ext. intros t _. replace (- (2 * PI * freq_hz fs nfft bin * INR t * IZR nfft / IZR fs)) with (2 * PI * freq_hz fs nfft bin * INR t * (IZR (-1) * IZR nfft) / IZR fs) by (field; auto). rewrite T. ring. }
  split; [exact A|]. intros X0 m Hx. rewrite A. apply (f_equal (@Some _)). rewrite (csum_ext n x (fun _ => X0)) by (intros t Ht; rewrite Hx by exact Ht; rewrite T; ring).
  assert (CN : csum n (fun _ => X0) = Cmul (RtoC (INR n)) X0). { clear. induction n as [|n IH]; [cbn; apply C_eq; cbn; ring|]. rewrite csum_S, IH, S_INR. apply C_eq; cbn; ring. }
  rewrite CN. apply C_eq; cbn; field; auto.
Qed.
Print Assumptions C155_raw.
(** With frames that overlap by half a stationary tone in an odd bin averages to nothing. *)
Theorem C155_overlap_refuted : exists fs nfft hop bin n_frames x, (0 < n_frames)%nat /\ (0 < hop < nfft)%Z /\
  (forall t, x t = cis (2 * PI * freq_hz fs nfft bin * INR t * IZR hop / IZR fs)) /\ x 0%nat = C1 /\ raw_average fs nfft bin n_frames x = Some C0.
Proof.
  exists 16000%Z, 512%Z, 256%Z, 1%nat, 2%nat, (fun t => cis (2 * PI * freq_hz 16000 512 1 * INR t * IZR 256 / IZR 16000)).
  split; [lia|]. split; [lia|]. split; [reflexivity|]. split; [cbn [INR]; replace (2 * PI * freq_hz 16000 512 1 * 0 * 256 / 16000) with 0 by field; apply cis_0|].
  match goal with |- raw_average _ _ _ _ ?x = _ => rewrite (proj1 (C155_raw 16000 512 1 2 x ltac:(lia) ltac:(lia) ltac:(lia))) end. apply (f_equal (@Some _)). rewrite !csum_S, csum_0. cbn [INR].
  replace (2 * PI * freq_hz 16000 512 1 * 0 * 256 / 16000) with 0 by field. replace (2 * PI * freq_hz 16000 512 1 * 1 * 256 / 16000) with PI by (unfold freq_hz; cbn [INR]; field).
  unfold cis. rewrite cos_0, sin_0, cos_PI, sin_PI. apply C_eq; cbn; ring.
Qed.
Print Assumptions C155_overlap_refuted.
