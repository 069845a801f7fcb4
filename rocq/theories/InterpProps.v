(** C135: interpolation of responses on the sphere. *)
From Coq Require Import Reals List ZArith Lia Lra Bool Factorial.
From Verif Require Import Base BaseProofs Vec Sum Cpx BeamModel BeamMat DftModel DftProofs SphereModel SphereProps HarmModel HarmProps RegridModel RegridProps InterpModel.
Import ListNotations.
Local Open Scope C_scope.

(** ** Specification *)
Definition nsq (n : nat) (v : nat -> C) : R := bsum n (fun i => Cabs2 (v i)).
(** the ratio of the extreme singular values of an [N] x [K] matrix is above [rcond] *)
Definition conditioned (N K : nat) (rcond : R) (A : nat -> nat -> C) : Prop :=
  exists lo hi, (0 < lo)%R /\ (rcond * hi < lo)%R /\ (0 <= hi)%R /\ forall v, (lo * lo * nsq K v <= nsq N (cmv K A v))%R /\ (nsq N (cmv K A v) <= hi * hi * nsq K v)%R.
(** the conditions of Penrose for an [N] x [K] matrix *)
Definition pseudo_inverse (N K : nat) (A P : nat -> nat -> C) : Prop :=
  (forall i k, (i < N)%nat -> (k < K)%nat -> cmm N (cmm K A P) A i k = A i k) /\ (forall k i, (k < K)%nat -> (i < N)%nat -> cmm K (cmm N P A) P k i = P k i) /\
  (forall i j, (i < N)%nat -> (j < N)%nat -> herm (cmm K A P) i j = cmm K A P i j) /\ (forall k l, (k < K)%nat -> (l < K)%nat -> herm (cmm N P A) k l = cmm N P A k l).
(** numpy.linalg.pinv(A, rcond) is the pseudo inverse of [A] if no singular value is cut off *)
Definition pinv_ok (pinv : nat -> nat -> R -> (nat -> nat -> C) -> option (nat -> nat -> C)) : Prop :=
  forall N K rcond A P, pinv N K rcond A = Some P -> conditioned N K rcond A -> pseudo_inverse N K A P.
(** the real harmonic of channel [c] *)
Definition channel (c : nat) (d : R * R) : R := spec_harmonic (Nat.sqrt c) (Z.of_nat c - Z.of_nat (Nat.sqrt c * Nat.sqrt c + Nat.sqrt c)) (snd d) (fst d).
(** the directional pattern with the coefficients [coef] of [(order + 1)^2] channels *)
Definition pattern (order : nat) (coef : nat -> R) (d : R * R) : R := bsum ((order + 1) * (order + 1)) (fun c => coef c * channel c d)%R.

(** ** Pseudo inverses of full rank *)
Lemma nsq_nonneg n v : (0 <= nsq n v)%R.
Proof. apply bsum_nonneg. intros. apply Cabs2_nonneg. Qed.
Lemma nsq_zero n v : nsq n v = 0%R -> forall i, (i < n)%nat -> v i = C0.
Proof.
  unfold nsq. induction n as [|n IH]; intros H i Hi; [lia|]. cbn [bsum] in H. pose proof (bsum_nonneg n (fun i => Cabs2 (v i)) ltac:(intros; apply Cabs2_nonneg)). pose proof (Cabs2_nonneg (v n)). destruct (Nat.eq_dec i n) as [->|]; [apply Cabs2_zero; lra|apply IH; [lra|lia]].
Qed.
Lemma nsq_ext n u v : (forall i, (i < n)%nat -> u i = v i) -> nsq n u = nsq n v.
Proof. intros H. apply bsum_ext. intros i Hi. now rewrite H. Qed.
Definition unit_at (k : nat) : nat -> C := fun l => if Nat.eqb l k then C1 else C0.
Lemma left_inverse N K rcond A P : conditioned N K rcond A -> pseudo_inverse N K A P -> forall k l, (k < K)%nat -> (l < K)%nat -> cmm N P A k l = if Nat.eqb k l then C1 else C0.
Proof.
  intros (lo & hi & L & _ & _ & HB) (P1 & _) k l Hk Hl. set (u := fun k => cmm N P A k l - unit_at l k). assert (Z : nsq N (cmv K A u) = 0%R).
  { rewrite (nsq_ext N _ (fun _ => C0)); [unfold nsq; apply bsum_zero_ext; intros; unfold Cabs2, C0; cbn; ring|]. intros i Hi. unfold cmv, u. rewrite (csum_ext _ _ (fun j => A i j * cmm N P A j l - A i j * unit_at l j)) by (intros; cring). rewrite csum_sub.
    assert (E1 : csum K (fun j => A i j * cmm N P A j l) = A i l). { rewrite <- (P1 i l Hi Hl). symmetry. rewrite cmm_assoc. reflexivity. }
    rewrite E1. rewrite (csum_delta K l _ Hl) by (intros j Hj Hjl; unfold unit_at; destruct (Nat.eqb_spec j l); [congruence|cring]). unfold unit_at. rewrite Nat.eqb_refl. cring. }
  destruct (HB u) as [H1 _]. rewrite Z in H1. assert (Z2 : nsq K u = 0%R) by (pose proof (nsq_nonneg K u); assert (0 < lo * lo)%R by nra; nra). pose proof (nsq_zero K u Z2 k Hk) as Z3. unfold u, unit_at in Z3.
  transitivity (cmm N P A k l - (if Nat.eqb k l then C1 else C0) + (if Nat.eqb k l then C1 else C0)); [cring|]. rewrite Z3. cring.
Qed.
Lemma cmm_ext n A B A' B' i j : (forall k, (k < n)%nat -> A i k = A' i k) -> (forall k, (k < n)%nat -> B k j = B' k j) -> cmm n A B i j = cmm n A' B' i j.
Proof. intros H1 H2. unfold cmm. apply csum_ext. intros k Hk. now rewrite H1, H2. Qed.
Lemma delta_l K (B : nat -> nat -> C) k i : (k < K)%nat -> csum K (fun l => (if Nat.eqb k l then C1 else C0) * B l i) = B k i.
Proof. intros Hk. rewrite (csum_delta K k); auto; [rewrite Nat.eqb_refl; cring|]. intros j Hj Hjk. destruct (Nat.eqb_spec k j); [congruence|cring]. Qed.
Lemma inverse_unique N K A P Q : (forall k l, (k < K)%nat -> (l < K)%nat -> cmm N P A k l = if Nat.eqb k l then C1 else C0) -> (forall k l, (k < K)%nat -> (l < K)%nat -> cmm N Q A k l = if Nat.eqb k l then C1 else C0) ->
  (forall i j, (i < N)%nat -> (j < N)%nat -> herm (cmm K A P) i j = cmm K A P i j) -> (forall i j, (i < N)%nat -> (j < N)%nat -> herm (cmm K A Q) i j = cmm K A Q i j) -> forall k i, (k < K)%nat -> (i < N)%nat -> P k i = Q k i.
Proof.
  intros HP HQ SP SQ. assert (ab : forall P Q, (forall k l, (k < K)%nat -> (l < K)%nat -> cmm N P A k l = if Nat.eqb k l then C1 else C0) -> forall i j, cmm N (cmm K A P) (cmm K A Q) i j = cmm K A Q i j).
  { intros P0 Q0 H0 i j. rewrite cmm_assoc. apply cmm_ext; auto. intros k Hk. rewrite <- cmm_assoc. unfold cmm at 1. rewrite (csum_ext _ _ (fun l => (if Nat.eqb k l then C1 else C0) * Q0 l j)) by (intros; now rewrite H0). now apply delta_l. }
  assert (E : forall i j, (i < N)%nat -> (j < N)%nat -> cmm K A P i j = cmm K A Q i j).
  { intros i j Hi Hj. rewrite <- (SP i j Hi Hj). unfold herm. rewrite <- (ab Q P HQ j i), <- (ab P Q HP i j). change (cmm N (cmm K A Q) (cmm K A P) j i) with (csum N (fun l => cmm K A Q j l * cmm K A P l i)). change (cmm N (cmm K A P) (cmm K A Q) i j) with (csum N (fun l => cmm K A P i l * cmm K A Q l j)). rewrite csum_conj. apply csum_ext. intros l Hl. rewrite Conj_mul. rewrite <- (SQ l j Hl Hj), <- (SP i l Hi Hl). unfold herm. cring. }
  intros k i Hk Hi. assert (F : forall R, (forall k l, (k < K)%nat -> (l < K)%nat -> cmm N R A k l = if Nat.eqb k l then C1 else C0) -> forall S, cmm N R (cmm K A S) k i = S k i).
  { intros R HR S. rewrite <- cmm_assoc. unfold cmm at 1. rewrite (csum_ext _ _ (fun l => (if Nat.eqb k l then C1 else C0) * S l i)) by (intros; now rewrite HR). now apply delta_l. }
  rewrite <- (F P HP P), <- (F P HP Q). apply cmm_ext; auto.
Qed.

(** ** The basis *)
Definition deg (k : nat) : nat := Nat.sqrt k.
Definition ord (k : nat) : Z := (Z.of_nat k - Z.of_nat (deg k * deg k + deg k))%Z.
Lemma deg_ord k : (Z.abs (ord k) <= Z.of_nat (deg k))%Z.
Proof. unfold ord, deg. pose proof (Nat.sqrt_spec k (Nat.le_0_l k)). nia. Qed.
Lemma basis_nth order k : (k < (order + 1) * (order + 1))%nat -> nth k (basis_orders order) (0%Z, 0%nat) = (ord k, deg k).
Proof.
  intros Hk. destruct (C134_order order) as (E & L & _ & H). rewrite E. destruct (H k ltac:(lia)) as (n & m & Hn & Hm & Ec & En). apply (nth_error_nth _ _ (0%Z, 0%nat)) in En. rewrite En. assert (D : deg k = n) by (unfold deg; apply Nat.sqrt_unique; nia). unfold ord. rewrite D. f_equal. lia.
Qed.
(** the channel of the opposite order *)
Definition opp_channel (k : nat) : nat := (2 * (deg k * deg k + deg k) - k)%nat.
Lemma opp_spec order k : (k < (order + 1) * (order + 1))%nat -> (opp_channel k < (order + 1) * (order + 1))%nat /\ deg (opp_channel k) = deg k /\ ord (opp_channel k) = (- ord k)%Z /\ opp_channel (opp_channel k) = k.
Proof.
  intros Hk. pose proof (Nat.sqrt_spec k (Nat.le_0_l k)) as S. assert (D : deg (opp_channel k) = deg k) by (unfold opp_channel, deg in *; apply Nat.sqrt_unique; nia).
  assert (Hd : (deg k <= order)%nat) by (unfold deg; nia). split; [unfold opp_channel, deg in *; nia|]. split; [exact D|]. unfold ord at 1. rewrite D. unfold ord, opp_channel in *. rewrite D. unfold deg in *. split; nia.
Qed.
Definition sgn (k : nat) : C := RtoC ((-1) ^ Z.abs_nat (ord k)).
Lemma sgn_sq k : sgn k * sgn k = C1.
Proof. unfold sgn. rewrite <- RtoC_mul, m1_sq. reflexivity. Qed.
Lemma sgn_conj k : Conj (sgn k) = sgn k.
Proof. apply Conj_RtoC. Qed.
Lemma sgn_opp order k : (k < (order + 1) * (order + 1))%nat -> sgn (opp_channel k) = sgn k.
Proof. intros Hk. unfold sgn. destruct (opp_spec order k Hk) as (_ & _ & -> & _). do 2 f_equal. lia. Qed.
Lemma conj_harm n m t p : Conj (sph_harm_y n m t p) = RtoC ((-1) ^ Z.abs_nat m) * sph_harm_y n (- m) t p.
Proof.
  unfold sph_harm_y. cbv zeta. replace (Z.abs_nat (- m)) with (Z.abs_nat m) by lia. set (k := Z.abs_nat m). pose proof (m1_sq k) as E. set (s := ((-1) ^ k)%R) in *. set (y := Cscal _ (cis _)).
  assert (S1 : RtoC s * RtoC s = C1) by (rewrite <- RtoC_mul, E; reflexivity). rewrite !Cscal_RtoC. destruct (Z.ltb_spec m 0), (Z.ltb_spec (- m) 0); try lia.
  - rewrite Conj_mul, Conj_conj, Conj_RtoC. reflexivity.
  - transitivity (RtoC s * RtoC s * Conj y); [rewrite S1; cring|cring].
  - assert (m = 0%Z) by lia. subst m. unfold y, s. cbn [k Z.abs_nat pow INR]. rewrite Rmult_0_l, cis_0. unfold Conj, Cscal, RtoC, C1, Cmul. apply C_eq; cbn [fst snd]; ring.
Qed.
Lemma basis_conj grid order i k : (k < (order + 1) * (order + 1))%nat -> Conj (cal_sph_basis grid order i k) = sgn k * cal_sph_basis grid order i (opp_channel k).
Proof.
  intros Hk. unfold cal_sph_basis. destruct (opp_spec order k Hk) as (Ho & D & O & _). rewrite !basis_nth by auto. destruct (nth i grid (0%R, 0%R)) as [az co]. rewrite D, O. apply conj_harm.
Qed.

(** ** The interpolation as a matrix *)
Section matrix.
Variable grid : list (R * R).
Variable order : nat.
Variable w : list R.
Variable P : nat -> nat -> C.
Definition chans : nat := ((order + 1) * (order + 1))%nat.
Definition Amat : nat -> nat -> C := fun i k => RtoC (nth i w 0%R) * cal_sph_basis grid order i k.
Hypothesis HL : forall k l, (k < chans)%nat -> (l < chans)%nat -> cmm (length grid) P Amat k l = if Nat.eqb k l then C1 else C0.
Hypothesis HS : forall i j, (i < length grid)%nat -> (j < length grid)%nat -> herm (cmm chans Amat P) i j = cmm chans Amat P i j.
Lemma A_conj i k : (k < chans)%nat -> Conj (Amat i k) = sgn k * Amat i (opp_channel k).
Proof. intros Hk. unfold Amat. rewrite Conj_mul, Conj_RtoC, basis_conj by exact Hk. cring. Qed.
Lemma A_flip i k : (k < chans)%nat -> Amat i k = sgn k * Conj (Amat i (opp_channel k)).
Proof.
  intros Hk. destruct (opp_spec order k Hk) as (Ho & _ & _ & Hoo). rewrite A_conj by exact Ho. rewrite Hoo, (sgn_opp order) by exact Hk. transitivity (sgn k * sgn k * Amat i k); [rewrite sgn_sq; cring|cring].
Qed.
Lemma perm_opp (f : nat -> C) : csum chans (fun k => f (opp_channel k)) = csum chans f.
Proof. apply (csum_perm chans _ _ opp_channel opp_channel); auto; intros k Hk; destruct (opp_spec order k Hk) as (H1 & _ & _ & H2); auto. Qed.
Lemma P_flip k i : (k < chans)%nat -> (i < length grid)%nat -> P k i = sgn k * Conj (P (opp_channel k) i).
Proof.
  intros Hk Hi. apply (inverse_unique (length grid) chans Amat P (fun k i => sgn k * Conj (P (opp_channel k) i)) HL); auto.
  - clear k i Hk Hi. intros k l Hk Hl. destruct (opp_spec order k Hk) as (Ko & _ & _ & Koo). destruct (opp_spec order l Hl) as (Lo & _ & _ & Loo). unfold cmm.
    rewrite (csum_ext _ _ (fun i => (sgn k * sgn l) * Conj (P (opp_channel k) i * Amat i (opp_channel l)))) by (intros i Hi; rewrite (A_flip i l Hl), Conj_mul; cring). rewrite csum_scal, <- csum_conj. change (csum (length grid) (fun i => P (opp_channel k) i * Amat i (opp_channel l))) with (cmm (length grid) P Amat (opp_channel k) (opp_channel l)). rewrite HL by auto.
    destruct (Nat.eqb_spec k l) as [->|Hne]; [rewrite Nat.eqb_refl, sgn_sq; unfold Conj, C1, Cmul; apply C_eq; cbn; ring|]. destruct (Nat.eqb_spec (opp_channel k) (opp_channel l)) as [E|]; [exfalso; apply Hne; rewrite <- Koo, <- Loo, E; reflexivity|]. unfold Conj, C0, Cmul. apply C_eq; cbn; ring.
  - clear k i Hk Hi. assert (F : forall i j, cmm chans Amat (fun k i => sgn k * Conj (P (opp_channel k) i)) i j = Conj (cmm chans Amat P i j)).
    { intros i j. unfold cmm. rewrite csum_conj, <- (perm_opp (fun k => Conj (Amat i k * P k j))). apply csum_ext. intros k Hk. rewrite (A_flip i k Hk), Conj_mul. transitivity (sgn k * sgn k * (Conj (Amat i (opp_channel k)) * Conj (P (opp_channel k) j))); [cring|]. rewrite sgn_sq. cring. }
    intros i j Hi Hj. unfold herm. rewrite !F. rewrite Conj_conj. rewrite <- (HS i j Hi Hj). unfold herm. now rewrite Conj_conj.
Qed.
(** the matrix from the responses on the grid to those at the points of [g2] *)
Definition gain (g2 : list (R * R)) (p i : nat) : C := csum chans (fun k => cal_sph_basis g2 order p k * P k i) * RtoC (nth i w 0%R).
Lemma gain_real g2 p i : (i < length grid)%nat -> snd (gain g2 p i) = 0%R.
Proof.
  intros Hi. assert (E : Conj (gain g2 p i) = gain g2 p i).
  { unfold gain. rewrite Conj_mul, Conj_RtoC. f_equal. rewrite csum_conj, <- (perm_opp (fun k => cal_sph_basis g2 order p k * P k i)). apply csum_ext. intros k Hk. destruct (opp_spec order k Hk) as (Ho & _ & _ & Hoo). rewrite Conj_mul, basis_conj by exact Hk. rewrite (P_flip _ i Ho Hi), Hoo, (sgn_opp order) by exact Hk. cring. }
  apply (f_equal snd) in E. unfold Conj in E. cbn [snd] in E. lra.
Qed.
Lemma gain_RtoC g2 p i : (i < length grid)%nat -> gain g2 p i = RtoC (fst (gain g2 p i)).
Proof. intros Hi. apply C_eq; cbn [fst snd RtoC]; auto. now apply gain_real. Qed.
(** fields that are combinations of the basis are reproduced *)
Lemma gain_exact g2 p (gamma : nat -> C) : csum (length grid) (fun i => gain g2 p i * csum chans (fun l => gamma l * cal_sph_basis grid order i l)) = csum chans (fun k => cal_sph_basis g2 order p k * gamma k).
Proof.
  transitivity (csum chans (fun k => cal_sph_basis g2 order p k * csum chans (fun l => cmm (length grid) P Amat k l * gamma l))).
  - rewrite (csum_ext _ _ (fun i => csum chans (fun k => cal_sph_basis g2 order p k * (P k i * csum chans (fun l => Amat i l * gamma l))))).
    + rewrite csum_swap. apply csum_ext. intros k Hk. rewrite csum_scal. f_equal. unfold cmm. rewrite (csum_ext chans _ (fun l => csum (length grid) (fun i => P k i * (Amat i l * gamma l)))) by (intros l Hl; rewrite <- csum_scal_r; apply csum_ext; intros; cring). rewrite csum_swap. apply csum_ext. intros i Hi. now rewrite <- csum_scal.
    + intros i Hi. unfold gain. set (S := csum chans (fun l => gamma l * _)). assert (ES : csum chans (fun l => Amat i l * gamma l) = RtoC (nth i w 0%R) * S) by (unfold S; rewrite <- csum_scal; apply csum_ext; intros; unfold Amat; cring). rewrite ES. rewrite <- !csum_scal_r. apply csum_ext. intros; cring.
  - apply csum_ext. intros k Hk. f_equal. rewrite (csum_ext _ _ (fun l => (if Nat.eqb k l then C1 else C0) * gamma l)) by (intros; now rewrite HL). apply (delta_l chans (fun l _ => gamma l) k 0%nat Hk).
Qed.
(** least squares: the error on the grid is orthogonal to the basis *)
Lemma normal_equations (b : nat -> C) k : (k < chans)%nat -> csum (length grid) (fun i => Conj (Amat i k) * (b i - cmv (length grid) (cmm chans Amat P) b i)) = C0.
Proof.
  intros Hk. rewrite (csum_ext _ _ (fun i => Conj (Amat i k) * b i - Conj (Amat i k) * cmv (length grid) (cmm chans Amat P) b i)) by (intros; cring). rewrite csum_sub.
  assert (E : csum (length grid) (fun i => Conj (Amat i k) * cmv (length grid) (cmm chans Amat P) b i) = csum (length grid) (fun j => Conj (Amat j k) * b j)); [|rewrite E; cring].
  unfold cmv. rewrite (csum_ext _ _ (fun i => csum (length grid) (fun j => Conj (Amat i k) * (cmm chans Amat P i j * b j)))) by (intros; now rewrite csum_scal). rewrite csum_swap. apply csum_ext. intros j Hj.
  rewrite (csum_ext _ _ (fun i => (Conj (cmm chans Amat P j i * Amat i k)) * b j)) by (intros i Hi; rewrite <- (HS i j Hi Hj); unfold herm; rewrite Conj_mul; cring). rewrite csum_scal_r, <- csum_conj. do 2 f_equal.
  change (csum (length grid) (fun i => cmm chans Amat P j i * Amat i k)) with (cmm (length grid) (cmm chans Amat P) Amat j k). rewrite cmm_assoc. unfold cmm at 1. rewrite (csum_ext _ _ (fun l => (if Nat.eqb k l then C1 else C0) * Amat j l)) by (intros l Hl; rewrite HL by auto; rewrite Nat.eqb_sym; cring). apply (delta_l chans (fun l _ => Amat j l) k 0%nat Hk).
Qed.
Lemma pythagoras (b e : nat -> C) (n : nat) : csum n (fun i => Conj (e i) * b i) = C0 -> nsq n (fun i => b i - e i) = (nsq n b + nsq n e)%R.
Proof.
  intros H. apply (f_equal fst) in H. rewrite fst_csum in H. cbn [fst C0] in H. unfold nsq. assert (G : bsum n (fun i => Cabs2 (b i - e i)%C) = (bsum n (fun i => Cabs2 (b i)) + bsum n (fun i => Cabs2 (e i)) - 2 * bsum n (fun i => fst (Conj (e i) * b i)%C))%R); [|rewrite G, H; ring].
  rewrite <- bsum_plus, <- bsum_scal, <- bsum_minus. apply bsum_ext. intros i Hi. unfold Cabs2, Csub, Conj, Cmul. cbn [fst snd]. ring.
Qed.
Lemma least_squares (b gamma : nat -> C) : (nsq (length grid) (fun i => (b i - cmv (length grid) (cmm chans Amat P) b i)%C) <= nsq (length grid) (fun i => (b i - cmv chans Amat gamma i)%C))%R.
Proof.
  set (r := fun i => b i - cmv (length grid) (cmm chans Amat P) b i). set (d := fun k => gamma k - cmv (length grid) P b k). assert (E : forall i, b i - cmv chans Amat gamma i = r i - cmv chans Amat d i).
  { intros i. unfold r. rewrite <- cmv_cmv. unfold d. rewrite cmv_sub. cring. }
  rewrite (nsq_ext _ (fun i => b i - cmv chans Amat gamma i) (fun i => r i - cmv chans Amat d i)) by (intros; apply E). rewrite pythagoras; [pose proof (nsq_nonneg (length grid) (cmv chans Amat d)); fold r; lra|].
  unfold cmv at 1. rewrite (csum_ext _ _ (fun i => csum chans (fun k => Conj (d k) * (Conj (Amat i k) * r i)))) by (intros i Hi; rewrite csum_conj, <- csum_scal_r; apply csum_ext; intros; rewrite Conj_mul; cring). rewrite csum_swap. apply csum_zero_ext. intros k Hk. rewrite csum_scal. unfold r. rewrite (normal_equations b k Hk). cring.
Qed.
End matrix.
(** the grid samples the sphere well enough for the order: no singular value of the weighted basis is cut off *)
Definition well_sampled (voronoi : list (R * R) -> option (list R)) (grid : list (R * R)) (order : nat) : Prop :=
  exists w, cell_weights voronoi grid = Some w /\ conditioned (length grid) ((order + 1) * (order + 1)) (/ 100) (fun i k => RtoC (nth i w 0%R) * cal_sph_basis grid order i k).
(** the transform length in use *)
Definition fft_size (ir : list vec) (nfft : option nat) : nat := match nfft with Some n => n | None => length (nth 0 ir []) end.
(** sample [t] of row [i] *)
Definition at_ (rows : list vec) (i t : nat) : R := nth t (nth i rows []) 0%R.
Lemma dft_combine n N (g : nat -> R) (x : nat -> nat -> R) f : csum N (fun i => RtoC (g i) * dft n (fun j => RtoC (x i j)) f) = dft n (fun j => RtoC (bsum N (fun i => g i * x i j)%R)) f.
Proof.
  unfold dft. rewrite (csum_ext N _ (fun i => csum n (fun j => RtoC (g i) * RtoC (x i j) * omega n (- Z.of_nat (j * f))))) by (intros; rewrite <- csum_scal; apply csum_ext; intros; cring). rewrite csum_swap. apply csum_ext. intros j Hj. rewrite csum_scal_r. f_equal. rewrite <- csum_RtoC. apply csum_ext. intros; now rewrite <- RtoC_mul.
Qed.
Lemma back_value grid order w P g2 ir n p t :
  (forall k l, (k < chans order)%nat -> (l < chans order)%nat -> cmm (length grid) P (Amat grid order w) k l = if Nat.eqb k l then C1 else C0) ->
  (forall i j, (i < length grid)%nat -> (j < length grid)%nat -> herm (cmm (chans order) (Amat grid order w) P) i j = cmm (chans order) (Amat grid order w) P i j) ->
  length ir = length grid -> (t < n)%nat ->
  nth t (irfft n (map (fun f => csum (chans order) (fun k => cal_sph_basis g2 order p k * csum (length grid) (fun i => P k i * (RtoC (nth i w 0%R) * nth f (nth i (map (rfft n) ir) []) C0)))) (seq 0 (n / 2 + 1)))) 0%R =
  bsum (length grid) (fun i => fst (gain order w P g2 p i) * at_ ir i t)%R.
Proof.
  intros HL HS EL Ht. set (x := fun j => bsum (length grid) (fun i => fst (gain order w P g2 p i) * at_ ir i j)%R). rewrite (irfft_idft n _ (dft n (fun j => RtoC (x j)))); auto.
  - rewrite idft_dft by auto. reflexivity.
  - apply dft_hermitian.
  - intros f Hf. rewrite nth_map_seq by lia. unfold x. rewrite <- dft_combine.
    rewrite (csum_ext (length grid) _ (fun i => gain order w P g2 p i * dft n (fun j => RtoC (at_ ir i j)) f)) by (intros i Hi; now rewrite <- (gain_RtoC grid order w P HL HS g2 p i Hi)).
    unfold gain. rewrite (csum_ext (length grid) (fun i => csum (chans order) _ * _ * _) (fun i => csum (chans order) (fun k => cal_sph_basis g2 order p k * (P k i * (RtoC (nth i w 0%R) * dft n (fun j => RtoC (at_ ir i j)) f))))) by (intros i Hi; rewrite <- !csum_scal_r; apply csum_ext; intros; cring).
    rewrite csum_swap. apply csum_ext. intros k Hk. rewrite csum_scal. f_equal. apply csum_ext. intros i Hi. do 2 f_equal. rewrite (nth_indep _ [] (rfft n [])) by (rewrite map_length; lia). rewrite map_nth. rewrite nth_rfft by auto. reflexivity.
Qed.
(** What the function returns, for a well sampled grid *)
Lemma interp_value pinv voronoi grid new_grid order w : pinv_ok pinv -> cell_weights voronoi grid = Some w -> conditioned (length grid) (chans order) (/ 100) (Amat grid order w) -> 
  forall ir nfft out orig, spherical_interpolation pinv voronoi grid ir new_grid order nfft = Some (out, orig) -> exists P,
  pinv (length grid) (chans order) (/ 100)%R (Amat grid order w) = Some P /\ length ir = length grid /\ length out = length new_grid /\ length orig = length grid /\
  (forall k l, (k < chans order)%nat -> (l < chans order)%nat -> cmm (length grid) P (Amat grid order w) k l = if Nat.eqb k l then C1 else C0) /\
  (forall i j, (i < length grid)%nat -> (j < length grid)%nat -> herm (cmm (chans order) (Amat grid order w) P) i j = cmm (chans order) (Amat grid order w) P i j) /\
  (forall p, (p < length new_grid)%nat -> length (nth p out []) = fft_size ir nfft) /\ (forall p, (p < length grid)%nat -> length (nth p orig []) = fft_size ir nfft) /\
  (forall p t, (p < length new_grid)%nat -> (t < fft_size ir nfft)%nat -> at_ out p t = bsum (length grid) (fun i => fst (gain order w P new_grid p i) * at_ ir i t)%R) /\
  (forall p t, (p < length grid)%nat -> (t < fft_size ir nfft)%nat -> at_ orig p t = bsum (length grid) (fun i => fst (gain order w P grid p i) * at_ ir i t)%R).
Proof.
  intros HP EW HC ir nfft out orig H. unfold spherical_interpolation in H. destruct (Nat.eqb_spec (length grid) (length ir)) as [EL|]; [|discriminate]. cbn [negb] in H. rewrite EW in H. cbn [bind] in H.
  assert (EK : length (basis_orders order) = chans order) by (destruct (C134_order order) as (-> & L & _); exact L). rewrite EK in H. unfold weighted_pinv in H. change (fun i k => RtoC (nth i w 0%R) * cal_sph_basis grid order i k) with (Amat grid order w) in H.
  destruct (pinv (length grid) (chans order) (/ 100)%R (Amat grid order w)) as [P|] eqn:EP; [|discriminate]. cbn [bind] in H. fold (fft_size ir nfft) in H. set (n := fft_size ir nfft) in *. destruct (Nat.eqb_spec n 0) as [|Hn]; [discriminate|]. assert (HH := f_equal (fun o => match o with Some x => x | None => (out, orig) end) H). cbv beta iota zeta in HH. clear H.
  assert (E1 := f_equal fst HH). assert (E2 := f_equal snd HH). cbn [fst snd] in E1, E2. clear HH. exists P. pose proof (HP _ _ _ _ _ EP HC) as HI. pose proof (left_inverse _ _ _ _ _ HC HI) as HL. destruct HI as (_ & _ & HS & _).
  split; [reflexivity|]. split; [auto|]. rewrite <- E1, <- E2. split; [now rewrite map_length, seq_length|]. split; [now rewrite map_length, seq_length|]. split; [exact HL|]. split; [exact HS|].
  split; [intros p Hp; rewrite nth_map_seq by auto; apply irfft_length|]. split; [intros p Hp; rewrite nth_map_seq by auto; apply irfft_length|].
  split; intros p t Hp Ht; unfold at_ at 1; rewrite nth_map_seq by auto; apply back_value; auto.
Qed.
(** ** The claims *)
(** The response at every point is a combination of the measured ones with real gains, the same for every sample, whatever
    the measured responses and the transform length. *)
Theorem C135_linear : forall pinv voronoi grid new_grid order, pinv_ok pinv -> well_sampled voronoi grid order -> exists G G' : nat -> nat -> R,
  forall ir nfft out orig, spherical_interpolation pinv voronoi grid ir new_grid order nfft = Some (out, orig) ->
    length out = length new_grid /\ length orig = length grid /\
    (forall p t, (p < length new_grid)%nat -> (t < fft_size ir nfft)%nat -> at_ out p t = bsum (length grid) (fun i => G p i * at_ ir i t)%R) /\
    (forall p t, (p < length grid)%nat -> (t < fft_size ir nfft)%nat -> at_ orig p t = bsum (length grid) (fun i => G' p i * at_ ir i t)%R).
Proof.
  intros pinv voronoi grid new_grid order HP (w & EW & HC). destruct (pinv (length grid) (chans order) (/ 100)%R (Amat grid order w)) as [P|] eqn:EP.
  - exists (fun p i => fst (gain order w P new_grid p i)), (fun p i => fst (gain order w P grid p i)). intros ir nfft out orig H. destruct (interp_value pinv voronoi grid new_grid order w HP EW HC ir nfft out orig H) as (P' & EP' & _ & L1 & L2 & _ & _ & _ & _ & V1 & V2). assert (P' = P) by congruence. subst P'. auto.
  - exists (fun _ _ => 0%R), (fun _ _ => 0%R). intros ir nfft out orig H. destruct (interp_value pinv voronoi grid new_grid order w HP EW HC ir nfft out orig H) as (P' & EP' & _). congruence.
Qed.
Print Assumptions C135_linear.
Definition half_up (c : nat) : C := if Z.eqb (ord c) 0 then C1 else if Z.ltb 0 (ord c) then RtoC ((-1) ^ Z.abs_nat (ord c) * sqrt 2 / 2) else (0%R, (sqrt 2 / 2)%R).
Definition half_down (c : nat) : C := if Z.eqb (ord c) 0 then C0 else if Z.ltb 0 (ord c) then RtoC (sqrt 2 / 2) else (0%R, (- ((-1) ^ Z.abs_nat (ord c) * sqrt 2 / 2))%R).
Lemma channel_basis g order i c : (c < chans order)%nat -> RtoC (channel c (nth i g (0%R, 0%R))) = half_up c * cal_sph_basis g order i c + half_down c * cal_sph_basis g order i (opp_channel c).
Proof.
  intros Hc. destruct (opp_spec order c Hc) as (Ho & D & O & _). unfold cal_sph_basis. rewrite !basis_nth by auto. rewrite D, O. unfold channel. fold (deg c). fold (ord c). destruct (nth i g (0%R, 0%R)) as [az co]. cbn [fst snd]. unfold half_up, half_down, spec_harmonic, sph_harm_y. cbv zeta.
  replace (Z.abs_nat (- ord c)) with (Z.abs_nat (ord c)) by lia. set (k := Z.abs_nat (ord c)). set (n := deg c). set (B := (sin co ^ k * legendre n k (cos co))%R). pose proof (m1_sq k) as E. set (s := ((-1) ^ k)%R) in *. set (N := normaliser n k).
  destruct (Z.eqb_spec (ord c) 0) as [Z0|Z0].
  - destruct (Z.ltb_spec (ord c) 0); [lia|]. unfold s, k. rewrite Z0. cbn [Z.abs_nat INR pow]. rewrite Rmult_0_l, cis_0. unfold RtoC, Cadd, Cmul, Cscal, C0, C1. apply C_eq; cbn [fst snd]; ring.
  - destruct (Z.ltb_spec 0 (ord c)), (Z.ltb_spec (ord c) 0), (Z.ltb_spec (- ord c) 0); try lia.
    + unfold RtoC, Cadd, Cmul, Cscal, Conj, cis. apply C_eq; cbn [fst snd].
      * transitivity ((s * s) * (N * B * (sqrt 2 * cos (INR k * az))))%R; [rewrite E; ring|field].
      * field.
    + unfold RtoC, Cadd, Cmul, Cscal, Conj, cis. apply C_eq; cbn [fst snd].
      * transitivity ((s * s) * (N * B * (sqrt 2 * sin (INR k * az))))%R; [rewrite E; ring|field].
      * transitivity ((s * s - s * s) * (sqrt 2 / 2 * N * B * cos (INR k * az)))%R; [ring|]. field.
Qed.
Definition mixed (coef : nat -> R) (l : nat) : C := half_up l * RtoC (coef l) + half_down (opp_channel l) * RtoC (coef (opp_channel l)).
Lemma pattern_basis g order i coef : RtoC (pattern order coef (nth i g (0%R, 0%R))) = csum (chans order) (fun l => mixed coef l * cal_sph_basis g order i l).
Proof.
  unfold pattern. change ((order + 1) * (order + 1))%nat with (chans order). rewrite <- csum_RtoC. rewrite (csum_ext _ _ (fun c => half_up c * RtoC (coef c) * cal_sph_basis g order i c + half_down c * RtoC (coef c) * cal_sph_basis g order i (opp_channel c))) by (intros c Hc; rewrite RtoC_mul, (channel_basis g order i c Hc); cring).
  rewrite csum_add. rewrite <- (perm_opp order (fun c => half_down c * RtoC (coef c) * cal_sph_basis g order i (opp_channel c))). rewrite <- csum_add. apply csum_ext. intros l Hl. destruct (opp_spec order l Hl) as (_ & _ & _ & Hoo). unfold mixed. rewrite Hoo. cring.
Qed.
(** Responses that are, at every sample, patterns of at most the order are continued exactly to all points. *)
Theorem C135_exact : forall pinv voronoi grid new_grid order ir nfft out orig (coef : nat -> nat -> R), pinv_ok pinv -> well_sampled voronoi grid order ->
  spherical_interpolation pinv voronoi grid ir new_grid order nfft = Some (out, orig) ->
  (forall i t, (i < length grid)%nat -> (t < fft_size ir nfft)%nat -> at_ ir i t = pattern order (coef t) (nth i grid (0%R, 0%R))) ->
  (forall p t, (p < length new_grid)%nat -> (t < fft_size ir nfft)%nat -> at_ out p t = pattern order (coef t) (nth p new_grid (0%R, 0%R))) /\
  (forall p t, (p < length grid)%nat -> (t < fft_size ir nfft)%nat -> at_ orig p t = at_ ir p t).
Proof.
  intros pinv voronoi grid new_grid order ir nfft out orig coef HP (w & EW & HC) H HF. destruct (interp_value pinv voronoi grid new_grid order w HP EW HC ir nfft out orig H) as (P & EP & EL & L1 & L2 & HL & HS & _ & _ & V1 & V2).
  assert (G : forall g2 p t, (t < fft_size ir nfft)%nat -> bsum (length grid) (fun i => fst (gain order w P g2 p i) * at_ ir i t)%R = pattern order (coef t) (nth p g2 (0%R, 0%R))).
  { intros g2 p t Ht. assert (E : RtoC (bsum (length grid) (fun i => fst (gain order w P g2 p i) * at_ ir i t)%R) = RtoC (pattern order (coef t) (nth p g2 (0%R, 0%R)))); [|now apply (f_equal fst) in E].
    rewrite <- csum_RtoC. rewrite (csum_ext _ _ (fun i => gain order w P g2 p i * csum (chans order) (fun l => mixed (coef t) l * cal_sph_basis grid order i l))).
    - rewrite (gain_exact grid order w P HL g2 p (mixed (coef t))). rewrite pattern_basis. apply csum_ext. intros; cring.
    - intros i Hi. rewrite RtoC_mul, <- (gain_RtoC grid order w P HL HS g2 p i Hi), <- pattern_basis, HF by auto. reflexivity. }
  split; intros p t Hp Ht; [rewrite V1 by auto; now apply G|]. rewrite V2, HF by auto. now apply G.
Qed.
Print Assumptions C135_exact.
(** On the grid the result is, at every sample, the pattern of the order with the least sum of squared errors weighted by
    the squares of the areas. *)
Theorem C135_least : forall pinv voronoi grid new_grid order ir nfft out orig w, pinv_ok pinv -> well_sampled voronoi grid order ->
  spherical_interpolation pinv voronoi grid ir new_grid order nfft = Some (out, orig) -> cell_weights voronoi grid = Some w ->
  forall t coef, (t < fft_size ir nfft)%nat ->
    (bsum (length grid) (fun i => (nth i w 0 * nth i w 0) * (at_ ir i t - at_ orig i t) ^ 2) <= bsum (length grid) (fun i => (nth i w 0 * nth i w 0) * (at_ ir i t - pattern order coef (nth i grid (0, 0))) ^ 2))%R.
Proof.
  intros pinv voronoi grid new_grid order ir nfft out orig w HP (w' & EW & HC) H EW' t coef Ht. assert (w' = w) by congruence. subst w'. destruct (interp_value pinv voronoi grid new_grid order w HP EW HC ir nfft out orig H) as (P & EP & EL & L1 & L2 & HL & HS & _ & _ & V1 & V2).
  set (b := fun i => RtoC (nth i w 0%R * at_ ir i t)). pose proof (least_squares grid order w P HL HS b (mixed coef)) as LS.
  assert (EA : forall i, (i < length grid)%nat -> Cabs2 (b i - cmv (length grid) (cmm (chans order) (Amat grid order w) P) b i)%C = (nth i w 0 * nth i w 0 * (at_ ir i t - at_ orig i t) ^ 2)%R).
  { intros i Hi. assert (E : cmv (length grid) (cmm (chans order) (Amat grid order w) P) b i = RtoC (nth i w 0%R * at_ orig i t)).
    { rewrite V2 by auto. rewrite RtoC_mul, <- csum_RtoC, <- csum_scal. unfold cmv. apply csum_ext. intros j Hj. rewrite RtoC_mul, <- (gain_RtoC grid order w P HL HS grid i j Hj). unfold gain, b, cmm, Amat. rewrite RtoC_mul. rewrite (csum_ext (chans order) _ (fun k => RtoC (nth i w 0%R) * (cal_sph_basis grid order i k * P k j))) by (intros; cring). rewrite csum_scal. cring. }
    rewrite E. unfold b, Cabs2, RtoC, Csub. cbn [fst snd]. ring. }
  assert (EB : forall i, (i < length grid)%nat -> Cabs2 (b i - cmv (chans order) (Amat grid order w) (mixed coef) i)%C = (nth i w 0 * nth i w 0 * (at_ ir i t - pattern order coef (nth i grid (0, 0))) ^ 2)%R).
  { intros i Hi. assert (E : cmv (chans order) (Amat grid order w) (mixed coef) i = RtoC (nth i w 0%R * pattern order coef (nth i grid (0%R, 0%R)))).
    { rewrite RtoC_mul, pattern_basis, <- csum_scal. unfold cmv, Amat. apply csum_ext. intros; cring. }
    rewrite E. unfold b, Cabs2, RtoC, Csub. cbn [fst snd]. ring. }
  unfold nsq in LS. rewrite (bsum_ext _ _ _ EA), (bsum_ext _ _ _ EB) in LS. exact LS.
Qed.
Print Assumptions C135_least.

(** ** A case *)
(** the pseudo inverse of one column *)
Definition col_pinv (N K : nat) (rcond : R) (A : nat -> nat -> C) : option (nat -> nat -> C) :=
  if Nat.eqb K 1 then Some (fun _ i => Cscal (/ nsq N (fun i => A i 0%nat)) (Conj (A i 0%nat))) else None.
Lemma csum_1 (f : nat -> C) : csum 1 f = f 0%nat.
Proof. rewrite csum_S, csum_0. cring. Qed.
Lemma csum_abs n (v : nat -> C) r : csum n (fun i => Cscal r (Conj (v i)) * v i) = RtoC (r * nsq n v).
Proof. unfold nsq. rewrite <- bsum_scal, <- csum_RtoC. apply csum_ext. intros i Hi. unfold Cscal, Conj, Cmul, RtoC, Cabs2. apply C_eq; cbn [fst snd]; ring. Qed.
Example col_pinv_ok : pinv_ok col_pinv.
Proof.
  intros N K rcond A P H (lo & hi & L & _ & _ & HB). unfold col_pinv in H. destruct (Nat.eqb_spec K 1) as [->|]; [|discriminate]. assert (HH := f_equal (fun o => match o with Some x => x | None => P end) H). cbv beta iota in HH. subst P. clear H.
  assert (S : (0 < nsq N (fun i => A i 0%nat))%R). { destruct (HB (fun _ => C1)) as [H1 _]. rewrite (nsq_ext N _ (fun i => A i 0%nat)) in H1 by (intros; unfold cmv; rewrite csum_1; cring). assert (E : nsq 1 (fun _ => C1) = 1%R) by (unfold nsq, Cabs2, C1; cbn; ring). rewrite E in H1. nra. }
  set (s := nsq N (fun i => A i 0%nat)) in *. assert (PA : forall k l, (l < 1)%nat -> cmm N (fun _ i => Cscal (/ s) (Conj (A i 0%nat))) A k l = C1).
  { intros k l Hl. replace l with 0%nat by lia. unfold cmm. rewrite csum_abs. fold s. rewrite Rinv_l by lra. reflexivity. }
  split; [|split; [|split]].
  - intros i k Hi Hk. rewrite cmm_assoc. unfold cmm at 1. rewrite csum_1, PA by auto. replace k with 0%nat by lia. cring.
  - intros k i Hk Hi. unfold cmm at 1. rewrite csum_1, PA by lia. cring.
  - intros i j Hi Hj. unfold herm, cmm. rewrite !csum_1. unfold Cscal, Conj, Cmul. apply C_eq; cbn [fst snd]; ring.
  - intros k l Hk Hl. unfold herm. rewrite !PA by auto. unfold Conj, C1. apply C_eq; cbn; ring.
Qed.
(** two points on a meridian, the cell of the second three times as large as that of the first *)
Definition two_grid : list (R * R) := [(0, PI / 6); (0, PI / 2)]%R.
Lemma two_weights voronoi : cell_weights voronoi two_grid = Some [/ 4; 3 / 4]%R.
Proof.
  pose proof PI_RGT_0. unfold cell_weights, two_grid. cbn [map fst snd].
  rewrite (C132_complete [0; 0]%R [PI / 6; PI / 2]%R [0%R] [PI / 6; PI / 2]%R); [|reflexivity|discriminate|discriminate|repeat constructor|repeat constructor; lra| |apply Permutation.Permutation_refl].
  - cbn [bind]. unfold grid_weights, band_areas, borders. cbn [midpoints app map diffs length combine mapM lookup]. destruct (Req_EM_T (PI / 6) (PI / 6)); [|lra]. cbn [bind]. destruct (Req_EM_T (PI / 2) (PI / 6)); [lra|]. destruct (Req_EM_T (PI / 2) (PI / 2)); [|lra]. cbn [bind]. replace ((PI / 6 + PI / 2) / 2)%R with (PI / 3)%R by field. rewrite cos_0, cos_PI, cos_PI3. cbn [INR].
    assert (E2 : forall a b a' b' : R, a = a' -> b = b' -> Some [a; b] = Some [a'; b']) by (intros; subst; reflexivity). apply E2; field; lra.
  - exists 0%R. cbn [length seq map]. f_equal. cbn [INR]. field.
Qed.
Definition y00 : R := sqrt (1 / (4 * PI)).
Lemma y00_sq : (0 < y00 * y00)%R.
Proof. pose proof PI_RGT_0. unfold y00. rewrite sqrt_sqrt; [apply Rdiv_lt_0_compat; lra|apply Rlt_le, Rdiv_lt_0_compat; lra]. Qed.
Lemma basis_0 g i : cal_sph_basis g 0 i 0 = RtoC y00.
Proof.
  unfold cal_sph_basis. destruct (nth i g (0%R, 0%R)) as [az co]. cbn [basis_orders fold_left seq plus map app nth Nat.mul]. change (- Z.of_nat 0 + Z.of_nat 0)%Z with 0%Z. pose proof (spec_00 co az) as E. unfold spec_harmonic in E. cbn [Z.abs_nat Z.eqb] in E. fold y00 in E.
  unfold sph_harm_y. cbn [Z.abs_nat Z.ltb Z.compare INR]. rewrite Rmult_0_l, cis_0, <- E. unfold Cscal, C1, RtoC. apply C_eq; cbn [fst snd pow]; ring.
Qed.
Example two_sampled voronoi : well_sampled voronoi two_grid 0.
Proof.
  exists [/ 4; 3 / 4]%R. split; [apply two_weights|]. pose proof y00_sq as Y. set (q := (10 / 16 * (y00 * y00))%R). assert (Hq : (0 < q)%R) by (unfold q; lra). pose proof (sqrt_lt_R0 q Hq) as Hs. pose proof (sqrt_sqrt q (Rlt_le _ _ Hq)) as Eq. exists (sqrt q), (sqrt q). split; [exact Hs|]. split; [lra|]. split; [lra|].
  intros v. rewrite Eq. assert (E : nsq (length two_grid) (cmv ((0 + 1) * (0 + 1)) (fun i k => RtoC (nth i [/ 4; 3 / 4]%R 0%R) * cal_sph_basis two_grid 0 i k) v) = (q * nsq ((0 + 1) * (0 + 1)) v)%R); [|rewrite E; lra].
  unfold nsq, cmv. cbn [length two_grid plus Nat.mul bsum nth]. rewrite !csum_1, !basis_0. unfold q, Cabs2, Cmul, RtoC. cbn [fst snd]. field.
Qed.
(** The errors are weighted by the squares of the areas, not by the areas as intended: another pattern of the order has a smaller sum of
    squared errors weighted by the areas of the cells. *)
Theorem C135_weights_refuted : exists pinv grid w ir out orig c, pinv_ok pinv /\ (forall voronoi, well_sampled voronoi grid 0 /\ cell_weights voronoi grid = Some w /\ spherical_interpolation pinv voronoi grid ir grid 0 None = Some (out, orig)) /\
  (bsum 2 (fun i => nth i w 0 * (at_ ir i 0 - pattern 0 (fun _ => c) (nth i grid (0, 0))) ^ 2) < bsum 2 (fun i => nth i w 0 * (at_ ir i 0 - at_ orig i 0) ^ 2))%R.
Proof.
  assert (HX : forall voronoi, exists out orig, spherical_interpolation col_pinv voronoi two_grid [[1]; [0]]%R two_grid 0 None = Some (out, orig)). { intros voronoi. unfold spherical_interpolation. rewrite two_weights. cbn [length two_grid Nat.eqb negb bind nth]. eexists _, _. reflexivity. }
  assert (HU : forall v v', spherical_interpolation col_pinv v two_grid [[1]; [0]]%R two_grid 0 None = spherical_interpolation col_pinv v' two_grid [[1]; [0]]%R two_grid 0 None). { intros v v'. unfold spherical_interpolation. now rewrite !two_weights. }
  destruct (HX (fun _ => None)) as (out & orig & H). exists col_pinv, two_grid, [/ 4; 3 / 4]%R, [[1]; [0]]%R, out, orig, (/ 4 / y00)%R. split; [exact col_pinv_ok|]. split; [intros voronoi; split; [apply two_sampled|split; [apply two_weights|rewrite (HU _ (fun _ => None)); exact H]]|].
  destruct (two_sampled (fun _ => None)) as (w & EW & HC). assert (w = [/ 4; 3 / 4]%R) by (rewrite two_weights in EW; congruence). subst w. destruct (interp_value col_pinv (fun _ => None) two_grid two_grid 0 _ col_pinv_ok EW HC _ None out orig H) as (P & EP & _ & _ & _ & _ & _ & _ & _ & _ & V2).
  pose proof y00_sq as Y. assert (Yn : y00 <> 0%R) by (intros Z0; rewrite Z0 in Y; lra). assert (G : forall p, fst (gain 0 [/ 4; 3 / 4]%R P two_grid p 0) = (/ 10)%R).
  { intros p. unfold gain, chans. change ((0 + 1) * (0 + 1))%nat with 1%nat. rewrite csum_1, basis_0. assert (E : P 0%nat 0%nat = Cscal (/ nsq 2 (fun i => Amat two_grid 0 [/ 4; 3 / 4]%R i 0%nat)) (Conj (Amat two_grid 0 [/ 4; 3 / 4]%R 0%nat 0%nat))). { unfold col_pinv in EP. cbn [chans plus Nat.mul Nat.eqb length two_grid] in EP. assert (HH := f_equal (fun o => match o with Some x => x 0%nat 0%nat | None => C0 end) EP). cbv beta iota in HH. symmetry. exact HH. }
    rewrite E. unfold Amat, nsq. cbn [bsum nth]. rewrite !basis_0. unfold Cscal, Conj, Cmul, RtoC, Cabs2. cbn [fst snd]. field. lra. }
  assert (O : forall p, (p < 2)%nat -> at_ orig p 0 = (/ 10)%R). { intros p Hp. rewrite V2 by (cbn; lia). cbn [length two_grid bsum at_ nth]. rewrite G. unfold at_. cbn [nth]. ring. }
  assert (PT : forall d, pattern 0 (fun _ => (/ 4 / y00)%R) d = (/ 4)%R). { intros d. unfold pattern. cbn [plus Nat.mul bsum]. unfold channel. change (Nat.sqrt 0) with 0%nat. cbn [Nat.mul plus Z.of_nat]. change (0 - 0)%Z with 0%Z. rewrite spec_00. fold y00. field. exact Yn. }
  cbn [bsum]. rewrite !PT, !O by lia. unfold at_. cbn [nth]. lra.
Qed.
Print Assumptions C135_weights_refuted.
