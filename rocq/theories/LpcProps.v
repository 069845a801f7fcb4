(** C86: linear prediction. *)
From Coq Require Import List ZArith Lia Reals Lra Bool.
From Verif Require Import Base BaseProofs Vec Sum Cpx SimulateModel SimulateSpec SyncModel UtilModel UtilProps LevinsonProps CorrProps BandsProps.
Import ListNotations.
Local Open Scope R_scope.

(** Prediction from past samples, and the energy of the prediction error over the whole support of the
    error; the signal is zero outside its samples. *)
Definition predicted (x : vec) (p : nat) (c : nat -> R) (t : nat) : R := bsum p (fun k => c k * at_time x (Z.of_nat t - 1 - Z.of_nat k)).
Definition residual_energy (x : vec) (p : nat) (c : nat -> R) : R := bsum (length x + p) (fun t => (at_time x (Z.of_nat t) - predicted x p c t) ^ 2).

Lemma at_time_neg : forall x t, (t < 0)%Z -> at_time x t = 0.
Proof. intros x t H. unfold at_time. destruct (Z.ltb_spec t 0); [auto|lia]. Qed.
Lemma at_time_long : forall x t, (Z.of_nat (length x) <= t)%Z -> at_time x t = 0.
Proof. intros x t H. unfold at_time. destruct (Z.ltb_spec t 0); auto. apply nth_overflow. lia. Qed.
Lemma cross_ge : forall x p i k, (k <= i <= p)%nat -> bsum (length x + p) (fun t => at_time x (Z.of_nat t - Z.of_nat i) * at_time x (Z.of_nat t - Z.of_nat k)) = acsum x (i - k).
Proof.
  intros x p i k H. replace (length x + p)%nat with (i + (length x + (p - i)))%nat by lia. rewrite bsum_split. rewrite (bsum_zero_ext i) by (intros t Ht; rewrite at_time_neg by lia; ring). rewrite Rplus_0_l. rewrite bsum_trunc with (n := length x); [|lia|intros n Hn; rewrite at_time_long by lia; ring]. unfold acsum. apply bsum_ext. intros n Hn. replace (Z.of_nat (i + n) - Z.of_nat i)%Z with (Z.of_nat n) by lia. replace (Z.of_nat (i + n) - Z.of_nat k)%Z with (Z.of_nat (n + (i - k))) by lia. now rewrite !at_time_nat.
Qed.
Lemma cross : forall x p i k, (i <= p)%nat -> (k <= p)%nat -> bsum (length x + p) (fun t => at_time x (Z.of_nat t - Z.of_nat i) * at_time x (Z.of_nat t - Z.of_nat k)) = acsum x (if (k <=? i)%nat then i - k else k - i).
Proof.
  intros x p i k Hi Hk. destruct (Nat.leb_spec k i); [now apply cross_ge|]. rewrite <- (cross_ge x p k i) by lia. apply bsum_ext. intros t Ht. ring.
Qed.
Definition acabs (x : vec) (i k : nat) : R := acsum x (if (k <=? i)%nat then i - k else k - i).
Lemma predicted_energy : forall x p v, bsum (length x + p) (fun t => predicted x p v t * predicted x p v t) = bsum p (fun i => v i * bsum p (fun k => acabs x i k * v k)).
Proof.
  intros x p v. unfold predicted. rewrite (bsum_ext _ _ (fun t => bsum p (fun i => bsum p (fun k => v i * v k * (at_time x (Z.of_nat t - Z.of_nat (S i)) * at_time x (Z.of_nat t - Z.of_nat (S k))))))).
  - rewrite bsum_swap. apply bsum_ext. intros i Hi. rewrite <- bsum_scal, bsum_swap. apply bsum_ext. intros k Hk. rewrite bsum_scal, cross by lia. unfold acabs. cbn [Nat.leb Nat.sub]. ring.
  - intros t Ht. rewrite bsum_mul. apply bsum_ext. intros i Hi. apply bsum_ext. intros k Hk. replace (Z.of_nat t - 1 - Z.of_nat i)%Z with (Z.of_nat t - Z.of_nat (S i))%Z by lia. replace (Z.of_nat t - 1 - Z.of_nat k)%Z with (Z.of_nat t - Z.of_nat (S k))%Z by lia. ring.
Qed.
Lemma first_nonzero : forall (f : nat -> R) n, (exists i, (i < n)%nat /\ f i <> 0) -> exists i, (i < n)%nat /\ f i <> 0 /\ forall j, (j < i)%nat -> f j = 0.
Proof.
  intros f n H. assert (D : forall m, (exists i, (i < m)%nat /\ f i <> 0 /\ forall j, (j < i)%nat -> f j = 0) \/ forall j, (j < m)%nat -> f j = 0).
  { induction m as [|m [(i & Hi & A & B)|Z]]; [right; intros; lia|left; exists i; auto|]. destruct (Req_EM_T (f m) 0) as [E|E]; [right|left; exists m; auto]. intros j Hj. destruct (Nat.eq_dec j m) as [->|]; auto. apply Z. lia. }
  destruct (D n) as [(i & Hi & A)|Z]; [eauto|]. destruct H as (i & Hi & A). exfalso. apply A. auto.
Qed.
Lemma bsum_ge_term : forall n f t, (t < n)%nat -> (forall i, (i < n)%nat -> 0 <= f i) -> f t <= bsum n f.
Proof.
  intros n f t Ht H. replace n with (t + (1 + (n - t - 1)))%nat by lia. rewrite !bsum_split. cbn [bsum]. rewrite Nat.add_0_r. pose proof (bsum_nonneg t f ltac:(intros; apply H; lia)). pose proof (bsum_nonneg (n - t - 1) (fun i => f (t + (1 + i))%nat) ltac:(intros; apply H; lia)). lra.
Qed.
Lemma predicted_pos : forall x p v, (exists n, (n < length x)%nat /\ nth n x 0 <> 0) -> (exists i, (i < p)%nat /\ v i <> 0) -> 0 < bsum (length x + p) (fun t => predicted x p v t * predicted x p v t).
Proof.
  intros x p v Hx Hv. destruct (first_nonzero _ _ Hx) as (n & Hn & Nn & Zn). destruct (first_nonzero _ _ Hv) as (i & Hi & Ni & Zi). set (t := (S (i + n))%nat).
  assert (P : predicted x p v t = v i * nth n x 0). { unfold predicted. rewrite (bsum_delta p i); auto. - f_equal. replace (Z.of_nat t - 1 - Z.of_nat i)%Z with (Z.of_nat n) by (unfold t; lia). apply at_time_nat.
    - intros k Hk Hne. destruct (Nat.lt_ge_cases k i); [rewrite Zi by auto; ring|]. destruct (Nat.le_gt_cases k (i + n)); [|rewrite at_time_neg by (unfold t; lia); ring]. replace (Z.of_nat t - 1 - Z.of_nat k)%Z with (Z.of_nat (i + n - k)) by (unfold t; lia). rewrite at_time_nat, Zn by lia. ring. }
  assert (Ht : (t < length x + p)%nat) by (unfold t; lia). assert (Q : 0 < predicted x p v t * predicted x p v t). { rewrite P. assert (v i * nth n x 0 <> 0) by (apply Rmult_integral_contrapositive_currified; auto). nra. }
  eapply Rlt_le_trans; [exact Q|]. apply (bsum_ge_term _ (fun t => predicted x p v t * predicted x p v t)); auto. intros s _. apply Rle_0_sqr.
Qed.
Definition silent (x : vec) : Prop := forall n, nth n x 0 = 0.
Lemma not_silent : forall x, ~ silent x -> exists n, (n < length x)%nat /\ nth n x 0 <> 0.
Proof.
  intros x H. induction x as [|a x IH]; [exfalso; apply H; intros [|]; reflexivity|]. destruct (Req_EM_T a 0) as [->|E]; [|exists 0%nat; cbn; split; [lia|auto]]. destruct IH as (n & Hn & A). { intros Z. apply H. intros [|n]; cbn; auto. } exists (S n). cbn. split; [lia|auto].
Qed.
(** The autocorrelation vector handed to the solver. *)
Lemma lpc_unfold : forall x p biased, (1 <= p < length x)%nat -> lpc x p biased =
  levinson (map RtoC (map (fun k => acsum x k / INR (if biased then length x else length x - k)) (seq 0 p))) (map RtoC (map (fun k => acsum x k / INR (if biased then length x else length x - k)) (seq 1 p))).
Proof.
  intros x p biased Hp. unfold lpc. rewrite C63_autocorr by lia. cbn [bind]. rewrite firstn_map, skipn_map. do 3 f_equal. - rewrite seq_app, firstn_app, seq_length, Nat.sub_diag, firstn_O, app_nil_r. now rewrite firstn_all2 by (rewrite seq_length; lia). - now rewrite Nat.add_1_r.
Qed.
(** The coefficients solve the Yule-Walker equations of the autocorrelation estimate. *)
Theorem C86_yule_walker : forall x p biased a, (1 <= p < length x)%nat -> lpc x p biased = Some a -> exists y, a = map RtoC y /\ length y = p /\
  let r k := acsum x k / INR (if biased then length x else length x - k) in
  forall i, (i < p)%nat -> bsum p (fun k => r (if (k <=? i)%nat then i - k else k - i)%nat * nth k y 0) = r (S i).
Proof.
  intros x p biased a Hp E. rewrite lpc_unfold in E by auto. apply C59_real in E. rewrite map_length, seq_length in E. destruct E as (y & -> & Ly & H). exists y. repeat split; auto. intros r i Hi. specialize (H i Hi). rewrite (nth_map_in _ _ i 0%nat) in H by (now rewrite seq_length). rewrite seq_nth in H by auto. cbn [Nat.add] in H. unfold r. rewrite <- H. apply bsum_ext. intros k Hk. f_equal. unfold rtoep. rewrite (nth_map_in _ _ _ 0%nat) by (rewrite seq_length; destruct (k <=? i)%nat; lia). rewrite seq_nth by (destruct (k <=? i)%nat; lia). reflexivity.
Qed.
Print Assumptions C86_yule_walker.
(** They exist for every signal that is not silent, and are the only minimiser of the prediction error energy. *)
Theorem C86_optimal : forall x p, (1 <= p < length x)%nat -> ~ silent x -> exists y, lpc x p true = Some (map RtoC y) /\ length y = p /\
  forall c : nat -> R, residual_energy x p (fun k => nth k y 0) <= residual_energy x p c /\ ((exists k, (k < p)%nat /\ c k <> nth k y 0) -> residual_energy x p (fun k => nth k y 0) < residual_energy x p c).
Proof.
  intros x p Hp Hs. pose proof (not_silent x Hs) as Hx. assert (HL : 0 < INR (length x)) by (apply lt_0_INR; lia).
  assert (D : exists a, lpc x p true = Some a). { rewrite lpc_unfold by auto. destruct (C59_posdef (map (fun k => acsum x k / INR (length x)) (seq 0 p)) (map (fun k => acsum x k / INR (length x)) (seq 1 p))) as (y & E & _); [destruct p; [lia|discriminate]|rewrite !map_length, !seq_length; lia| |eauto].
    rewrite map_length, seq_length. intros v Hv. pose proof (predicted_pos x p v Hx Hv) as Q. rewrite predicted_energy in Q. apply Rmult_lt_reg_l with (INR (length x)); auto. rewrite Rmult_0_r. eapply Rlt_le_trans; [exact Q|]. right. rewrite <- bsum_scal. apply bsum_ext. intros i Hi. transitivity (v i * (INR (length x) * bsum p (fun k => rtoep (map (fun k => acsum x k / INR (length x)) (seq 0 p)) i k * v k))); [|ring]. f_equal. rewrite <- bsum_scal. apply bsum_ext. intros k Hk. unfold rtoep, acabs. rewrite (nth_map_in _ _ _ 0%nat) by (rewrite seq_length; destruct (k <=? i)%nat; lia). rewrite seq_nth by (destruct (k <=? i)%nat; lia). cbn [Nat.add]. field. lra. }
  destruct D as (a & E). destruct (C86_yule_walker x p true a Hp E) as (y & -> & Ly & N). cbv zeta in N. exists y. split; auto. split; auto. intros c. set (yy k := nth k y 0). set (d k := c k - yy k).
  assert (Nn : forall i, (i < p)%nat -> bsum (length x + p) (fun t => (at_time x (Z.of_nat t) - predicted x p yy t) * at_time x (Z.of_nat t - 1 - Z.of_nat i)) = 0).
  { intros i Hi. specialize (N i Hi). assert (N' : bsum p (fun k => acabs x i k * yy k) = acsum x (S i)). { apply Rmult_eq_reg_r with (/ INR (length x)); [|apply Rinv_neq_0_compat; lra]. fold (acsum x (S i) / INR (length x)). rewrite <- N, <- bsum_scal_r. apply bsum_ext. intros k Hk. unfold acabs, yy, Rdiv. ring. }
    rewrite (bsum_ext _ _ (fun t => at_time x (Z.of_nat t - Z.of_nat 0) * at_time x (Z.of_nat t - Z.of_nat (S i)) - bsum p (fun k => yy k * (at_time x (Z.of_nat t - Z.of_nat (S k)) * at_time x (Z.of_nat t - Z.of_nat (S i)))))).
    - rewrite bsum_minus, cross by lia. cbn [Nat.leb]. rewrite Nat.sub_0_r. rewrite bsum_swap. rewrite <- N'. rewrite (bsum_ext p (fun k => bsum (length x + p) _) (fun k => acabs x i k * yy k)); [ring|]. intros k Hk. rewrite bsum_scal, cross by lia. unfold acabs. cbn [Nat.leb Nat.sub]. rewrite Rmult_comm. do 2 f_equal. destruct (Nat.leb_spec i k), (Nat.leb_spec k i); lia.
    - intros t Ht. replace (Z.of_nat t - Z.of_nat 0)%Z with (Z.of_nat t) by lia. replace (Z.of_nat t - 1 - Z.of_nat i)%Z with (Z.of_nat t - Z.of_nat (S i))%Z by lia. unfold predicted. rewrite Rmult_minus_distr_r. f_equal. rewrite <- bsum_scal_r. apply bsum_ext. intros k Hk. replace (Z.of_nat t - 1 - Z.of_nat k)%Z with (Z.of_nat t - Z.of_nat (S k))%Z by lia. ring. }
  assert (Split : residual_energy x p c = residual_energy x p yy + bsum (length x + p) (fun t => predicted x p d t * predicted x p d t)).
  { unfold residual_energy. assert (Lin : forall t, predicted x p c t = predicted x p yy t + predicted x p d t). { intros t. unfold predicted. rewrite <- bsum_plus. apply bsum_ext. intros k Hk. unfold d. ring. }
    assert (Cr : bsum (length x + p) (fun t => (at_time x (Z.of_nat t) - predicted x p yy t) * predicted x p d t) = 0). { rewrite (bsum_ext _ _ (fun t => bsum p (fun k => d k * ((at_time x (Z.of_nat t) - predicted x p yy t) * at_time x (Z.of_nat t - 1 - Z.of_nat k))))) by (intros t Ht; unfold predicted at 2; rewrite <- bsum_scal; apply bsum_ext; intros k Hk; ring). rewrite bsum_swap. apply bsum_zero_ext. intros k Hk. rewrite bsum_scal, Nn by auto. ring. }
    rewrite (bsum_ext _ _ (fun t => ((at_time x (Z.of_nat t) - predicted x p yy t) ^ 2 + predicted x p d t * predicted x p d t) + - 2 * ((at_time x (Z.of_nat t) - predicted x p yy t) * predicted x p d t))) by (intros t Ht; rewrite Lin; ring). rewrite bsum_plus, bsum_scal, Cr, bsum_plus. ring. }
  rewrite Split. split.
  - pose proof (bsum_nonneg (length x + p) (fun t => predicted x p d t * predicted x p d t) ltac:(intros; apply Rle_0_sqr)). lra.
  - intros (k & Hk & Hne). pose proof (predicted_pos x p d Hx) as Q. assert (0 < bsum (length x + p) (fun t => predicted x p d t * predicted x p d t)); [|lra]. apply Q. exists k. split; auto. unfold d, yy. lra.
Qed.
Print Assumptions C86_optimal.
Example C86_case : exists y, lpc [1; 1] 1 true = Some (map RtoC y) /\ y = [/ 2].
Proof.
  destruct (C86_optimal [1; 1] 1) as (y & E & Ly & _); [cbn; lia|intros Z; specialize (Z 0%nat); cbn in Z; lra|]. exists y. split; auto. destruct (C86_yule_walker [1; 1] 1 true _ ltac:(cbn; lia) E) as (y' & Ey & Ly' & N). destruct y as [|u [|]]; try discriminate. destruct y' as [|u' [|]]; try discriminate. inversion Ey. subst u'. specialize (N 0%nat ltac:(lia)). cbn [bsum] in N. unfold acsum in N. cbn in N. f_equal. lra.
Qed.
(** Asking for as many coefficients as samples, or more, returns fewer. *)
Theorem C86_long_refuted : exists x p a, ~ silent x /\ lpc x p true = Some a /\ length a <> p.
Proof.
  exists [1; 1], 2%nat. unfold lpc, autocorr, autocorr_raw. cbn [length Nat.eqb]. unfold np_correlate. cbn -[levinson INR]. destruct (levinson _ _) as [a|] eqn:E.
  - exists a. split; [intros Z; specialize (Z 0%nat); cbn in Z; lra|]. split; auto. apply C59_sound in E; [|cbn [nth]; apply Conj_RtoC]. destruct E as [Hl _]. cbn in Hl. lia.
  - exfalso. unfold levinson in E. cbn [length Nat.sub seq foldM bind] in E. destruct (C_eq_dec _ C0) as [E0|]; [|discriminate]. apply (f_equal fst) in E0. cbn in E0. lra.
Qed.
Print Assumptions C86_long_refuted.
