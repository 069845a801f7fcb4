(** C124: the subband adaptive filter. *)
From Coq Require Import List ZArith Lia Reals Lra Bool.
From Verif Require Import Base BaseProofs Vec Sum Cpx AuxivaModel AuxivaProofs WienerProofs SubLmsModel.
Import ListNotations.
Local Open Scope R_scope.

(** The state after the blocks 0 .. n-1 of the input [x] and the reference [d] (time, band). *)
Definition after (taps : nat) (mu : R) (nlms : bool) (x d : nat -> nat -> C) (n : nat) : option sub :=
  sub_run taps mu nlms (map (fun m => (x m, d m)) (seq 0 n)).
(** The input [t] blocks before block [n]. *)
Definition delayed (x : nat -> nat -> C) (n t b : nat) : C := if (t <=? n)%nat then x (n - t)%nat b else C0.
(** Power of the last [taps] values of band [b], at block [n]. *)
Definition recent (taps : nat) (x : nat -> nat -> C) (n b : nat) : R := bsum taps (fun t => Cabs2 (delayed x n t b)).
(** Output of the filters [h] (tap, band). *)
Definition filtered (taps : nat) (h x : nat -> nat -> C) (n b : nat) : C := csum taps (fun t => (Conj (h t b) * delayed x n t b)%C).

Lemma foldM_app : forall {A S} (f : S -> A -> option S) l m s, foldM f (l ++ m) s = bind (foldM f l s) (foldM f m).
Proof. intros A S f l. induction l as [|a l IH]; intros m s; cbn [app foldM]; [reflexivity|]. destruct (f s a); [apply IH|reflexivity]. Qed.
Lemma after_S : forall taps mu nlms x d n, after taps mu nlms x d (S n) = bind (after taps mu nlms x d n) (fun s => sub_update taps mu nlms s (x n) (d n)).
Proof.
  intros. unfold after, sub_run. rewrite seq_S, map_app, foldM_app. destruct (foldM _ _ _) as [s|]; [|reflexivity]. cbn [bind map foldM Nat.add fst snd]. destruct (sub_update _ _ _ _ _ _); reflexivity.
Qed.
Section Run.
Variables (taps : nat) (mu : R) (nlms : bool) (x d : nat -> nat -> C).
Hypothesis Ht : (0 < taps)%nat.
Lemma after_some : forall n, exists s, after taps mu nlms x d n = Some s.
Proof. induction n as [|n [s E]]; [eexists; reflexivity|]. rewrite after_S, E. cbn [bind]. unfold sub_update. destruct (Nat.eqb_spec taps 0); [lia|]. eauto. Qed.
Lemma after_X : forall n s, after taps mu nlms x d (S n) = Some s -> forall t b, sbX s t b = delayed x n t b.
Proof.
  induction n as [|n IH]; intros s E t b; rewrite after_S in E.
  - cbn [after sub_run seq map foldM bind] in E. unfold sub_update in E. destruct (Nat.eqb taps 0); [discriminate|]. apply WienerProofs.some_inj in E. rewrite <- E. cbn [sbX]. destruct t; reflexivity.
  - destruct (after taps mu nlms x d (S n)) as [s'|] eqn:E'; [|discriminate]. cbn [bind] in E. unfold sub_update in E. destruct (Nat.eqb taps 0); [discriminate|]. apply WienerProofs.some_inj in E. rewrite <- E. cbn [sbX]. unfold delayed. destruct t as [|t]; [now rewrite Nat.sub_0_r|]. rewrite (IH s' eq_refl). reflexivity.
Qed.
Definition gain (n b : nat) : R := if nlms then mu / (recent taps x n b + / 10 ^ 6) else mu.
Lemma recent_nonneg : forall n b, 0 <= recent taps x n b.
Proof. intros. apply bsum_nonneg. intros. apply Cabs2_nonneg. Qed.
Lemma power_sum : forall n b, csum taps (fun t => (Conj (delayed x n t b) * delayed x n t b)%C) = RtoC (recent taps x n b).
Proof. intros n b. unfold recent. rewrite <- csum_RtoC. apply csum_ext. intros t _. unfold Cabs2. apply C_eq; cbn; ring. Qed.
Lemma after_step : forall n s s', after taps mu nlms x d n = Some s -> after taps mu nlms x d (S n) = Some s' -> forall b,
  sbE s' b = (d n b - csum taps (fun t => Conj (sbW s t b) * delayed x n t b))%C /\ forall t, sbW s' t b = (sbW s t b + RtoC (gain n b) * Conj (sbE s' b) * delayed x n t b)%C.
Proof.
  intros n s s' E E' b. pose proof (after_X n s' E') as HX. rewrite after_S, E in E'. cbn [bind] in E'. unfold sub_update in E'. destruct (Nat.eqb taps 0); [discriminate|]. apply WienerProofs.some_inj in E'. rewrite <- E' in HX. rewrite <- E'. cbn [sbX sbE sbW] in *. set (X := fun t b => match t with O => x n b | S t' => sbX s t' b end) in *. change (forall t b, X t b = delayed x n t b) in HX.
  assert (EE : (d n b - csum taps (fun t => Conj (sbW s t b) * match t with O => x n b | S t' => sbX s t' b end))%C = (d n b - csum taps (fun t => Conj (sbW s t b) * delayed x n t b))%C) by (f_equal; apply csum_ext; intros t _; now rewrite <- HX).
  split; [exact EE|]. intros t. rewrite EE. set (e := (d n b - _)%C). change (match t with O => x n b | S t' => sbX s t' b end) with (X t b). rewrite HX. f_equal. unfold gain. destruct nlms; [|reflexivity].
  rewrite (csum_ext taps _ (fun t => (Conj (delayed x n t b) * delayed x n t b)%C)) by (intros t' _; now rewrite <- HX). rewrite power_sum, <- RtoC_add. pose proof (recent_nonneg n b). assert (0 < / 10 ^ 6) by (apply Rinv_0_lt_compat, pow_lt; lra). rewrite Cdiv_real by lra. rewrite Cscal_RtoC. unfold Rdiv. rewrite RtoC_mul. ring.
Qed.
End Run.
(** The buffer holds the last blocks, newest first, and zeros before the start. *)
Theorem C124_buffer : forall taps mu nlms x d n s, after taps mu nlms x d (S n) = Some s -> forall t b, sbX s t b = if (t <=? n)%nat then x (n - t)%nat b else C0.
Proof. intros. now apply (after_X taps mu nlms x d n). Qed.
Print Assumptions C124_buffer.
(** A filter with no taps fails at the first block, any other never. *)
Theorem C124_total : forall taps mu nlms x d n, (after taps mu nlms x d (S n) = None <-> taps = 0%nat).
Proof.
  intros. split.
  - intros E. destruct taps as [|t]; auto. destruct (after_some (S t) mu nlms x d ltac:(lia) (S n)) as [s E']. congruence.
  - intros ->. unfold after, sub_run. cbn [seq map foldM]. reflexivity.
Qed.
Print Assumptions C124_total.
(** Bands do not interact. *)
Theorem C124_bands : forall taps mu nlms x d x' d' n s s' b, (forall m, (m < n)%nat -> x m b = x' m b /\ d m b = d' m b) ->
  after taps mu nlms x d n = Some s -> after taps mu nlms x' d' n = Some s' -> sbE s b = sbE s' b /\ forall t, sbW s t b = sbW s' t b /\ sbX s t b = sbX s' t b.
Proof.
  intros taps mu nlms x d x' d' n. induction n as [|n IH]; intros s s' b H E E'.
  - cbn in E, E'. apply WienerProofs.some_inj in E, E'. subst. auto.
  - assert (Hn : x n b = x' n b /\ d n b = d' n b) by (apply H; lia). destruct Hn as [Hx Hd]. rewrite after_S in E, E'. destruct (after taps mu nlms x d n) as [u|] eqn:U; [|discriminate]. destruct (after taps mu nlms x' d' n) as [u'|] eqn:U'; [|discriminate]. cbn [bind] in *.
    destruct (IH u u' b ltac:(auto) eq_refl eq_refl) as [_ IW]. unfold sub_update in *. destruct (Nat.eqb taps 0); [discriminate|]. apply WienerProofs.some_inj in E, E'. subst s s'. cbn [sbE sbW sbX].
    assert (HX : forall t, match t with O => x n b | S t' => sbX u t' b end = match t with O => x' n b | S t' => sbX u' t' b end) by (intros [|t]; [exact Hx|apply IW]).
    assert (HE : (d n b - csum taps (fun t => Conj (sbW u t b) * match t with O => x n b | S t' => sbX u t' b end))%C = (d' n b - csum taps (fun t => Conj (sbW u' t b) * match t with O => x' n b | S t' => sbX u' t' b end))%C) by (rewrite Hd; f_equal; apply csum_ext; intros t _; rewrite HX; f_equal; f_equal; apply IW).
    split; [exact HE|]. intros t. split; [|apply HX]. rewrite (proj1 (IW t)), HE, HX. f_equal. destruct nlms; auto. f_equal. f_equal. apply csum_ext. intros i _. now rewrite HX.
Qed.
Print Assumptions C124_bands.
(** Squared distance between the filters of band [b] and [h]. *)
Definition away (taps : nat) (h : nat -> nat -> C) (s : sub) (b : nat) : R := bsum taps (fun t => Cabs2 (h t b - sbW s t b)%C).
(** Error at block [m], computed before the update. *)
Definition error (taps : nat) (mu : R) (nlms : bool) (x d : nat -> nat -> C) (m b : nat) : C := match after taps mu nlms x d (S m) with Some s => sbE s b | None => C0 end.
(** Step actually made at block [m]. *)
Definition weight (taps : nat) (mu : R) (nlms : bool) (x : nat -> nat -> C) (m b : nat) : R := if nlms then mu / (recent taps x m b + / 10 ^ 6) else mu.

Lemma away_step : forall taps mu nlms (x d h z : nat -> nat -> C) n s s' b, (0 < taps)%nat -> d n b = (filtered taps h x n b + z n b)%C ->
  after taps mu nlms x d n = Some s -> after taps mu nlms x d (S n) = Some s' ->
  let e := sbE s' b in let k := weight taps mu nlms x n b in
  away taps h s' b = away taps h s b - 2 * k * fst (Conj e * (e - z n b))%C + k * k * Cabs2 e * recent taps x n b.
Proof.
  intros taps mu nlms x d h z n s s' b Ht Hd E E' e k. destruct (after_step taps mu nlms x d n s s' E E' b) as [HE HW]. fold e in HE, HW. change (gain taps mu nlms x n b) with k in HW.
  assert (U : (e - z n b)%C = csum taps (fun t => (Conj (h t b - sbW s t b) * delayed x n t b)%C)).
  { rewrite HE, Hd. unfold filtered. transitivity (csum taps (fun t => (Conj (h t b) * delayed x n t b)%C) - csum taps (fun t => (Conj (sbW s t b) * delayed x n t b)%C))%C; [ring|]. rewrite <- csum_sub. apply csum_ext. intros t _. apply C_eq; cbn; ring. }
  unfold away. rewrite (bsum_ext taps (fun t => Cabs2 (h t b - sbW s' t b)%C) (fun t => Cabs2 (h t b - sbW s t b)%C - 2 * k * fst (Conj e * (Conj (h t b - sbW s t b) * delayed x n t b))%C + k * k * Cabs2 e * Cabs2 (delayed x n t b))).
  - rewrite bsum_plus, bsum_minus, !bsum_scal. unfold recent. f_equal. f_equal. f_equal. rewrite U. rewrite <- csum_scal, fst_csum. reflexivity.
  - intros t _. rewrite HW. unfold Cabs2. destruct (h t b), (sbW s t b), (delayed x n t b), e. cbn. ring.
Qed.
Lemma error_eq : forall taps mu (nlms : bool) x d n s, after taps mu nlms x d (S n) = Some s -> forall b, error taps mu nlms x d n b = sbE s b.
Proof. intros taps mu nlms x d n s E b. unfold error. now rewrite E. Qed.
Lemma weight_bounds : forall taps mu (nlms : bool) x n b c, 0 <= mu -> (if nlms then mu <= c else mu * recent taps x n b <= c) -> 0 <= c ->
  0 <= weight taps mu nlms x n b /\ weight taps mu nlms x n b * recent taps x n b <= c.
Proof.
  intros taps mu nlms x n b c Hmu Hc H0. pose proof (recent_nonneg taps x n b) as P. unfold weight. destruct nlms; [|split; auto]. assert (Q : 0 < / 10 ^ 6) by (apply Rinv_0_lt_compat, pow_lt; lra). set (p := recent taps x n b) in *. set (ep := / 10 ^ 6) in *.
  assert (0 < / (p + ep)) by (apply Rinv_0_lt_compat; lra). split; [apply Rmult_le_pos; lra|]. apply Rle_trans with (mu * 1); [|lra]. unfold Rdiv. rewrite Rmult_assoc. apply Rmult_le_compat_l; auto. apply (Rmult_le_reg_l (p + ep)); [lra|]. rewrite <- Rmult_assoc, Rinv_r, Rmult_1_l, Rmult_1_r by lra. lra.
Qed.
(** The reference is the output of an unknown filter of the same length, without noise.  For step
    sizes up to 2 (nlms; without it up to 2 over the recent power), no block takes the filter
    further away from the unknown one, and the errors, weighted by the step, sum to at most the
    energy of the unknown filter. *)
Theorem C124_fit : forall taps mu (nlms : bool) x d h n s s' b, (0 < taps)%nat -> 0 <= mu -> (forall m, (m <= n)%nat -> d m b = filtered taps h x m b) ->
  (if nlms then mu <= 2 else forall m, (m <= n)%nat -> mu * recent taps x m b <= 2) ->
  after taps mu nlms x d n = Some s -> after taps mu nlms x d (S n) = Some s' ->
  away taps h s' b <= away taps h s b /\
  bsum (S n) (fun m => let k := weight taps mu nlms x m b in k * (2 - k * recent taps x m b) * Cabs2 (error taps mu nlms x d m b)) + away taps h s' b = bsum taps (fun t => Cabs2 (h t b)).
Proof.
  intros taps mu nlms x d h n. induction n as [|n IH]; intros s s' b Ht Hmu Hd Hm E E'.
  - pose proof (away_step taps mu nlms x d h (fun _ _ => C0) 0 s s' b Ht ltac:(rewrite Hd by lia; ring) E E') as A. cbv beta zeta in A. destruct (weight_bounds taps mu nlms x 0 b 2 Hmu ltac:(destruct nlms; auto) ltac:(lra)) as [K1 K2]. set (k := weight _ _ _ _ 0 b) in *. set (p := recent taps x 0 b) in *.
    replace (fst (Conj (sbE s' b) * (sbE s' b - C0))%C) with (Cabs2 (sbE s' b)) in A by (unfold Cabs2; destruct (sbE s' b); cbn; ring). pose proof (Cabs2_nonneg (sbE s' b)) as Pe. split; [rewrite A; assert (0 <= k * Cabs2 (sbE s' b) * (2 - k * p)) by (apply Rmult_le_pos; [apply Rmult_le_pos; auto|lra]); lra|]. cbn [bsum]. rewrite (error_eq _ _ _ _ _ _ _ E'). fold k p. rewrite A. cbn in E. apply some_inj in E. subst s. unfold away, sub_reset. cbn [sbW]. rewrite (bsum_ext taps (fun t => Cabs2 (h t b - C0)%C) (fun t => Cabs2 (h t b))) by (intros; f_equal; ring). ring.
  - pose proof (away_step taps mu nlms x d h (fun _ _ => C0) (S n) s s' b Ht ltac:(rewrite Hd by lia; ring) E E') as A. cbv beta zeta in A. destruct (weight_bounds taps mu nlms x (S n) b 2 Hmu ltac:(destruct nlms; auto) ltac:(lra)) as [K1 K2]. destruct (after_some taps mu nlms x d Ht n) as [s0 E0]. destruct (IH s0 s b Ht Hmu ltac:(intros; apply Hd; lia) ltac:(destruct nlms; auto) E0 E) as [_ B]. cbn [bsum] in *. set (k := weight _ _ _ _ (S n) b) in *. set (p := recent taps x (S n) b) in *.
    replace (fst (Conj (sbE s' b) * (sbE s' b - C0))%C) with (Cabs2 (sbE s' b)) in A by (unfold Cabs2; destruct (sbE s' b); cbn; ring). pose proof (Cabs2_nonneg (sbE s' b)) as Pe. split; [rewrite A; assert (0 <= k * Cabs2 (sbE s' b) * (2 - k * p)) by (apply Rmult_le_pos; [apply Rmult_le_pos; auto|lra]); lra|]. rewrite (error_eq _ _ _ _ _ _ _ E'). rewrite A. rewrite <- B. cbv zeta. ring.
Qed.
Print Assumptions C124_fit.
(** With nlms, a step size strictly between 0 and 2 and an input of bounded power, the sum of all
    squared errors stays below a constant, however long it runs: only finitely many errors can
    exceed any given size. *)
Theorem C124_errors : forall taps mu x d h b B n, (0 < taps)%nat -> 0 < mu < 2 -> (forall m, d m b = filtered taps h x m b) -> (forall m, recent taps x m b <= B) ->
  bsum n (fun m => Cabs2 (error taps mu true x d m b)) <= (B + / 10 ^ 6) / (mu * (2 - mu)) * bsum taps (fun t => Cabs2 (h t b)).
Proof.
  intros taps mu x d h b B n Ht Hmu Hd HB. assert (Q : 0 < / 10 ^ 6) by (apply Rinv_0_lt_compat, pow_lt; lra). assert (B0 : 0 <= B) by (eapply Rle_trans; [apply (recent_nonneg taps x 0 b)|apply HB]). assert (M : 0 < mu * (2 - mu)) by (apply Rmult_lt_0_compat; lra).
  assert (Hh : 0 <= bsum taps (fun t => Cabs2 (h t b))) by (apply bsum_nonneg; intros; apply Cabs2_nonneg). set (ep := / 10 ^ 6) in *.
  destruct n as [|n]. { cbn [bsum]. apply Rmult_le_pos; auto. apply Rmult_le_pos; [lra|]. apply Rlt_le, Rinv_0_lt_compat, M. }
  destruct (after_some taps mu true x d Ht n) as [s E]. destruct (after_some taps mu true x d Ht (S n)) as [s' E']. destruct (C124_fit taps mu true x d h n s s' b Ht ltac:(lra) ltac:(auto) ltac:(lra) E E') as [_ F].
  assert (A : 0 <= away taps h s' b) by (apply bsum_nonneg; intros; apply Cabs2_nonneg).
  apply (Rmult_le_reg_l (mu * (2 - mu) / (B + ep))). { apply Rmult_lt_0_compat; [exact M|apply Rinv_0_lt_compat; lra]. }
  replace (mu * (2 - mu) / (B + ep) * ((B + ep) / (mu * (2 - mu)) * bsum taps (fun t => Cabs2 (h t b)))) with (bsum taps (fun t => Cabs2 (h t b))) by (field; split; lra).
  rewrite <- F. rewrite <- bsum_scal. apply Rle_trans with (bsum (S n) (fun m => let k := weight taps mu true x m b in k * (2 - k * recent taps x m b) * Cabs2 (error taps mu true x d m b))); [|lra]. apply bsum_le. intros m _. cbv zeta. apply Rmult_le_compat_r; [apply Cabs2_nonneg|].
  unfold weight. fold ep. pose proof (recent_nonneg taps x m b) as P. specialize (HB m). set (p := recent taps x m b) in *. set (i := / (p + ep)). assert (I : (p + ep) * i = 1) by (unfold i; apply Rinv_r; lra). assert (0 < i) by (apply Rinv_0_lt_compat; lra). assert (J : / (B + ep) <= i) by (apply Rinv_le_contravar; lra). assert (0 < / (B + ep)) by (apply Rinv_0_lt_compat; lra).
  unfold Rdiv. fold i. assert (mu * i * p <= mu). { rewrite Rmult_assoc. rewrite <- (Rmult_1_r mu) at 2. apply Rmult_le_compat_l; [lra|]. assert (i * p = 1 - ep * i) by lra. assert (0 < ep * i) by (apply Rmult_lt_0_compat; lra). lra. }
  apply Rle_trans with (mu * (2 - mu) * i); [apply Rmult_le_compat_l; lra|]. replace (mu * (2 - mu) * i) with (mu * i * (2 - mu)) by ring. apply Rmult_le_compat_l; [apply Rmult_le_pos; lra|lra].
Qed.
Print Assumptions C124_errors.
(** With noise [z] in the reference and a step size up to 1: the error without the noise, plus what
    is left of the distance to the unknown filter, never exceeds the noise plus the energy of the
    filter. *)
Theorem C124_robust : forall taps mu (nlms : bool) (x d h z : nat -> nat -> C) n s b, (0 < taps)%nat -> 0 <= mu -> (forall m, (m < n)%nat -> d m b = (filtered taps h x m b + z m b)%C) ->
  (if nlms then mu <= 1 else forall m, (m < n)%nat -> mu * recent taps x m b <= 1) -> after taps mu nlms x d n = Some s ->
  let k m := weight taps mu nlms x m b in
  bsum n (fun m => k m * Cabs2 (error taps mu nlms x d m b - z m b)%C) + away taps h s b <= bsum n (fun m => k m * Cabs2 (z m b)) + bsum taps (fun t => Cabs2 (h t b)).
Proof.
  intros taps mu nlms x d h z n. induction n as [|n IH]; intros s b Ht Hmu Hd Hm E k.
  - cbn in E. apply some_inj in E. subst s. unfold away, sub_reset. cbn [sbW bsum]. rewrite (bsum_ext taps (fun t => Cabs2 (h t b - C0)%C) (fun t => Cabs2 (h t b))) by (intros; f_equal; ring). lra.
  - destruct (after_some taps mu nlms x d Ht n) as [s0 E0]. pose proof (IH s0 b Ht Hmu ltac:(intros; apply Hd; lia) ltac:(destruct nlms; auto) E0) as B. cbv zeta in B. fold k in B. pose proof (away_step taps mu nlms x d h z n s0 s b Ht ltac:(apply Hd; lia) E0 E) as A. cbv zeta in A. fold (k n) in A.
    destruct (weight_bounds taps mu nlms x n b 1 Hmu ltac:(destruct nlms; auto) ltac:(lra)) as [K1 K2]. fold (k n) in K1, K2. cbn [bsum]. rewrite (error_eq _ _ _ _ _ _ _ E). set (p := recent taps x n b) in *. set (e := sbE s b) in *. pose proof (Cabs2_nonneg e) as Pe.
    assert (R : 2 * fst (Conj e * (e - z n b))%C = Cabs2 e + Cabs2 (e - z n b)%C - Cabs2 (z n b)) by (unfold Cabs2; destruct e, (z n b); cbn; ring).
    assert (Q : k n * k n * Cabs2 e * p <= k n * Cabs2 e). { replace (k n * k n * Cabs2 e * p) with (k n * Cabs2 e * (k n * p)) by ring. rewrite <- (Rmult_1_r (k n * Cabs2 e)) at 2. apply Rmult_le_compat_l; [apply Rmult_le_pos; auto|exact K2]. }
    assert (S2 : 2 * k n * fst (Conj e * (e - z n b))%C = k n * (Cabs2 e + Cabs2 (e - z n b)%C - Cabs2 (z n b))) by (rewrite <- R; ring). rewrite S2 in A. change (weight taps mu nlms x n b) with (k n) in *. lra.
Qed.
Print Assumptions C124_robust.
(** One tap per band, no noise: each block multiplies what is missing by [1 - step * power].  The
    filter converges geometrically when these factors stay away from 1 in size, and diverges when
    they stay above it. *)
Theorem C124_one_tap : forall mu (nlms : bool) (x d h : nat -> nat -> C) n s b, (forall m, (m < n)%nat -> d m b = (Conj (h 0%nat b) * x m b)%C) ->
  after 1 mu nlms x d n = Some s ->
  (h 0%nat b - sbW s 0 b)%C = (RtoC (Rprod (map (fun m => 1 - weight 1 mu nlms x m b * Cabs2 (x m b))%R (seq 0 n))) * h 0%nat b)%C.
Proof.
  intros mu nlms x d h n. induction n as [|n IH]; intros s b Hd E.
  - cbn in E. apply some_inj in E. subst s. cbn. apply C_eq; cbn; ring.
  - destruct (after_some 1 mu nlms x d ltac:(lia) n) as [s0 E0]. specialize (IH s0 b ltac:(intros; apply Hd; lia) E0). destruct (after_step 1 mu nlms x d n s0 s E0 E b) as [HE HW]. change (gain 1 mu nlms x n b) with (weight 1 mu nlms x n b) in HW.
    rewrite seq_S, map_app. cbn [map Nat.add]. assert (RP : forall l (a : R), Rprod (l ++ [a]) = Rprod l * a) by (induction l as [|u l IHl]; intros a; cbn [app Rprod fold_right]; [cbn; ring|]; change (u * Rprod (l ++ [a]) = u * Rprod l * a); rewrite IHl; ring).
    rewrite RP, RtoC_mul. rewrite (HW 0%nat), HE, Hd by lia. set (r := RtoC (Rprod _)) in *. set (k := weight _ _ _ _ n b). rewrite csum_S, csum_0. unfold delayed. cbn [Nat.leb]. rewrite Nat.sub_0_r.
    transitivity ((h 0%nat b - sbW s0 0 b) * RtoC (1 - k * Cabs2 (x n b))%R)%C; [|rewrite IH; ring]. unfold Cabs2. destruct (h 0%nat b), (sbW s0 0%nat b), (x n b). apply C_eq; cbn; ring.
Qed.
Print Assumptions C124_one_tap.

(** Two taps, one band: the unknown filter is (2 - i, 3), the input 1, i, 0, ...; two blocks of lms
    with step 1/2, which meet what [C124_fit] asks for. *)
Definition ex_x (m _ : nat) : C := match m with O => C1 | 1%nat => (0, 1) | _ => C0 end.
Definition ex_h (t _ : nat) : C := match t with O => (2, -1) | _ => (3, 0) end.
Definition ex_d (m b : nat) : C := filtered 2 ex_h ex_x m b.
Example C124_example : exists s, after 2 (1 / 2) false ex_x ex_d 2 = Some s /\
  error 2 (1 / 2) false ex_x ex_d 0 0 = (2, 1) /\ error 2 (1 / 2) false ex_x ex_d 1 0 = (5 / 2, 1) /\
  away 2 ex_h s 0 = 53 / 8 /\ (forall m, (m <= 1)%nat -> 1 / 2 * recent 2 ex_x m 0 <= 2).
Proof.
  eexists. split; [reflexivity|]. split; [apply C_eq; cbn; field|]. split; [apply C_eq; cbn; field|]. split; [unfold away, Cabs2; cbn; field|].
  intros [|[|m]] H; [| |lia]; unfold recent, Cabs2; cbn; lra.
Qed.
