(** C118, C119: concrete models and failures. *)
From Coq Require Import List ZArith Lia Reals Lra Bool.
From Verif Require Import Base Vec Sum StftProofs DenoiseModel WienerProofs HmmModel HmmSpec BaseProofs HmmProofs HmmEm HmmFit HmmTrain HmmProps.
Import ListNotations.
Local Open Scope R_scope.

Lemma two_is : forall A00 A01 A10 A11 a b, is_two (two A00 A01 A10 A11 a b) A00 A01 A10 A11 a b.
Proof. intros. repeat split. Qed.
Lemma two_renorm : forall m A00 A01 A10 A11 a b, is_two m A00 A01 A10 A11 a b -> A00 + A01 = 1 -> A10 + A11 = 1 -> a + b = 1 -> exists m0, renormalized m = Some m0 /\ is_two m0 A00 A01 A10 A11 a b.
Proof.
  intros m A00 A01 A10 A11 a b (HK & E00 & E01 & E10 & E11 & Ea & Eb) H0 H1 Hp. destruct (renormalized m) as [m0|] eqn:R.
  - exists m0. split; [reflexivity|]. destruct (renormalized_spec _ _ R) as (K & A & P). rewrite HK in *. cbn [bsum] in A, P.
    assert (Q : forall i j, (i < 2)%nat -> (j < 2)%nat -> hm_A m0 i j = hm_A m i j). { intros i j Hi Hj. destruct (A i j Hi Hj) as [_ ->]. replace (0 + hm_A m i 0%nat + hm_A m i 1%nat) with 1; [field|]. destruct i as [|[|i]]; [rewrite E00, E01|rewrite E10, E11|lia]; lra. }
    unfold is_two. rewrite !Q by lia. split; [exact K|]. split; [exact E00|]. split; [exact E01|]. split; [exact E10|]. split; [exact E11|]. rewrite (proj2 (P 0%nat ltac:(lia))), (proj2 (P 1%nat ltac:(lia))), Ea, Eb. replace (0 + a + b) with 1 by lra. split; field.
  - exfalso. apply renormalized_some in R; [|lia]. rewrite HK in R. cbn [bsum] in R. destruct R as [R|([|[|i]] & Hi & R)]; [rewrite Ea, Eb in R; lra|rewrite E00, E01 in R; lra|rewrite E10, E11 in R; lra|lia].
Qed.
Lemma two_nonneg : forall m A00 A01 A10 A11 a b, is_two m A00 A01 A10 A11 a b -> 0 <= A00 -> 0 <= A01 -> 0 <= A10 -> 0 <= A11 -> 0 <= a -> 0 <= b -> nonneg_hmm m.
Proof. intros m A00 A01 A10 A11 a b (HK & <- & <- & <- & <- & <- & <-) H1 H2 H3 H4 H5 H6. unfold nonneg_hmm. rewrite HK. split; [intros [|[|i]] [|[|j]] Hi Hj; auto; lia|intros [|[|k]] Hk; auto; lia]. Qed.
Lemma swing_shaped : forall e X, em_O e = 1%nat -> In X swing -> shaped e X /\ X <> [].
Proof. intros e X HO [<-|[<-|[]]]; (split; [intros x [<-|[<-|[]]]; now rewrite HO|discriminate]). Qed.
Lemma flat_proper : forall e, em_K e = 2%nat -> em_O e = 1%nat -> (forall k, (k < 2)%nat -> em_mu e k 0%nat = 0 /\ em_sig e k 0%nat = 1) -> proper e.
Proof. intros e HK HO H k d Hk Hd. rewrite HK in Hk. rewrite HO in Hd. destruct d; [|lia]. destruct (H k Hk) as [_ ->]. lra. Qed.

(** A left-right model trained on examples of two frames: the last state is never left, its row
    becomes zero.  The samples still have a likelihood, but a second [fit] and [generate] fail. *)
Theorem C118_retrain_refuted : exists m e examples, nonneg_hmm m /\ hm_pi m 0%nat = 1 /\ hm_A m 1%nat 0%nat = 0 /\ (forall i, (i < hm_K m)%nat -> bsum (hm_K m) (hm_A m i) = 1) /\ em_K e = hm_K m /\ proper e /\ forall tol, exists m' e', fit 1 m e examples tol 1 = Done m' e' 1 /\ proper e' /\
  (forall X, In X examples -> exists L, loglikelihood m' e' X = Some L) /\
  (forall fuel tol max_iter, fit fuel m' e' examples tol max_iter = Raised) /\ forall k, generates m' [0%nat; 1%nat; k] = false.
Proof.
  exists (two (/2) (/2) 0 1 1 0), (flat 1), swing. split; [apply (two_nonneg _ _ _ _ _ _ _ (two_is _ _ _ _ _ _)); lra|]. split; [reflexivity|]. split; [reflexivity|]. split; [intros [|[|i]] Hi; [cbn; lra|cbn; lra|cbn in Hi; lia]|]. split; [reflexivity|]. split; [intros k d _ _; cbn; lra|]. intros tol.
  destruct (two_renorm _ _ _ _ _ _ _ (two_is (/2) (/2) 0 1 1 0) ltac:(lra) ltac:(lra) ltac:(lra)) as (m0 & R & T).
  destruct (swing_step m0 (/2) (/2) 0 1 1 0 1 T ltac:(lra) ltac:(lra) ltac:(lra) ltac:(lra) ltac:(lra) ltac:(lra)) as (m' & e' & ll & F & HK & P0 & P1 & A0 & A1 & EK & EO & EM). destruct T as (_ & T00 & T01 & T10 & T11 & Ta & Tb).
  pose proof tiny_pos as TP. pose proof tiny_lt as TL. destruct (Rlt_dec (2 * 1) tiny) as [|]; [lra|]. destruct (Rlt_dec (2 * 0) tiny) as [|]; [|lra].
  pose proof (A0 0%nat ltac:(lia)) as A00. pose proof (A0 1%nat ltac:(lia)) as A01. pose proof (A1 0%nat ltac:(lia)) as A10. pose proof (A1 1%nat ltac:(lia)) as A11. rewrite T00 in A00. rewrite T01 in A01.
  pose proof (flat_proper e' EK EO EM) as PE. assert (NN : nonneg_hmm m') by (apply (two_nonneg m' (/2) (/2) 0 0 1 0); [repeat split; auto|lra..]).
  exists m', e'. split; [unfold fit; rewrite R; cbn [fit_loop]; rewrite F; reflexivity|]. split; [exact PE|]. split; [|split].
  - intros X HX. destruct (flat_ev 1 ltac:(lra)) as (q & Hq & V). destruct (swing_shaped e' X EO HX) as [Sh Ne]. eexists. apply loglikelihood_spec; auto; [congruence|]. split; [exact PE|]. split; [exact Sh|]. split; [exact Ne|]. split; [|reflexivity]. rewrite (V (/2) (/2) 0 0 1 0 m' e' X) by auto. lra.
  - intros fuel tol' max_iter. unfold fit. replace (renormalized m') with (@None hmm); [reflexivity|]. symmetry. apply renormalized_some; [lia|]. right. exists 1%nat. rewrite HK. split; [lia|]. cbn [bsum]. rewrite A10, A11. ring.
  - intros k. cbn [generates generate_from]. replace (chosen (hm_K m') (hm_A m' 1%nat) k) with false; [cbn [andb]; now rewrite !andb_false_r|]. unfold chosen. rewrite HK. cbn [bsum]. rewrite A10, A11. destruct (Req_EM_T (0 + 0 + 0) 1); [lra|reflexivity].
Qed.
(** A state left less than 1e-15 times loses its transitions, and the examples that use it become
    less likely. *)
Theorem C119_rare_refuted : exists m e examples m' e' ll ll', em_K e = hm_K m /\ subprobs (hm_K m) (hm_A m) (hm_pi m) /\ proper e /\ proper e' /\ fit_step m e examples = Some (m', e', ll) /\ total_ll m e examples = Some ll /\ total_ll m' e' examples = Some ll' /\ ll' < ll.
Proof.
  pose proof tiny_pos as TP. pose proof tiny_lt as TL. set (b := tiny / 4). assert (Hb : 0 < b /\ 2 * b < tiny /\ b < / 10) by (unfold b; lra). clearbody b. set (a := 1 - b).
  pose proof (two_is 1 0 1 0 a b) as T. pose proof (two_sub 1 0 1 0 a b ltac:(lra) ltac:(lra) ltac:(lra) ltac:(lra) ltac:(unfold a; lra) ltac:(lra) ltac:(lra) ltac:(lra) ltac:(unfold a; lra)) as SP.
  destruct (swing_step _ 1 0 1 0 a b 1 T ltac:(lra) ltac:(lra) ltac:(unfold a; lra) ltac:(lra) ltac:(unfold a; lra) ltac:(unfold a; lra)) as (m' & e' & ll & F & HK & P0 & P1 & A0 & A1 & EK & EO & EM).
  destruct (Rlt_dec (2 * a) tiny) as [|]; [unfold a in *; lra|]. destruct (Rlt_dec (2 * b) tiny) as [|]; [|lra]. pose proof (A0 0%nat ltac:(lia)) as A00. pose proof (A0 1%nat ltac:(lia)) as A01. pose proof (A1 0%nat ltac:(lia)) as A10. pose proof (A1 1%nat ltac:(lia)) as A11. cbn [two hm_A] in A00, A01.
  pose proof (flat_proper e' EK EO EM) as PE. assert (NN : nonneg_hmm m') by (apply (two_nonneg m' 1 0 0 0 a b); [repeat split; auto|unfold a in *; lra..]).
  destruct (step_ll (two 1 0 1 0 a b) (flat 1) swing m' e' ll eq_refl SP F) as [E0 _].
  destruct (flat_ev 1 ltac:(lra)) as (q & Hq & V0). pose proof (V0 1 0 1 0 a b) as V. pose proof (V0 1 0 0 0 a b) as V'.
  exists (two 1 0 1 0 a b), (flat 1), swing, m', e', ll. eexists. split; [reflexivity|]. split; [exact SP|]. split; [intros k d _ _; cbn; lra|]. split; [exact PE|]. split; [exact F|]. split; [exact E0|].
  assert (T' := total_some m' e' swing NN ltac:(congruence) PE). rewrite T'.
  2: { intros X HX. destruct (swing_shaped e' X EO HX) as [Sh Ne]. split; [exact Sh|]. split; [exact Ne|]. rewrite (V' m' e' X) by auto. apply Rmult_lt_0_compat; unfold a; lra. }
  split; [reflexivity|].
  rewrite (total_some (two 1 0 1 0 a b) (flat 1) swing) in E0; [|now apply subprobs_nonneg|reflexivity|intros k d _ _; cbn; lra|].
  2: { intros X HX. destruct (swing_shaped (flat 1) X eq_refl HX) as [Sh Ne]. split; [exact Sh|]. split; [exact Ne|]. rewrite (V _ (flat 1) X HX); try reflexivity; [apply Rmult_lt_0_compat; unfold a; lra|intros; split; reflexivity]. }
  apply some_inj in E0. rewrite <- E0. cbn [swing length bsum nth].
  assert (I0 : In [[-1]; [1]] swing) by (now left). assert (I1 : In [[1]; [-1]] swing) by (right; now left).
  assert (W : forall X, In X swing -> evidence (hm_K (two 1 0 1 0 a b)) (hm_A (two 1 0 1 0 a b)) (hm_pi (two 1 0 1 0 a b)) (densities (flat 1) X) = q) by (intros X HX; rewrite (V _ (flat 1) X HX); try reflexivity; [unfold a; ring|intros; split; reflexivity]).
  rewrite (W _ I0), (W _ I1), (V' m' e' _ I0), (V' m' e' _ I1) by auto.
  assert (L : ln (q * (a * (1 + 0) + b * (0 + 0))) < ln q) by (apply ln_increasing; [apply Rmult_lt_0_compat; unfold a; lra|]; rewrite <- (Rmult_1_r q) at 2; apply Rmult_lt_compat_l; unfold a; lra). lra.
Qed.
(** Meeting the hypotheses of C118_rows, C119_step and C119_fit: two states, every transition
    possible, variance 4 where the data have variance 1; one iteration fixes the variance. *)
Example C119_step_case : let m := two (/2) (/2) (/2) (/2) (/2) (/2) in let e := flat 4 in
  em_K e = hm_K m /\ subprobs (hm_K m) (hm_A m) (hm_pi m) /\ not_rare m e swing /\ exists m' e' ll, fit_step m e swing = Some (m', e', ll) /\ proper e' /\ em_sig e 0%nat 0%nat = 4 /\ em_sig e' 0%nat 0%nat = 1 /\ renormalized m' <> None.
Proof.
  cbv zeta. set (m := two (/2) (/2) (/2) (/2) (/2) (/2)). pose proof (two_is (/2) (/2) (/2) (/2) (/2) (/2)) as T. fold m in T. pose proof (two_sub (/2) (/2) (/2) (/2) (/2) (/2) ltac:(lra) ltac:(lra) ltac:(lra) ltac:(lra) ltac:(lra) ltac:(lra) ltac:(lra) ltac:(lra) ltac:(lra)) as SP. fold m in SP.
  destruct (swing_step m (/2) (/2) (/2) (/2) (/2) (/2) 4 T ltac:(lra) ltac:(lra) ltac:(lra) ltac:(lra) ltac:(lra) ltac:(lra)) as (m' & e' & ll & F & HK & P0 & P1 & A0 & A1 & EK & EO & EM). pose proof tiny_lt as TL. destruct (Rlt_dec (2 * / 2) tiny) as [|]; [lra|].
  assert (S : forall i, (i < 2)%nat -> bsum 2 (hm_A m' i) = 1). { intros [|[|i]] Hi; [| |lia]; cbn [bsum]; [rewrite !A0 by lia|rewrite !A1 by lia]; cbn [m two hm_A]; lra. }
  split; [reflexivity|]. split; [exact SP|]. destruct (C118_rows m (flat 4) swing m' e' ll ltac:(cbn; lia) eq_refl SP F) as (_ & NN & _ & Rw & Rn).
  assert (NR : forall i, (i < hm_K m)%nat -> tiny <= Rsum (map (fun X => visits (hm_K m) (hm_A m) (hm_pi m) (densities (flat 4) X) i) swing)).
  { intros i Hi. destruct (Rlt_dec (Rsum (map (fun X => visits (hm_K m) (hm_A m) (hm_pi m) (densities (flat 4) X) i) swing)) tiny) as [L|N]; [exfalso|lra]. destruct (Rw i Hi) as [_ Z]. specialize (Z L). pose proof (S i Hi) as S1. cbn [bsum] in S1. rewrite !Z in S1 by (cbn; lia). lra. }
  split; [intros i Hi; right; now apply NR|]. exists m', e', ll. split; [exact F|]. split; [now apply flat_proper|]. split; [reflexivity|]. split; [apply EM; lia|]. intros E. apply Rn in E. destruct E as (i & Hi & L). pose proof (NR i Hi). lra.
Qed.
Example C119_fit_case : exists m' e', fit 1 (two (/2) (/2) (/2) (/2) (/2) (/2)) (flat 4) swing 0 1 = Done m' e' 1 /\ proper e' /\ em_sig e' 0%nat 0%nat = 1.
Proof.
  destruct (two_renorm _ _ _ _ _ _ _ (two_is (/2) (/2) (/2) (/2) (/2) (/2)) ltac:(lra) ltac:(lra) ltac:(lra)) as (m0 & R & T).
  destruct (swing_step m0 (/2) (/2) (/2) (/2) (/2) (/2) 4 T ltac:(lra) ltac:(lra) ltac:(lra) ltac:(lra) ltac:(lra) ltac:(lra)) as (m' & e' & ll & F & HK & P0 & P1 & A0 & A1 & EK & EO & EM). exists m', e'. split; [unfold fit; rewrite R; cbn [fit_loop]; rewrite F; reflexivity|]. split; [now apply flat_proper|]. apply EM. lia.
Qed.
(** C118_forward, C118_posterior: an unequal pair of states. *)
Example C118_forward_case : exists al c, forward (two (/2) (/2) 0 1 1 0) [fun k => match k with O => 1 | _ => /2 end; fun k => match k with O => /4 | _ => /2 end] = Some (al, c) /\ c = [1; 3/8] /\ nth 1 al (fun _ => 0) 0%nat = 1/3 /\ nth 1 al (fun _ => 0) 1%nat = 2/3 /\
  evidence 2 (hm_A (two (/2) (/2) 0 1 1 0)) (hm_pi (two (/2) (/2) 0 1 1 0)) [fun k => match k with O => 1 | _ => /2 end; fun k => match k with O => /4 | _ => /2 end] = 3/8.
Proof.
  cbn [forward two hm_K hm_A hm_pi]. unfold scaled. cbn [bsum]. replace (0 + 1 * 1 + / 2 * 0) with 1 by field. destruct (Req_EM_T 1 0); [lra|]. cbn [bind fst snd forward_from]. unfold scaled. cbn [bsum]. match goal with |- context [Req_EM_T ?c 0] => replace c with (3/8) by field end. destruct (Req_EM_T (3/8) 0); [lra|]. cbn [bind fst snd forward_from]. eexists. eexists. split; [reflexivity|]. split; [reflexivity|]. cbn [nth]. split; [field|]. split; [field|]. unfold evidence. cbn [length seqs seq flat_map app map]. unfold Rsum. cbn [map fold_right joint chain two hm_A hm_pi]. field.
Qed.
Example C118_left_right_case : forall U, (forall i j, 0 < U i j) -> exists m, hmm_init (LeftRight 1) 3 U (fun _ => 0) = Some m /\ hm_A m 0%nat 2%nat = 0 /\ 0 < hm_A m 0%nat 1%nat /\ hm_A m 1%nat 0%nat = 0.
Proof.
  intros U HU. destruct (C118_left_right 3 1 U (fun _ => 0) ltac:(lia) ltac:(lia) ltac:(intros; left; apply HU) ltac:(intros i Hi; exists i; split; [lia|]; split; [lia|apply HU])) as (m & E & _ & _ & _ & _ & _ & Z & P). exists m. split; [exact E|]. split; [apply Z; lia|]. split; [apply P; [lia|lia|apply HU]|apply Z; lia].
Qed.
Example C118_generate_case : generates (two (/2) (/2) 0 1 1 0) [0%nat; 0%nat; 1%nat; 1%nat] = true.
Proof. unfold generates. cbn [generate_from]. unfold chosen. cbn [two hm_K hm_A hm_pi bsum seq forallb Nat.ltb Nat.leb]. repeat (match goal with |- context [Req_EM_T ?a ?b] => destruct (Req_EM_T a b); [|exfalso; lra] | |- context [Rle_dec ?a ?b] => destruct (Rle_dec a b); [|exfalso; lra] | |- context [Rlt_dec ?a ?b] => destruct (Rlt_dec a b); [|exfalso; lra] end). reflexivity. Qed.
Print Assumptions C118_retrain_refuted.
Print Assumptions C119_rare_refuted.
