(** C118, C119: hidden Markov models (recognition.py). *)
From Coq Require Import List ZArith Lia Reals Lra Bool.
From Verif Require Import Base Vec Sum StftProofs DenoiseModel WienerProofs HmmModel HmmSpec BaseProofs HmmProofs HmmEm HmmFit HmmTrain.
Import ListNotations.
Local Open Scope R_scope.

(** ** C118: inference *)
Lemma vat_firstn : forall K A v ps n, vat K A v (firstn n ps) n = vat K A v ps n.
Proof. intros. unfold vat. now rewrite firstn_firstn, Nat.min_id. Qed.
Lemma prefix_evidence : forall m p ps n, (n <= length ps)%nat -> evidence (hm_K m) (hm_A m) (hm_pi m) (firstn (S n) (p :: ps)) = Sc m p ps n.
Proof. intros m p ps n Hn. cbn [firstn]. rewrite evidence_Sc, firstn_length_le by auto. unfold Sc. now rewrite vat_firstn. Qed.
Lemma prefix_and : forall m p ps n k, (n <= length ps)%nat -> (k < hm_K m)%nat -> evidence_and (hm_K m) (hm_A m) (hm_pi m) (firstn (S n) (p :: ps)) (at_time n k) = vat (hm_K m) (hm_A m) (v0 m p) ps n k.
Proof.
  intros m p ps n k Hn Hk. cbn [firstn]. rewrite evidence_and_jv, at_sum by (auto; rewrite firstn_length_le; auto). rewrite vat_firstn, skipn_all2 by (rewrite firstn_length_le; auto). rewrite Bw_nil. ring.
Qed.

(** [forward] returns the probability of each state given the observations so far, and the density of
    each observation given the previous ones. *)
Theorem C118_forward : forall m ps alpha c, forward m ps = Some (alpha, c) ->
  let ev n := evidence (hm_K m) (hm_A m) (hm_pi m) (firstn n ps) in
  length alpha = length ps /\ length c = length ps /\
  forall n, (n < length ps)%nat -> ev (S n) <> 0 /\
    (forall k, (k < hm_K m)%nat -> nth n alpha (fun _ => 0) k = evidence_and (hm_K m) (hm_A m) (hm_pi m) (firstn (S n) ps) (at_time n k) / ev (S n)) /\
    nth n c 0 = if Nat.eqb n 0 then ev 1%nat else ev (S n) / ev n.
Proof.
  intros m ps alpha c E ev. destruct ps as [|p ps]; [discriminate|]. destruct (forward_spec _ _ _ _ _ E) as (L1 & L2 & C0 & C1 & H). cbn [length]. split; [exact L1|]. split; [exact L2|]. intros n Hn. unfold ev. rewrite prefix_evidence by lia. destruct (H n ltac:(lia)) as [H1 H2]. split; [exact H1|]. split.
  - intros k Hk. rewrite prefix_and by (auto; lia). apply H2.
  - destruct n as [|n]; cbn [Nat.eqb]; [now rewrite prefix_evidence by lia|]. rewrite (prefix_evidence m p ps n) by lia. apply C1. lia.
Qed.
(** It fails exactly on an impossible (or empty) observation. *)
Theorem C118_possible : forall m ps, nonneg_hmm m -> nonneg_all (hm_K m) ps -> (forward m ps = None <-> ps = [] \/ evidence (hm_K m) (hm_A m) (hm_pi m) ps = 0).
Proof. exact forward_none. Qed.
(** [loglikelihood] is the logarithm of the density of the sample. *)
Theorem C118_loglikelihood : forall m e X L, nonneg_hmm m -> em_K e = hm_K m ->
  (loglikelihood m e X = Some L <-> proper e /\ shaped e X /\ X <> [] /\ 0 < evidence (hm_K m) (hm_A m) (hm_pi m) (densities e X) /\ L = ln (evidence (hm_K m) (hm_A m) (hm_pi m) (densities e X))).
Proof. exact loglikelihood_spec. Qed.
Lemma vat_alive : forall K A ps, (forall i j, (i < K)%nat -> (j < K)%nat -> 0 <= A i j) -> (forall i, (i < K)%nat -> bsum K (A i) = 1) -> (forall n k, (n < length ps)%nat -> (k < K)%nat -> 0 < nth n ps (fun _ => 0) k) ->
  forall v, (forall k, (k < K)%nat -> 0 <= v k) -> 0 < bsum K v -> forall n, 0 < bsum K (vat K A v ps n).
Proof.
  intros K A ps HA HS. induction ps as [|p ps IH]; intros Hp v Hv Hs n; [unfold vat; now rewrite firstn_nil|]. destruct n as [|n]; [exact Hs|]. rewrite vat_S.
  assert (P0 : forall k, (k < K)%nat -> 0 < p k) by (intros k Hk; apply (Hp 0%nat k); auto; cbn; lia).
  assert (Hin : forall j, (j < K)%nat -> 0 <= bsum K (fun i => A i j * v i)) by (intros j Hj; apply bsum_nonneg; intros i Hi; apply Rmult_le_pos; auto).
  assert (Hst : forall k, (k < K)%nat -> 0 <= stepv K A v p k) by (intros k Hk; unfold stepv; apply Rmult_le_pos; auto; left; auto).
  apply IH; auto; [intros n' k Hn Hk; apply (Hp (S n') k); auto; cbn; lia|]. destruct (bsum_nonneg K _ Hst) as [|Z]; [assumption|exfalso].
  assert (Q : bsum K (fun j => bsum K (fun i => A i j * v i)) = 0). { apply bsum_zero_ext. intros j Hj. pose proof (nonneg_zero K _ Hst (eq_sym Z) j Hj) as E. unfold stepv in E. apply Rmult_integral in E. destruct E as [E|E]; [pose proof (P0 j Hj); lra|exact E]. }
  rewrite bsum_swap in Q. rewrite (bsum_ext K _ v) in Q; [lra|]. intros i Hi. rewrite bsum_scal_r, HS by auto. ring.
Qed.
(** A chain whose rows all sum to one accepts every sample. *)
Theorem C118_alive : forall m e X, nonneg_hmm m -> bsum (hm_K m) (hm_pi m) = 1 -> (forall i, (i < hm_K m)%nat -> bsum (hm_K m) (hm_A m i) = 1) -> em_K e = hm_K m -> proper e -> shaped e X -> X <> [] -> exists L, loglikelihood m e X = Some L.
Proof.
  intros m e X NN SP SA HK P Sh Ne. eexists. apply loglikelihood_spec; auto. split; [exact P|]. split; [exact Sh|]. split; [exact Ne|]. split; [|reflexivity]. destruct X as [|x X]; [congruence|]. change (densities e (x :: X)) with ((fun k => normal_pdf (em_O e) (em_mu e k) (em_sig e k) x) :: densities e X). rewrite evidence_Sc. unfold Sc. destruct NN as [NA NP].
  assert (Px : forall k, (k < hm_K m)%nat -> 0 < normal_pdf (em_O e) (em_mu e k) (em_sig e k) x) by (intros k Hk; apply normal_pdf_pos; intros d Hd; apply P; lia).
  assert (V : forall k, (k < hm_K m)%nat -> 0 <= v0 m (fun k => normal_pdf (em_O e) (em_mu e k) (em_sig e k) x) k) by (intros k Hk; unfold v0; apply Rmult_le_pos; auto; left; auto).
  apply vat_alive; auto.
  - intros n k Hn Hk. rewrite densities_length in Hn. now apply (densities_pos e X (hm_K m)).
  - destruct (bsum_nonneg _ _ V) as [|Z]; [assumption|exfalso]. rewrite (bsum_zero_ext (hm_K m) (hm_pi m)) in SP; [lra|]. intros k Hk. pose proof (nonneg_zero _ _ V (eq_sym Z) k Hk) as E. unfold v0 in E. apply Rmult_integral in E. destruct E as [E|E]; [pose proof (Px k Hk); lra|exact E].
Qed.
(** The expectation step: probabilities of each state, and of each pair of successive states, given
    the whole example; they are consistent. *)
Theorem C118_posterior : forall m ps e, e_step m ps = Some e ->
  let post ev := evidence_and (hm_K m) (hm_A m) (hm_pi m) ps ev / evidence (hm_K m) (hm_A m) (hm_pi m) ps in
  length (po_gamma e) = length ps /\ (length (po_xi e) + 1 = length ps)%nat /\
  (forall n k, (n < length ps)%nat -> (k < hm_K m)%nat -> nth n (po_gamma e) (fun _ => 0) k = post (at_time n k)) /\
  (forall n i j, (n + 1 < length ps)%nat -> (i < hm_K m)%nat -> (j < hm_K m)%nat -> nth n (po_xi e) (fun _ _ => 0) i j = post (fun z => at_time n i z && at_time (n + 1) j z)) /\
  (forall n, (n < length ps)%nat -> bsum (hm_K m) (nth n (po_gamma e) (fun _ => 0)) = 1) /\
  (nonneg_hmm m -> nonneg_all (hm_K m) ps -> po_ll e = ln (evidence (hm_K m) (hm_A m) (hm_pi m) ps)).
Proof.
  intros m ps e E post. destruct (e_step_spec _ _ _ E) as (Ne & Hev & L1 & L2 & G & X & al & cs & F & Ll). split; [exact L1|]. split; [exact L2|]. split; [exact G|]. split; [exact X|]. split.
  - intros n Hn. rewrite (bsum_ext _ _ (fun k => evidence_and (hm_K m) (hm_A m) (hm_pi m) ps (at_time n k) * / evidence (hm_K m) (hm_A m) (hm_pi m) ps)) by (intros k Hk; now apply G). rewrite bsum_scal_r.
    rewrite (bsum_ext _ _ (fun k => ssum (hm_K m) (length ps) (fun z => joint (hm_A m) (hm_pi m) ps z * ind (at_time n k z)))) by (intros; apply evidence_and_ssum). rewrite <- ssum_bsum.
    rewrite (ssum_ext _ _ _ (joint (hm_A m) (hm_pi m) ps)); [|intros z Lz Fz; rewrite bsum_scal; rewrite (bsum_ext _ _ (fun k => ind (at_time n k z) * 1)) by (intros; ring); rewrite <- (at_value (hm_K m) n z (fun _ => 1) ltac:(lia) Fz); ring].
    change (ssum (hm_K m) (length ps) (joint (hm_A m) (hm_pi m) ps)) with (evidence (hm_K m) (hm_A m) (hm_pi m) ps). field. exact Hev.
  - intros NN Np. rewrite Ll. apply (forward_ll m ps al cs NN Np F).
Qed.
Print Assumptions C118_forward.
Print Assumptions C118_possible.
Print Assumptions C118_loglikelihood.
Print Assumptions C118_alive.
Print Assumptions C118_posterior.

(** ** C118: structure of the chain *)
Lemma normalized_some : forall K v, bsum K v <> 0 -> exists p, normalized K v = Some p /\ forall k, (k < K)%nat -> p k = v k / bsum K v.
Proof.
  intros K v Hv. unfold normalized, tabulate. rewrite (mapM_is _ (fun k => v k / bsum K v)) by (intros k _; unfold rdiv; destruct (Req_EM_T _ 0); [contradiction|reflexivity]). cbn [bind]. eexists. split; [reflexivity|]. intros k Hk. unfold as_row. now rewrite nth_map_seq.
Qed.
Lemma normalized_rows_some : forall K A, (forall i, (i < K)%nat -> bsum K (A i) <> 0) -> exists B, normalized_rows K A = Some B /\ forall i j, (i < K)%nat -> (j < K)%nat -> B i j = A i j / bsum K (A i).
Proof.
  intros K A H. destruct (mapM_Some (fun i => normalized K (A i)) (seq 0 K)) as (rows & E & _). { intros i Hi. apply in_seq in Hi. destruct (normalized_some K (A i) (H i ltac:(lia))) as (p & Ep & _). eauto. }
  assert (EB : normalized_rows K A = Some (fun i => nth i rows (fun _ => 0))) by (unfold normalized_rows, tabulate; rewrite E; reflexivity). exists (fun i => nth i rows (fun _ => 0)). split; [exact EB|]. intros i j Hi Hj. apply (normalized_spec _ _ _ (normalized_rows_spec _ _ _ EB i Hi) j Hj).
Qed.
(** Every state can follow every other one in a full model; rows and initial probabilities are the
    draws divided by their sums. *)
Theorem C118_full : forall K U u, (forall i, (i < K)%nat -> 0 < bsum K (U i)) -> 0 < bsum K u ->
  exists m, hmm_init Full K U u = Some m /\ hm_K m = K /\ (forall i j, (i < K)%nat -> (j < K)%nat -> hm_A m i j * bsum K (U i) = U i j) /\ (forall k, (k < K)%nat -> hm_pi m k * bsum K u = u k) /\
    (forall i, (i < K)%nat -> bsum K (hm_A m i) = 1) /\ bsum K (hm_pi m) = 1.
Proof.
  intros K U u HU Hu. destruct (normalized_rows_some K U ltac:(intros i Hi; pose proof (HU i Hi); lra)) as (B & EB & SB). destruct (normalized_some K u ltac:(lra)) as (p & Ep & Sp). exists {| hm_K := K; hm_A := B; hm_pi := p |}. unfold hmm_init. rewrite EB. cbn [bind]. rewrite Ep. cbn [bind hm_K hm_A hm_pi]. assert (K0 : (0 < K)%nat) by (destruct K; [cbn in Hu; lra|lia]). split; [reflexivity|]. split; [reflexivity|]. split; [intros i j Hi Hj; rewrite SB by auto; pose proof (HU i Hi); field; lra|]. split; [intros k Hk; rewrite Sp by auto; field; lra|]. split.
  - intros i Hi. apply (normalized_sum K (U i) (B i) K0). now apply normalized_rows_spec.
  - now apply (normalized_sum K u p).
Qed.
(** A left-right chain starts in state 0, never goes back, never advances by more than
    [leftright_jump_max], and stays in place with probability at least 2/3. *)
Theorem C118_left_right : forall K jump U u, (0 < K)%nat -> (0 <= jump)%Z -> (forall i j, 0 <= U i j) -> (forall i, (i < K)%nat -> exists j, (i <= j < K)%nat /\ (Z.of_nat j - Z.of_nat i <= jump)%Z /\ 0 < U i j) ->
  exists m, hmm_init (LeftRight jump) K U u = Some m /\ hm_K m = K /\ hm_pi m 0%nat = 1 /\ (forall k, (0 < k < K)%nat -> hm_pi m k = 0) /\
    (forall i, (i < K)%nat -> bsum K (hm_A m i) = 1 /\ 2 / 3 <= hm_A m i i) /\
    (forall i j, (i < K)%nat -> (j < K)%nat -> 0 <= hm_A m i j) /\
    (forall i j, (i < K)%nat -> (j < K)%nat -> ~ ((i <= j)%nat /\ (Z.of_nat j - Z.of_nat i <= jump)%Z) -> hm_A m i j = 0) /\
    forall i j, (i < j < K)%nat -> (Z.of_nat j - Z.of_nat i <= jump)%Z -> 0 < U i j -> 0 < hm_A m i j.
Proof.
  intros K jump U u K0 HJ HU HR. set (T := fun i j => if ((i <=? j)%nat && (Z.of_nat j - Z.of_nat i <=? jump)%Z)%bool then U i j else 0). set (A0 := fun i j => T i j + (if Nat.eqb i j then bsum K (T i) * 2 else 0)).
  assert (NT : forall i j, 0 <= T i j) by (intros i j; unfold T; destruct (_ && _)%bool; [apply HU|lra]).
  assert (SpT : forall i, (i < K)%nat -> 0 < bsum K (T i)). { intros i Hi. destruct (HR i Hi) as (j & Hj & Hd & Hu). pose proof (bsum_term K (T i) j ltac:(intros; apply NT) ltac:(lia)) as B. assert (T i j = U i j) by (unfold T; rewrite (proj2 (Nat.leb_le i j)), (proj2 (Z.leb_le _ _)) by lia; reflexivity). lra. }
  assert (SA : forall i, (i < K)%nat -> bsum K (A0 i) = 3 * bsum K (T i)). { intros i Hi. unfold A0. rewrite bsum_plus. rewrite (bsum_ext K (fun j => if Nat.eqb i j then bsum K (T i) * 2 else 0) (fun j => (if Nat.eqb j i then 1 else 0) * (bsum K (T i) * 2))) by (intros j _; rewrite Nat.eqb_sym; destruct (j =? i)%nat; ring). rewrite bsum_scal_r. replace (bsum K (fun j => if (j =? i)%nat then 1 else 0)) with 1; [ring|]. clear - Hi. revert i Hi. induction K as [|K IH]; intros i Hi; [lia|]. cbn [bsum]. destruct (Nat.eqb_spec K i) as [->|N]; [rewrite bsum_zero_ext; [ring|intros j Hj; destruct (Nat.eqb_spec j i); [lia|reflexivity]]|]. rewrite <- (IH i) by lia. ring. }
  destruct (normalized_rows_some K A0 ltac:(intros i Hi; rewrite SA by auto; pose proof (SpT i Hi); lra)) as (B & EB & SB).
  assert (S1 : bsum K (fun k => if Nat.eqb k 0 then 1 else 0) = 1). { clear - K0. destruct K as [|K]; [lia|]. induction K as [|K IH]; [cbn; ring|]. cbn [bsum]. cbn [bsum] in IH. rewrite IH by lia. cbn. ring. }
  destruct (normalized_some K (fun k => if Nat.eqb k 0 then 1 else 0) ltac:(rewrite S1; lra)) as (p & Ep & Sp). rewrite S1 in Sp.
  exists {| hm_K := K; hm_A := B; hm_pi := p |}. change (hmm_init (LeftRight jump) K U u) with (bind (normalized_rows K A0) (fun A => bind (normalized K (fun k => if Nat.eqb k 0 then 1 else 0)) (fun p => Some {| hm_K := K; hm_A := A; hm_pi := p |}))). rewrite EB. cbn [bind]. rewrite Ep. cbn [bind hm_K hm_A hm_pi]. split; [reflexivity|]. split; [reflexivity|]. split; [rewrite Sp by auto; cbn; field|]. split; [intros k Hk; rewrite Sp by lia; destruct (Nat.eqb_spec k 0); [lia|field]|]. split; [|split; [|split]].
  - intros i Hi. split; [apply (normalized_sum K (A0 i) (B i) K0); now apply normalized_rows_spec|]. rewrite SB, SA by auto. unfold A0. rewrite Nat.eqb_refl. pose proof (SpT i Hi). pose proof (NT i i). apply Rmult_le_reg_r with (3 * bsum K (T i)); [lra|]. unfold Rdiv. rewrite (Rmult_assoc (T i i + _)), Rinv_l by lra. lra.
  - intros i j Hi Hj. rewrite SB, SA by auto. pose proof (SpT i Hi). apply Rmult_le_pos; [|left; apply Rinv_0_lt_compat; lra]. unfold A0. pose proof (NT i j). destruct (i =? j)%nat; lra.
  - intros i j Hi Hj Hn. rewrite SB by auto. replace (A0 i j) with 0; [unfold Rdiv; ring|]. unfold A0, T. destruct (Nat.leb_spec i j), (Z.leb_spec (Z.of_nat j - Z.of_nat i) jump), (Nat.eqb_spec i j); cbn [andb]; try lia; try ring; exfalso; apply Hn; lia.
  - intros i j Hi Hd Hu. rewrite SB, SA by lia. pose proof (SpT i ltac:(lia)). apply Rdiv_lt_0_compat; [|lra]. unfold A0, T. rewrite (proj2 (Nat.leb_le i j)), (proj2 (Z.leb_le _ _)) by lia. cbn [andb]. destruct (Nat.eqb_spec i j); [lia|lra].
Qed.
(** Another model name leaves an undefined chain. *)
Theorem C118_other : forall K U u, (0 < K)%nat -> hmm_init Other K U u = None.
Proof.
  intros K U u HK. unfold hmm_init. destruct (normalized_rows K (fun _ _ => 0)) as [A|] eqn:E; [|reflexivity]. exfalso. destruct (normalized_spec _ _ _ (normalized_rows_spec _ _ _ E 0%nat HK) 0%nat HK) as [N _]. apply N. apply bsum_zero_ext. auto.
Qed.
(** Training keeps the number of states and never makes an impossible start or transition possible. *)
Theorem C118_zeros : forall fuel m e examples tol max_iter m' e' n, nonneg_hmm m -> em_K e = hm_K m -> fit fuel m e examples tol max_iter = Done m' e' n -> refines m m' /\ em_K e' = em_K e /\ em_O e' = em_O e.
Proof.
  intros fuel m e examples tol max_iter m' e' n NN HK E. unfold fit in E. destruct (renormalized m) as [m0|] eqn:R; [|discriminate]. pose proof (renormalized_refines _ _ R) as R0. destruct (renormalized_spec _ _ R) as (K & _). destruct (loop_spec fuel m0 e m0 e examples tol max_iter 0 None m' e' n ltac:(congruence) (renormalized_subprobs _ _ NN R) eq_refl eq_refl E) as (_ & _ & T & _). destruct (train_refines _ _ _ _ _ _ T) as (R1 & K1 & O1). split; [now apply (refines_trans _ m0)|auto].
Qed.
(** After an iteration the initial probabilities sum to one; row [i] sums to one, or is zero when
    state [i] is left less than 1e-15 times.  The next [fit] divides by zero exactly in that case. *)
Theorem C118_rows : forall m e examples m' e' ll, (0 < hm_K m)%nat -> em_K e = hm_K m -> subprobs (hm_K m) (hm_A m) (hm_pi m) -> fit_step m e examples = Some (m', e', ll) ->
  let left i := Rsum (map (fun X => visits (hm_K m) (hm_A m) (hm_pi m) (densities e X) i) examples) in
  hm_K m' = hm_K m /\ nonneg_hmm m' /\ bsum (hm_K m) (hm_pi m') = 1 /\
  (forall i, (i < hm_K m)%nat -> (tiny <= left i -> bsum (hm_K m) (hm_A m' i) = 1) /\ (left i < tiny -> forall j, (j < hm_K m)%nat -> hm_A m' i j = 0)) /\
  (renormalized m' = None <-> exists i, (i < hm_K m)%nat /\ left i < tiny).
Proof.
  intros m e examples m' e' ll K0 HK SP E left. destruct (step_subprobs _ _ _ _ _ _ HK SP E) as (SP' & S1 & S2). destruct (fit_step_refines _ _ _ _ _ _ E) as ((K & _) & _). pose proof (subprobs_nonneg _ SP') as NN. split; [exact K|]. split; [exact NN|]. split; [now apply S1|]. split.
  - intros i Hi. pose proof (S2 i Hi) as S3. cbv zeta in S3. fold (left i) in S3. split; intros H; destruct (Rlt_dec (left i) tiny); try lra. intros j Hj. destruct NN as [NA _]. rewrite K in NA. apply (nonneg_zero (hm_K m) (hm_A m' i)); auto.
  - rewrite (renormalized_some m') by lia. rewrite K. split.
    + intros [H|(i & Hi & H)]; [rewrite S1 in H by auto; lra|]. exists i. split; [exact Hi|]. pose proof (S2 i Hi) as S3. cbv zeta in S3. fold (left i) in S3. destruct (Rlt_dec (left i) tiny); [assumption|lra].
    + intros (i & Hi & H). right. exists i. split; [exact Hi|]. pose proof (S2 i Hi) as S3. cbv zeta in S3. fold (left i) in S3. destruct (Rlt_dec (left i) tiny); [exact S3|lra].
Qed.
(** A generated sample starts in a possible state and uses possible transitions only. *)
Lemma chosen_pos : forall K p k, chosen K p k = true -> (k < K)%nat /\ 0 < p k /\ bsum K p = 1.
Proof. intros K p k H. unfold chosen in H. repeat (apply andb_prop in H; destruct H as [H ?]). destruct (Req_EM_T _ 1); [|discriminate]. destruct (Rlt_dec 0 (p k)); [|discriminate]. split; [now apply Nat.ltb_lt|auto]. Qed.
Theorem C118_generate : forall m z, generates m z = true -> exists k, nth_error z 0 = Some k /\ 0 < hm_pi m k /\ (forall n k, nth_error z n = Some k -> (k < hm_K m)%nat) /\
  forall n i j, nth_error z n = Some i -> nth_error z (n + 1) = Some j -> 0 < hm_A m i j /\ bsum (hm_K m) (hm_A m i) = 1.
Proof.
  intros m z H. destruct z as [|k z]; [discriminate|]. cbn [generates] in H. apply andb_prop in H. destruct H as [H1 H2]. apply chosen_pos in H1. destruct H1 as (H0 & H1 & _). exists k. split; [reflexivity|]. split; [exact H1|].
  assert (G : forall z k, (k < hm_K m)%nat -> generate_from m k z = true -> (forall n q, nth_error (k :: z) n = Some q -> (q < hm_K m)%nat) /\ forall n i j, nth_error (k :: z) n = Some i -> nth_error (k :: z) (n + 1) = Some j -> 0 < hm_A m i j /\ bsum (hm_K m) (hm_A m i) = 1).
  { clear. induction z as [|j z IH]; intros k Hk H.
    - split; [intros [|n] q E; [cbn in E; congruence|destruct n; discriminate]|]. intros n i j _ E. rewrite Nat.add_1_r in E. cbn in E. destruct n; discriminate.
    - cbn [generate_from] in H. apply andb_prop in H. destruct H as [H1 H2]. apply chosen_pos in H1. destruct H1 as (Hj & Hp & Hs). destruct (IH j Hj H2) as [I1 I2]. split; [intros [|n] q E; [cbn in E; congruence|now apply (I1 n)]|]. intros [|n] i j' E1 E2; cbn [nth_error Nat.add] in E1, E2; [assert (i = k) by congruence; assert (j' = j) by congruence; subst; auto|now apply (I2 n)]. }
  apply G; auto.
Qed.
Print Assumptions C118_full.
Print Assumptions C118_left_right.
Print Assumptions C118_other.
Print Assumptions C118_zeros.
Print Assumptions C118_rows.
Print Assumptions C118_generate.

(** ** C119: training *)
(** The log-likelihood reported by an iteration is that of the current model; the updated model is at
    least as likely, when its variances are positive and no state is (almost) never left. *)
Theorem C119_step : forall m e examples m' e' ll, em_K e = hm_K m -> subprobs (hm_K m) (hm_A m) (hm_pi m) -> fit_step m e examples = Some (m', e', ll) ->
  total_ll m e examples = Some ll /\ (not_rare m e examples -> proper e' -> exists ll', total_ll m' e' examples = Some ll' /\ ll <= ll').
Proof. exact step_ll. Qed.
(** The same for the chain alone, with any emission model: new densities [pss'] that do not decrease
    the expected log-density never decrease the likelihood of the examples. *)
Theorem C119_chain : forall m m' pss pss' es, subprobs (hm_K m) (hm_A m) (hm_pi m) -> mapM (e_step m) pss = Some es -> update_chain m es = Some m' ->
  length pss' = length pss -> (forall t, (t < length pss)%nat -> length (nth t pss' []) = length (nth t pss [])) ->
  (forall t, (t < length pss)%nat -> nonneg_all (hm_K m) (nth t pss [])) -> (forall t, (t < length pss)%nat -> nonneg_all (hm_K m) (nth t pss' [])) ->
  (forall i, (i < hm_K m)%nat -> let v := bsum (hm_K m) (fun j => bsum (length es) (fun t => bsum (length (po_xi (nth t es no_post))) (fun n => nth n (po_xi (nth t es no_post)) (fun _ _ => 0) i j))) in v = 0 \/ tiny <= v) ->
  (forall t n k, (t < length pss)%nat -> (n < length (nth t pss []))%nat -> (k < hm_K m)%nat -> 0 < nth n (po_gamma (nth t es no_post)) (fun _ => 0) k -> 0 < nth n (nth t pss' []) (fun _ => 0) k) ->
  0 <= bsum (length pss) (fun t => bsum (length (nth t pss [])) (fun n => bsum (hm_K m) (fun k => nth n (po_gamma (nth t es no_post)) (fun _ => 0) k * (ln (nth n (nth t pss' []) (fun _ => 0) k) - ln (nth n (nth t pss []) (fun _ => 0) k))))) ->
  bsum (length pss) (fun t => ln (evidence (hm_K m) (hm_A m) (hm_pi m) (nth t pss []))) <= bsum (length pss) (fun t => ln (evidence (hm_K m) (hm_A m') (hm_pi m') (nth t pss' []))) /\
  forall t, (t < length pss)%nat -> 0 < evidence (hm_K m) (hm_A m') (hm_pi m') (nth t pss' []).
Proof. intros m m' pss pss' es SP ES UC LL Ll N0 N1 NT Gp GE. exact (total_gain m m' pss pss' es SP ES UC LL Ll N0 N1 NT Gp GE). Qed.
(** [fit]: the number of iterations returned, why it stopped, and the likelihood of the result. *)
Theorem C119_fit : forall fuel m e examples tol max_iter m' e' n, nonneg_hmm m -> em_K e = hm_K m -> fit fuel m e examples tol max_iter = Done m' e' n ->
  exists m0, renormalized m = Some m0 /\ (1 <= n)%nat /\ ((1 <= max_iter)%nat -> (n <= max_iter)%nat) /\ train n m0 e examples = Some (m', e') /\
    (n <> max_iter -> exists k ma ea mb eb a b, n = (k + 2)%nat /\ train k m0 e examples = Some (ma, ea) /\ train (k + 1) m0 e examples = Some (mb, eb) /\ total_ll ma ea examples = Some a /\ total_ll mb eb examples = Some b /\ b - a < tol) /\
    (proper e' -> (forall t mt et, (t < n)%nat -> train t m0 e examples = Some (mt, et) -> not_rare mt et examples) ->
       exists l0 l', total_ll m0 e examples = Some l0 /\ total_ll m' e' examples = Some l' /\ l0 <= l').
Proof.
  intros fuel m e examples tol max_iter m' e' n NN HK E. unfold fit in E. destruct (renormalized m) as [m0|] eqn:R; [|discriminate]. exists m0. destruct (renormalized_spec _ _ R) as (K & _). pose proof (renormalized_subprobs _ _ NN R) as SP. destruct (loop_spec fuel m0 e m0 e examples tol max_iter 0 None m' e' n ltac:(congruence) SP eq_refl eq_refl E) as (L1 & L2 & T & St). split; [reflexivity|]. split; [lia|]. split; [intros; apply L2; lia|]. split; [exact T|]. split.
  - intros Nm. destruct (St Nm) as (k & ma & ea & mb & eb & a & b & -> & H). exists k, ma, ea, mb, eb, a, b. rewrite Nat.add_1_r. split; [lia|exact H].
  - intros P NR. destruct n as [|n]; [lia|]. assert (T1 : exists m1 e1 l, fit_step m0 e examples = Some (m1, e1, l)).
    { clear - T. revert m' e' T. induction n as [|n IH]; intros m' e' T; destruct (train_inv _ _ _ _ _ _ T) as (mm & ee & l & T' & F); [cbn [train] in T'; apply some_inj in T'; apply pair_equal_spec in T'; destruct T' as [-> ->]; eauto|now apply (IH mm ee)]. }
    destruct T1 as (m1 & e1 & l0 & F). destruct (step_ll m0 e examples m1 e1 l0 ltac:(congruence) SP F) as [E0 _]. destruct (train_mono (S n) m0 e examples m' e' l0 ltac:(congruence) SP E0 T P NR) as (l' & E' & L). exists l0, l'. auto.
Qed.
(** It terminates. *)
Theorem C119_terminates : forall fuel m e examples tol max_iter, (1 <= max_iter)%nat -> (max_iter <= fuel)%nat -> fit fuel m e examples tol max_iter <> Running.
Proof. intros fuel m e examples tol max_iter H1 H2. unfold fit. destruct (renormalized m); [|discriminate]. apply loop_runs; lia. Qed.
Print Assumptions C119_step.
Print Assumptions C119_chain.
Print Assumptions C119_fit.
Print Assumptions C119_terminates.

(** ** Concrete models: two states, two examples of two frames *)
Definition two (A00 A01 A10 A11 a b : R) : hmm := {| hm_K := 2; hm_A := fun i j => match i, j with O, O => A00 | O, _ => A01 | _, O => A10 | _, _ => A11 end; hm_pi := fun k => match k with O => a | _ => b end |}.
Definition flat (sg : R) : circular := {| em_K := 2; em_O := 1; em_mu := fun _ _ => 0; em_sig := fun _ _ => sg |}.
Definition swing : list (list vec) := [[[-1]; [1]]; [[1]; [-1]]].
Lemma flat_pdf : forall sg, 0 < sg -> exists q, 0 < q /\ forall k, normal_pdf 1 (em_mu (flat sg) k) (em_sig (flat sg) k) [-1] = q /\ normal_pdf 1 (em_mu (flat sg) k) (em_sig (flat sg) k) [1] = q.
Proof.
  intros sg Hs. exists (normal_pdf 1 (em_mu (flat sg) 0) (em_sig (flat sg) 0) [1]). split; [apply normal_pdf_pos; intros; exact Hs|]. intros k. split; [|reflexivity]. unfold normal_pdf. cbn [seq map nth flat em_mu em_sig]. replace ((-1 - 0) ^ 2) with ((1 - 0) ^ 2) by ring. reflexivity.
Qed.
Definition is_two (m : hmm) (A00 A01 A10 A11 a b : R) : Prop := hm_K m = 2%nat /\ hm_A m 0%nat 0%nat = A00 /\ hm_A m 0%nat 1%nat = A01 /\ hm_A m 1%nat 0%nat = A10 /\ hm_A m 1%nat 1%nat = A11 /\ hm_pi m 0%nat = a /\ hm_pi m 1%nat = b.
Lemma flat_e_step : forall m A00 A01 A10 A11 a b q p0 p1, is_two m A00 A01 A10 A11 a b -> A00 + A01 = 1 -> A10 + A11 = 1 -> a + b = 1 -> 0 < q -> (forall k : nat, p0 k = q) -> (forall k : nat, p1 k = q) ->
  exists po g0 g1 x, e_step m [p0; p1] = Some po /\ po_gamma po = [g0; g1] /\ po_xi po = [x] /\ g0 0%nat = a /\ g0 1%nat = b /\ g1 0%nat = a * A00 + b * A10 /\ g1 1%nat = a * A01 + b * A11 /\
    x 0%nat 0%nat = a * A00 /\ x 0%nat 1%nat = a * A01 /\ x 1%nat 0%nat = b * A10 /\ x 1%nat 1%nat = b * A11.
Proof.
  intros m A00 A01 A10 A11 a b q p0 p1 (HK & E00 & E01 & E10 & E11 & Ea & Eb) H0 H1 Hp Hq P0 P1. destruct m as [K A pi]. cbn [hm_K hm_A hm_pi] in HK, E00, E01, E10, E11, Ea, Eb. subst K. unfold e_step. cbn [forward]. unfold scaled. cbn [hm_K hm_A hm_pi bsum]. rewrite Ea, Eb.
  assert (C0 : 0 + p0 0%nat * a + p0 1%nat * b = q) by (rewrite !P0; replace (0 + q * a + q * b) with (q * (a + b)) by ring; rewrite Hp; ring). rewrite C0. destruct (Req_EM_T q 0); [lra|]. cbn [bind fst snd forward_from]. unfold scaled. cbn [bsum].
  match goal with |- context [Req_EM_T ?c 0] => set (c1 := c) end. assert (C1 : c1 = q). { unfold c1. rewrite E00, E01, E10, E11, Ea, Eb, !P0, !P1. clear E00 E01 E10 E11 Ea Eb. assert (A01 = 1 - A00) by lra. assert (A11 = 1 - A10) by lra. assert (b = 1 - a) by lra. subst. field. lra. }
  clearbody c1. subst c1. destruct (Req_EM_T q 0); [lra|]. cbn [bind fst snd forward_from]. eexists. eexists. eexists. eexists. split; [reflexivity|]. cbn [po_gamma po_xi gammas map2 backward xis]. split; [reflexivity|]. split; [reflexivity|]. cbn [hd hm_K hm_A hm_pi bsum]. rewrite E00, E01, E10, E11, Ea, Eb, !P0, !P1. clear E00 E01 E10 E11 Ea Eb. assert (A01 = 1 - A00) by lra. assert (A11 = 1 - A10) by lra. assert (b = 1 - a) by lra. subst. repeat split; field; lra.
Qed.
Lemma swing_step : forall m A00 A01 A10 A11 a b sg, is_two m A00 A01 A10 A11 a b -> A00 + A01 = 1 -> A10 + A11 = 1 -> a + b = 1 -> 0 < sg -> a + (a * A00 + b * A10) <> 0 -> b + (a * A01 + b * A11) <> 0 ->
  exists m' e' ll, fit_step m (flat sg) swing = Some (m', e', ll) /\ hm_K m' = 2%nat /\ hm_pi m' 0%nat = a /\ hm_pi m' 1%nat = b /\
    (forall j, (j < 2)%nat -> hm_A m' 0%nat j = if Rlt_dec (2 * a) tiny then 0 else hm_A m 0%nat j) /\
    (forall j, (j < 2)%nat -> hm_A m' 1%nat j = if Rlt_dec (2 * b) tiny then 0 else hm_A m 1%nat j) /\
    em_K e' = 2%nat /\ em_O e' = 1%nat /\ forall k, (k < 2)%nat -> em_mu e' k 0%nat = 0 /\ em_sig e' k 0%nat = 1.
Proof.
  intros m A00 A01 A10 A11 a b sg HT H0 H1 Hp Hs Z0 Z1. destruct (flat_pdf sg Hs) as (q & Hq & Q). unfold fit_step. rewrite (prob_some (flat sg) swing); [|intros k d _ _; exact Hs|intros X x HX Hx; cbn in HX; repeat (destruct HX as [<-|HX]; [cbn in Hx; repeat (destruct Hx as [<-|Hx]; [reflexivity|]); contradiction|]); contradiction].
  cbn [bind swing map densities mapM]. change (em_O (flat sg)) with 1%nat.
  destruct (flat_e_step m A00 A01 A10 A11 a b q (fun k => normal_pdf 1 (em_mu (flat sg) k) (em_sig (flat sg) k) [-1]) (fun k => normal_pdf 1 (em_mu (flat sg) k) (em_sig (flat sg) k) [1]) HT H0 H1 Hp Hq (fun k => proj1 (Q k)) (fun k => proj2 (Q k))) as (po & g0 & g1 & x & E & Eg & Ex & G00 & G01 & G10 & G11 & X00 & X01 & X10 & X11).
  destruct (flat_e_step m A00 A01 A10 A11 a b q (fun k => normal_pdf 1 (em_mu (flat sg) k) (em_sig (flat sg) k) [1]) (fun k => normal_pdf 1 (em_mu (flat sg) k) (em_sig (flat sg) k) [-1]) HT H0 H1 Hp Hq (fun k => proj2 (Q k)) (fun k => proj1 (Q k))) as (po' & h0 & h1 & x' & E' & Eg' & Ex' & J00 & J01 & J10 & J11 & Y00 & Y01 & Y10 & Y11).
  rewrite E. cbn [bind]. rewrite E'. cbn [bind]. unfold update_chain, normalized, tabulate. cbn [length Nat.eqb map]. destruct HT as (HK & E00 & E01 & E10 & E11 & Ea & Eb). rewrite HK. cbn [seq mapM].
  rewrite Eg, Eg', Ex, Ex'. cbn [hd concat app map]. unfold Rsum. cbn [fold_right]. cbn [bsum]. rewrite G00, G01, J00, J01. replace (0 + (a + (a + 0)) + (b + (b + 0))) with 2 by lra. unfold rdiv. destruct (Req_EM_T 2 0); [lra|]. cbn [bind].
  unfold update_emission. cbn [swing length Nat.eqb concat app map fold_right map2]. change (em_K (flat sg)) with 2%nat. cbn [seq forallb]. unfold Rsum. cbn [fold_right]. rewrite G00, G01, G10, G11, J00, J01, J10, J11.
  destruct (Req_EM_T _ 0) as [Z|_]; [exfalso; apply Z0; lra|]. destruct (Req_EM_T _ 0) as [Z|_]; [exfalso; apply Z1; lra|]. cbn [andb bind].
  eexists. eexists. eexists. split; [reflexivity|]. cbn [hm_K hm_pi hm_A em_K em_O em_mu em_sig as_row nth]. split; [reflexivity|]. split; [field|]. split; [field|]. rewrite X00, X01, X10, X11, Y00, Y01, Y10, Y11. split; [|split; [|split; [reflexivity|split; [reflexivity|]]]].
  - intros j Hj. replace (0 + (a * A00 + (a * A00 + 0)) + (a * A01 + (a * A01 + 0))) with (2 * a) by (replace A01 with (1 - A00) by lra; ring). pose proof tiny_pos. destruct (Rlt_dec (2 * a) tiny); [reflexivity|]. destruct j as [|[|j]]; [rewrite X00, Y00|rewrite X01, Y01|lia]; rewrite ?E00, ?E01, ?E10, ?E11; field; lra.
  - intros j Hj. replace (0 + (b * A10 + (b * A10 + 0)) + (b * A11 + (b * A11 + 0))) with (2 * b) by (replace A11 with (1 - A10) by lra; ring). pose proof tiny_pos. destruct (Rlt_dec (2 * b) tiny); [reflexivity|]. destruct j as [|[|j]]; [rewrite X10, Y10|rewrite X11, Y11|lia]; rewrite ?E00, ?E01, ?E10, ?E11; field; lra.
  - intros [|[|k]] Hk; [| |lia].
    + rewrite G00, G10, J00, J10. set (w := a * A00 + b * A10) in *. split; [|match goal with |- context [(-1 - ?mm) ^ 2] => replace mm with 0 end]; field; lra.
    + rewrite G01, G11, J01, J11. set (w := a * A01 + b * A11) in *. split; [|match goal with |- context [(-1 - ?mm) ^ 2] => replace mm with 0 end]; field; lra.
Qed.

Lemma two_sub : forall A00 A01 A10 A11 a b, 0 <= A00 -> 0 <= A01 -> 0 <= A10 -> 0 <= A11 -> 0 <= a -> 0 <= b -> A00 + A01 = 1 -> A10 + A11 = 1 -> a + b = 1 -> subprobs (hm_K (two A00 A01 A10 A11 a b)) (hm_A (two A00 A01 A10 A11 a b)) (hm_pi (two A00 A01 A10 A11 a b)).
Proof.
  intros A00 A01 A10 A11 a b H1 H2 H3 H4 H5 H6 S1 S2 S3. cbn [two hm_K hm_A hm_pi]. split; [split; [intros [|k] _; assumption|cbn; lra]|]. intros [|[|i]] Hi; [split; [intros [|j] _; assumption|cbn; lra]|split; [intros [|j] _; assumption|cbn; lra]|lia].
Qed.
Lemma tiny_lt : tiny < / 10.
Proof. unfold tiny. apply Rinv_lt_contravar; lra. Qed.
Lemma flat_ev : forall sg, 0 < sg -> exists q, 0 < q /\ forall A00 A01 A10 A11 a b m e X, In X swing -> hm_K m = 2%nat -> hm_A m 0%nat 0%nat = A00 -> hm_A m 0%nat 1%nat = A01 -> hm_A m 1%nat 0%nat = A10 -> hm_A m 1%nat 1%nat = A11 -> hm_pi m 0%nat = a -> hm_pi m 1%nat = b ->
  em_O e = 1%nat -> (forall k, (k < 2)%nat -> em_mu e k 0%nat = 0 /\ em_sig e k 0%nat = sg) -> evidence (hm_K m) (hm_A m) (hm_pi m) (densities e X) = q * (a * (A00 + A01) + b * (A10 + A11)).
Proof.
  intros sg Hs. destruct (flat_pdf sg Hs) as (q & Hq & Q). exists (q * q). split; [now apply Rmult_lt_0_compat|]. intros A00 A01 A10 A11 a b m e X HX HK E00 E01 E10 E11 Ea Eb HO HE.
  assert (P : forall k x, (k < 2)%nat -> x = -1 \/ x = 1 -> normal_pdf (em_O e) (em_mu e k) (em_sig e k) [x] = q). { intros k x Hk Hx. destruct (HE k Hk) as [M S]. destruct (Q k) as [Q1 Q2]. destruct Hx as [-> | ->]; [rewrite <- Q1|rewrite <- Q2]; unfold normal_pdf; rewrite HO; cbn [seq map nth flat em_mu em_sig]; now rewrite M, S. }
  assert (V : forall x y, (x = -1 \/ x = 1) -> (y = -1 \/ y = 1) -> evidence (hm_K m) (hm_A m) (hm_pi m) (densities e [[x]; [y]]) = q * q * (a * (A00 + A01) + b * (A10 + A11))).
  { intros x y Hx Hy. rewrite HK. unfold evidence, densities. cbn [map length seqs seq flat_map app]. unfold Rsum. cbn [map fold_right joint chain]. rewrite (P 0%nat x), (P 1%nat x), (P 0%nat y), (P 1%nat y) by (auto; lia). rewrite E00, E01, E10, E11, Ea, Eb. ring. }
  cbn [swing In] in HX. destruct HX as [<-|[<-|[]]]; apply V; auto.
Qed.
