(** C151: emissions with full covariance matrices (recognition.py GaussianEmission). *)
From Coq Require Import List ZArith Lia Reals Lra Bool FunctionalExtensionality.
From Verif Require Import Base Vec Sum StftProofs DenoiseModel WienerProofs HmmModel HmmSpec BaseProofs HmmProofs HmmEm HmmFit HmmTrain GaussModel GaussSpec GaussProofs GaussTrain.
Import ListNotations.
Local Open Scope R_scope.

Lemma ip_quad : forall O P v, ip O v (mv O P v) = quad O P v.
Proof. intros. unfold ip, mv, quad. apply bsum_ext. intros r _. rewrite <- bsum_scal. apply bsum_ext. intros; ring. Qed.
(** The density is the textbook one, [exp(-(x-mu)^T P (x-mu)/2)] over the square root of the product of
    [2 pi] times the eigenvalues, with [P] the inverse of the covariance; any eigenvectors give the
    same number. *)
Theorem C151_density : forall O M su mu x, decomposes O M su -> definite O M ->
  0 < gauss_pdf O mu su x /\ (forall tv, decomposes O M tv -> gauss_pdf O mu tv x = gauss_pdf O mu su x) /\
  forall P, (forall r t, (r < O)%nat -> (t < O)%nat -> bsum O (fun q => M r q * P q t) = delta r t) ->
    gauss_pdf O mu su x = exp (- quad O P (fun r => nth r x 0 - mu r) / 2) / sqrt (Rprod (map (fun i => 2 * PI * fst su i) (seq 0 O))).
Proof.
  intros O M su mu x D PD. split; [apply pdf_pos|]. split; [intros tv D'; now apply (pdf_unique O M)|]. intros P HP. pose proof (proj1 (positive_definite _ _ _ D) PD) as P1. destruct (Rprod_ln O (fun i => 2 * PI * fst su i)) as [Q1 Q2]; [intros i Hi; apply two_pi_pos; auto|]. pose proof (sqrt_lt_R0 _ Q1) as Q3.
  apply ln_inv; [apply pdf_pos|apply Rdiv_lt_0_compat; [apply exp_pos|exact Q3]|]. unfold Rdiv at 1. rewrite ln_mult, ln_exp, ln_Rinv, ln_sqrt_half, Q2, pdf_ln by (auto using exp_pos, Rinv_0_lt_compat). fold (centre mu x). set (v := centre mu x).
  rewrite (maha_any O M su v (mv O P v) D) by ((intros i Hi; apply Rgt_not_eq, P1, Hi) || (intros r Hr; rewrite mv_mv; unfold mv; rewrite (bsum_ext O _ (fun j => delta r j * v j)) by (intros j Hj; now rewrite HP); now apply delta_sum)). rewrite ip_quad.
  rewrite (bsum_ext O (fun i => ln (2 * PI * fst su i)) (fun i => ln (2 * PI) + ln (fst su i))) by (intros i Hi; apply ln_mult; [pose proof PI_RGT_0; lra|auto]). rewrite bsum_plus, bsum_const. field.
Qed.
(** With a diagonal covariance it is the product of one-dimensional densities that
    CircularGaussianEmission uses. *)
Theorem C151_diagonal : forall O d su mu x, (forall i, (i < O)%nat -> 0 < d i) -> decomposes O (fun r q => if Nat.eqb r q then d r else 0) su -> gauss_pdf O mu su x = normal_pdf O mu d x.
Proof.
  intros O d su mu x P D. rewrite <- normal_diag by exact P. apply (pdf_unique O (fun r q => if Nat.eqb r q then d r else 0)); [exact D|apply diag_dec|]. apply (positive_definite O _ (d, delta) (diag_dec O d)). exact P.
Qed.
(** Densities are computed exactly when all covariances are positive definite and the frames have the
    right number of components. *)
Theorem C151_prob : forall eigh e examples, solved eigh e -> forall pss, prob_gaussian eigh e examples = Some pss <->
  proper_gaussian e /\ (forall X, In X examples -> shaped_gaussian e X) /\ pss = map (map (fun x k => gauss_pdf (ga_O e) (ga_mu e k) (eigh (ga_O e) (ga_S e k)) x)) examples.
Proof. intros eigh e examples SO pss. exact (prob_full eigh e examples SO pss). Qed.
(** The update gives, for every state, the mean and covariance that maximise the weighted log-density of
    the frames among all means and positive definite covariances. *)
Theorem C151_update : forall e examples gamma e', update_gaussian e examples gamma = Some e' -> length (concat examples) = length (concat gamma) -> (forall r k, In r (concat gamma) -> (k < ga_K e)%nat -> 0 <= r k) ->
  let score k mu su := Rsum (map2 (fun x r => r k * ln (gauss_pdf (ga_O e) mu su x)) (concat examples) (concat gamma)) in
  ga_K e' = ga_K e /\ ga_O e' = ga_O e /\ forall k, (k < ga_K e)%nat -> symmetric (ga_O e) (ga_S e' k) /\ (forall v, 0 <= quad (ga_O e) (ga_S e' k) v) /\
    forall su', decomposes (ga_O e) (ga_S e' k) su' -> definite (ga_O e) (ga_S e' k) -> forall mu M su, decomposes (ga_O e) M su -> definite (ga_O e) M -> score k mu su <= score k (ga_mu e' k) su'.
Proof.
  intros e examples gamma e' U L G score. destruct (update_shape _ _ _ _ U) as (K & O1 & _). split; [exact K|]. split; [exact O1|]. intros k Hk. destruct (update_sums _ _ _ _ U L k Hk) as (Zn & Em & Es). cbv zeta in *. set (N := length (concat examples)) in *. set (x := fun n => nth n (concat examples) []) in *. set (w := fun n => nth n (concat gamma) (fun _ => 0) k).
  assert (W : forall n, (n < N)%nat -> 0 <= w n) by (intros n Hn; apply (G (nth n (concat gamma) (fun _ => 0)) k); [apply nth_In; rewrite <- L; exact Hn|exact Hk]). assert (Zp : 0 < bsum N w) by (pose proof (bsum_nonneg N w W); unfold w in *; lra).
  split; [|split].
  - intros a b _ _. rewrite !Es. apply bsum_ext. intros n _. unfold Rdiv. ring.
  - intros v. unfold quad. set (c := fun n => bsum (ga_O e) (fun r => centre (ga_mu e' k) (x n) r * v r)). assert (E : bsum (ga_O e) (fun r => bsum (ga_O e) (fun q => v r * ga_S e' k r q * v q)) = bsum N (fun n => w n / bsum N w * c n ^ 2)).
    { rewrite (bsum_ext (ga_O e) _ (fun r => bsum (ga_O e) (fun q => bsum N (fun n => w n / bsum N w * (centre (ga_mu e' k) (x n) r * v r * (centre (ga_mu e' k) (x n) q * v q)))))).
      2: { intros r _. apply bsum_ext. intros q _. rewrite Es. replace (v r * _ * v q) with ((v r * v q) * bsum N (fun n => (nth r (nth n (concat examples) []) 0 - ga_mu e' k r) * nth n (concat gamma) (fun _ => 0) k * ((nth q (nth n (concat examples) []) 0 - ga_mu e' k q) / bsum N (fun n => nth n (concat gamma) (fun _ => 0) k)))) by ring. rewrite <- bsum_scal. apply bsum_ext. intros n _. unfold centre, w, x, Rdiv. ring. }
      rewrite (bsum_ext (ga_O e) _ (fun r => bsum N (fun n => bsum (ga_O e) (fun q => w n / bsum N w * (centre (ga_mu e' k) (x n) r * v r * (centre (ga_mu e' k) (x n) q * v q)))))) by (intros; apply bsum_swap). rewrite bsum_swap. apply bsum_ext. intros n _. rewrite <- Rsqr_pow2. unfold Rsqr, c. rewrite bsum_mul, <- bsum_scal. apply bsum_ext. intros r _. now rewrite <- bsum_scal. }
    rewrite E. apply bsum_nonneg. intros n Hn. apply Rmult_le_pos; [|apply pow2_ge_0]. apply Rmult_le_pos; [auto|left; now apply Rinv_0_lt_compat].
  - intros su' D' P' mu M su D P. unfold score. rewrite !(map2_bsum _ [] (fun _ => 0) (concat examples) (concat gamma) L). fold N. apply (gauss_gain N (ga_O e) x w mu su M su' (ga_mu e' k) (ga_S e' k)); auto; [apply (proj1 (positive_definite _ _ _ D) P)|apply (proj1 (positive_definite _ _ _ D') P')].
Qed.
(** The new covariance is positive definite unless all frames with weight lie in a hyperplane. *)
Theorem C151_span : forall e examples gamma e' k, update_gaussian e examples gamma = Some e' -> length (concat examples) = length (concat gamma) -> (forall r k, In r (concat gamma) -> (k < ga_K e)%nat -> 0 <= r k) -> (k < ga_K e)%nat ->
  (definite (ga_O e) (ga_S e' k) <-> forall v, (exists r, (r < ga_O e)%nat /\ v r <> 0) -> exists n, (n < length (concat examples))%nat /\ 0 < nth n (concat gamma) (fun _ => 0) k /\ bsum (ga_O e) (fun r => (nth r (nth n (concat examples) []) 0 - ga_mu e' k r) * v r) <> 0).
Proof.
  intros e examples gamma e' k U L G Hk. destruct (update_sums _ _ _ _ U L k Hk) as (Zn & Em & Es). cbv zeta in *. set (N := length (concat examples)) in *. set (x := fun n => nth n (concat examples) []) in *. set (w := fun n => nth n (concat gamma) (fun _ => 0) k).
  assert (W : forall n, (n < N)%nat -> 0 <= w n) by (intros n Hn; apply (G (nth n (concat gamma) (fun _ => 0)) k); [apply nth_In; rewrite <- L; exact Hn|exact Hk]). assert (Zp : 0 < bsum N w) by (pose proof (bsum_nonneg N w W); unfold w in *; lra).
  assert (E : forall v, quad (ga_O e) (ga_S e' k) v = bsum N (fun n => w n / bsum N w * (bsum (ga_O e) (fun r => (nth r (x n) 0 - ga_mu e' k r) * v r)) ^ 2)).
  { intros v. unfold quad. rewrite (bsum_ext (ga_O e) _ (fun r => bsum (ga_O e) (fun q => bsum N (fun n => w n / bsum N w * ((nth r (x n) 0 - ga_mu e' k r) * v r * ((nth q (x n) 0 - ga_mu e' k q) * v q)))))).
    2: { intros r _. apply bsum_ext. intros q _. rewrite Es. replace (v r * _ * v q) with ((v r * v q) * bsum N (fun n => (nth r (nth n (concat examples) []) 0 - ga_mu e' k r) * nth n (concat gamma) (fun _ => 0) k * ((nth q (nth n (concat examples) []) 0 - ga_mu e' k q) / bsum N (fun n => nth n (concat gamma) (fun _ => 0) k)))) by ring. rewrite <- bsum_scal. apply bsum_ext. intros n _. unfold w, x, Rdiv. ring. }
    rewrite (bsum_ext (ga_O e) _ (fun r => bsum N (fun n => bsum (ga_O e) (fun q => w n / bsum N w * ((nth r (x n) 0 - ga_mu e' k r) * v r * ((nth q (x n) 0 - ga_mu e' k q) * v q)))))) by (intros; apply bsum_swap). rewrite bsum_swap. apply bsum_ext. intros n _. rewrite <- Rsqr_pow2. unfold Rsqr. rewrite bsum_mul, <- bsum_scal. apply bsum_ext. intros r _. now rewrite <- bsum_scal. }
  assert (T : forall v n, (n < N)%nat -> 0 <= w n / bsum N w * (bsum (ga_O e) (fun r => (nth r (x n) 0 - ga_mu e' k r) * v r)) ^ 2) by (intros v n Hn; apply Rmult_le_pos; [|apply pow2_ge_0]; apply Rmult_le_pos; [auto|left; now apply Rinv_0_lt_compat]).
  split.
  - intros P v Hv. specialize (P v Hv). rewrite E in P. apply Classical_Prop.NNPP. intros No. rewrite bsum_zero_ext in P; [lra|]. intros n Hn. destruct (Req_dec (w n) 0) as [->|Nw]; [unfold Rdiv; ring|]. destruct (Req_dec (bsum (ga_O e) (fun r => (nth r (x n) 0 - ga_mu e' k r) * v r)) 0) as [->|Nb]; [ring|]. exfalso. apply No. exists n. split; [exact Hn|]. split; [specialize (W n Hn); unfold w in *; lra|exact Nb].
  - intros H v Hv. destruct (H v Hv) as (n & Hn & Hw & Nb). rewrite E. destruct (Req_dec (bsum N (fun n => w n / bsum N w * (bsum (ga_O e) (fun r => (nth r (x n) 0 - ga_mu e' k r) * v r)) ^ 2)) 0) as [Z|]; [|pose proof (bsum_nonneg N _ (T v)); lra]. exfalso. pose proof (nonneg_zero N _ (T v) Z n Hn) as Q. cbv beta in Q. apply Rmult_integral in Q. destruct Q as [Q|Q].
    + assert (0 < w n / bsum N w) by (apply Rdiv_lt_0_compat; [exact Hw|exact Zp]). lra.
    + apply Nb. fold (x n). nra.
Qed.
(** Each training iteration reports the log-likelihood of the current model; the updated model is at
    least as likely, when its covariances are positive definite and no state is (almost) never left. *)
Theorem C151_step : forall eigh m e examples m' e' ll, ga_K e = hm_K m -> subprobs (hm_K m) (hm_A m) (hm_pi m) -> solved eigh e -> fit_step_gaussian eigh m e examples = Some (m', e', ll) ->
  total_ll_gaussian eigh m e examples = Some ll /\ (not_rare_gaussian eigh m e examples -> proper_gaussian e' -> solved eigh e' -> exists ll', total_ll_gaussian eigh m' e' examples = Some ll' /\ ll <= ll').
Proof. exact step_full. Qed.
(** So does any number of iterations. *)
Theorem C151_train : forall eigh n m e examples m' e', (1 <= n)%nat -> ga_K e = hm_K m -> subprobs (hm_K m) (hm_A m) (hm_pi m) ->
  (forall t mt et, (t <= n)%nat -> train_gaussian eigh t m e examples = Some (mt, et) -> solved eigh et /\ ((t < n)%nat -> not_rare_gaussian eigh mt et examples)) ->
  train_gaussian eigh n m e examples = Some (m', e') -> proper_gaussian e' ->
  exists l0 l', total_ll_gaussian eigh m e examples = Some l0 /\ total_ll_gaussian eigh m' e' examples = Some l' /\ l0 <= l'.
Proof.
  intros eigh n m e examples m' e' Hn HK SP H T P'.
  assert (G : forall n m' e', (forall t mt et, (t <= n)%nat -> train_gaussian eigh t m e examples = Some (mt, et) -> solved eigh et /\ ((t < n)%nat -> not_rare_gaussian eigh mt et examples)) -> train_gaussian eigh n m e examples = Some (m', e') ->
    ga_K e' = hm_K m' /\ subprobs (hm_K m') (hm_A m') (hm_pi m') /\ ((1 <= n)%nat -> proper_gaussian e' -> exists l0 l', total_ll_gaussian eigh m e examples = Some l0 /\ total_ll_gaussian eigh m' e' examples = Some l' /\ l0 <= l')); [|now apply (G n m' e' H T)].
  clear n m' e' Hn H T P'. induction n as [|n IH]; intros m' e' H T.
  - cbn [train_gaussian] in T. apply some_inj, pair_equal_spec in T. destruct T as [<- <-]. split; [exact HK|]. split; [exact SP|lia].
  - cbn [train_gaussian] in T. destruct (train_gaussian eigh n m e examples) as [[m1 e1]|] eqn:T1; [|discriminate]. cbn [bind fst snd] in T. destruct (fit_step_gaussian eigh m1 e1 examples) as [[[m2 e2] ll]|] eqn:F; [|discriminate]. cbn [bind fst] in T. apply some_inj, pair_equal_spec in T. destruct T as [-> ->].
    assert (H1 : forall t mt et, (t <= n)%nat -> train_gaussian eigh t m e examples = Some (mt, et) -> solved eigh et /\ ((t < n)%nat -> not_rare_gaussian eigh mt et examples)). { intros t mt et Ht E. destruct (H t mt et ltac:(lia) E) as [A B]. split; [exact A|]. intros. apply B. lia. }
    destruct (IH m1 e1 H1 eq_refl) as (K1 & SP1 & L1). destruct (H n m1 e1 ltac:(lia) T1) as [SO1 NR1]. destruct (step_chain eigh m1 e1 examples m' e' ll SO1 SP1 F) as (K2 & SP2 & K3 & _). split; [congruence|]. split; [exact SP2|]. intros _ P'. destruct (step_full eigh m1 e1 examples m' e' ll K1 SP1 SO1 F) as [E1 E2].
    assert (SO' : solved eigh e'). { apply (H (S n) m' e' ltac:(lia)). cbn [train_gaussian]. rewrite T1. cbn [bind fst snd]. rewrite F. reflexivity. }
    destruct (E2 (NR1 ltac:(lia)) P' SO') as (l' & El & Hl). destruct n as [|n].
    + cbn [train_gaussian] in T1. apply some_inj, pair_equal_spec in T1. destruct T1 as [-> ->]. exists ll, l'. auto.
    + destruct (step_inv eigh _ _ _ _ _ _ SO1 F) as (_ & PE & _). destruct (L1 ltac:(lia) PE) as (l0 & l1 & A & B & C). exists l0, l'. split; [exact A|]. split; [exact El|]. rewrite E1 in B. apply some_inj in B. lra.
Qed.
(** Initialisation: random covariances are always positive definite; initialised from examples it
    accepts the same frames, with the same densities, as CircularGaussianEmission. *)
Theorem C151_initial : (forall K odim mu W, proper_gaussian (gaussian_random K odim mu W)) /\
  forall eigh K examples e, (0 < K)%nat -> gaussian_of K examples = Some e -> solved eigh e -> exists c, emission_of K examples = Some c /\ forall data, prob_gaussian eigh e data = prob_x_given_state c data.
Proof.
  split.
  - intros K O mu W k Hk v (r & Hr & Nv). cbn [gaussian_random ga_K ga_O ga_S] in *. assert (E : quad O (fun r q => bsum O (fun i => W k i r * W k i q) + (if Nat.eqb r q then 1 else 0)) v = bsum O (fun i => (bsum O (fun r => W k i r * v r)) ^ 2) + bsum O (fun r => v r ^ 2)).
    { unfold quad. rewrite (bsum_ext O _ (fun r => bsum O (fun q => bsum O (fun i => (W k i r * v r) * (W k i q * v q))) + v r ^ 2)).
      - rewrite bsum_plus. f_equal. rewrite (bsum_ext O _ (fun r => bsum O (fun i => bsum O (fun q => (W k i r * v r) * (W k i q * v q))))) by (intros; apply bsum_swap). rewrite bsum_swap. apply bsum_ext. intros i _. rewrite <- Rsqr_pow2. unfold Rsqr. rewrite bsum_mul. reflexivity.
      - intros a Ha. rewrite (bsum_ext O _ (fun q => bsum O (fun i => W k i a * v a * (W k i q * v q)) + delta a q * (v a * v q))). { rewrite bsum_plus, (delta_sum O a (fun q => v a * v q)) by auto. ring. }
        intros q _. rewrite (bsum_ext O (fun i => W k i a * v a * (W k i q * v q)) (fun i => (v a * v q) * (W k i a * W k i q))) by (intros; ring). rewrite bsum_scal. unfold delta. ring. }
    rewrite E. assert (0 <= bsum O (fun i => (bsum O (fun r => W k i r * v r)) ^ 2)) by (apply bsum_nonneg; intros; apply pow2_ge_0). pose proof (bsum_term O (fun r => v r ^ 2) r ltac:(intros; apply pow2_ge_0) Hr) as B. cbv beta in B. assert (0 < v r ^ 2) by nra. lra.
  - intros eigh K examples e HK E SO. unfold gaussian_of in E. unfold emission_of. destruct examples as [|[|x0 X0] Xs]; try discriminate. apply some_inj in E. eexists. split; [reflexivity|]. intros data. set (X := concat ((x0 :: X0) :: Xs)) in *. set (mu := fun d => Rsum (map (fun x => nth d x 0) X) / INR (length X)) in *. set (sg := fun d => Rsum (map (fun x => (nth d x 0 - mu d) ^ 2) X) / INR (length X)).
    assert (D : decomposes (length x0) (fun r q => if Nat.eqb r q then sg r else 0) (eigh (length x0) (fun r q => if Nat.eqb r q then sg r else 0))) by (subst e; exact (SO 0%nat HK)).
    assert (P : definite (length x0) (fun r q => if Nat.eqb r q then sg r else 0) <-> forall d, (d < length x0)%nat -> 0 < sg d) by exact (positive_definite _ _ _ (diag_dec (length x0) sg)). set (M := fun r q => if Nat.eqb r q then sg r else 0) in *.
    destruct (Classical_Prop.classic (forall d, (d < length x0)%nat -> 0 < sg d)) as [Pd|Nd].
    + subst e. change (prob_gaussian eigh {| ga_K := K; ga_O := length x0; ga_mu := fun _ => mu; ga_S := fun _ => M |} data = prob_x_given_state {| em_K := K; em_O := length x0; em_mu := fun _ => mu; em_sig := fun _ => sg |} data).
      unfold prob_gaussian, prob_x_given_state. cbn [ga_K ga_O ga_mu ga_S em_K em_O em_mu em_sig].
      assert (Pe : forall i, (i < length x0)%nat -> 0 < fst (eigh (length x0) M) i) by (apply (proj1 (positive_definite _ _ _ D)); apply P; exact Pd).
      replace (forallb (fun _ : nat => forallb (fun i => if Rlt_dec 0 (fst (eigh (length x0) M) i) then true else false) (seq 0 (length x0))) (seq 0 K)) with true. 2: { symmetry. apply forallb_forall. intros _ _. apply forallb_forall. intros i Hi. apply in_seq in Hi. destruct (Rlt_dec 0 _) as [|N]; [reflexivity|]. exfalso. apply N, Pe. lia. }
      replace (forallb (fun _ : nat => forallb (fun d => if Rlt_dec 0 (sg d) then true else false) (seq 0 (length x0))) (seq 0 K)) with true. 2: { symmetry. apply forallb_forall. intros _ _. apply forallb_forall. intros i Hi. apply in_seq in Hi. destruct (Rlt_dec 0 _) as [|N]; [reflexivity|]. exfalso. apply N, Pd. lia. }
      destruct (forallb _ data); [|reflexivity]. f_equal. apply map_ext. intros Y. apply map_ext. intros y. extensionality k. apply (C151_diagonal (length x0) sg); [exact Pd|exact D].
    + transitivity (@None (list (list (nat -> R)))).
      * destruct (prob_gaussian eigh e data) as [pss|] eqn:Q; [|reflexivity]. exfalso. apply (prob_full eigh e data SO) in Q. destruct Q as [Q _]. apply Nd, P. subst e. exact (Q 0%nat HK).
      * match goal with |- None = prob_x_given_state ?c ?d => destruct (prob_x_given_state c d) as [pss|] eqn:Q end; [|reflexivity]. exfalso. apply prob_spec in Q. destruct Q as [Q _]. apply Nd. intros d Hd. exact (Q 0%nat d HK Hd).
Qed.
Print Assumptions C151_density.
Print Assumptions C151_diagonal.
Print Assumptions C151_prob.
Print Assumptions C151_update.
Print Assumptions C151_span.
Print Assumptions C151_step.
Print Assumptions C151_train.
Print Assumptions C151_initial.

(** ** Concrete cases: one state *)
Definition lone : hmm := {| hm_K := 1; hm_A := fun _ _ => 1; hm_pi := fun _ => 1 |}.
Lemma seqs_lone : forall n, seqs 1 n = [repeat 0%nat n].
Proof. induction n as [|n IH]; [reflexivity|]. cbn [seqs seq flat_map]. rewrite IH. reflexivity. Qed.
Lemma joint_lone : forall ps, ps <> [] -> (forall n, (n < length ps)%nat -> 0 < nth n ps (fun _ => 0) 0%nat) -> 0 < joint (fun _ _ => 1) (fun _ => 1) ps (repeat 0%nat (length ps)).
Proof.
  assert (C : forall ps, (forall n, (n < length ps)%nat -> 0 < nth n ps (fun _ => 0) 0%nat) -> 0 < chain (fun _ _ => 1) 0 ps (repeat 0%nat (length ps))). { induction ps as [|p ps IH]; intros H; cbn [length repeat chain]; [lra|]. specialize (IH ltac:(intros n Hn; apply (H (S n)); cbn; lia)). pose proof (H 0%nat ltac:(cbn; lia)) as H0. cbn [nth] in H0. rewrite Rmult_1_l. now apply Rmult_lt_0_compat. }
  intros ps Ne H. destruct ps as [|p ps]; [congruence|]. cbn [length repeat joint]. specialize (C ps ltac:(intros n Hn; apply (H (S n)); cbn; lia)). pose proof (H 0%nat ltac:(cbn; lia)) as H0. cbn [nth] in H0. rewrite Rmult_1_l. now apply Rmult_lt_0_compat.
Qed.
Lemma evidence_lone : forall ps, evidence 1 (fun _ _ => 1) (fun _ => 1) ps = joint (fun _ _ => 1) (fun _ => 1) ps (repeat 0%nat (length ps)).
Proof. intros. unfold evidence. rewrite seqs_lone. cbn [map]. unfold Rsum. cbn [fold_right]. ring. Qed.
Lemma evidence_and_lone : forall ps ev, ev (repeat 0%nat (length ps)) = true -> evidence_and 1 (fun _ _ => 1) (fun _ => 1) ps ev = joint (fun _ _ => 1) (fun _ => 1) ps (repeat 0%nat (length ps)).
Proof. intros ps ev H. unfold evidence_and. rewrite seqs_lone. cbn [filter]. rewrite H. cbn [map]. unfold Rsum. cbn [fold_right]. ring. Qed.
Lemma at_lone : forall n N, (n < N)%nat -> at_time n 0 (repeat 0%nat N) = true.
Proof. intros n N H. unfold at_time. rewrite nth_error_repeat by auto. reflexivity. Qed.
Lemma step_lone : forall eigh e X, solved eigh e -> proper_gaussian e -> ga_K e = 1%nat -> shaped_gaussian e X -> X <> [] -> exists m' e' ll, fit_step_gaussian eigh lone e [X] = Some (m', e', ll) /\ hm_K m' = 1%nat /\ ga_K e' = 1%nat /\ ga_O e' = ga_O e /\
  (forall d, ga_mu e' 0%nat d = bsum (length X) (fun n => nth d (nth n X []) 0) / INR (length X)) /\
  (forall a b, ga_S e' 0%nat a b = bsum (length X) (fun n => (nth a (nth n X []) 0 - ga_mu e' 0%nat a) * (nth b (nth n X []) 0 - ga_mu e' 0%nat b)) / INR (length X)) /\ not_rare_gaussian eigh lone e [X].
Proof.
  intros eigh e X SO P K Sh Ne. set (ps := densities_gaussian eigh e X). assert (Lp : length ps = length X) by (apply dens_length). assert (Lx : (0 < length X)%nat) by (destruct X; [congruence|cbn; lia]).
  assert (Pos : 0 < evidence 1 (fun _ _ => 1) (fun _ => 1) ps). { rewrite evidence_lone. apply joint_lone; [intros Z; rewrite Z in Lp; cbn in Lp; lia|]. intros n Hn. unfold ps. rewrite dens_nth by lia. apply pdf_pos. }
  assert (NNl : nonneg_hmm lone) by (split; intros; cbn; lra).
  destruct (forward_some lone ps NNl (dens_nonneg eigh e X _)) as [ac F]; [intros Z; rewrite Z in Lp; cbn in Lp; lia|cbn [lone hm_K hm_A hm_pi]; lra|].
  destruct (e_step lone ps) as [po|] eqn:ES; [|unfold e_step in ES; rewrite F in ES; discriminate]. destruct (e_step_spec _ _ _ ES) as (_ & _ & LG & LX & G & XI & _). cbn [lone hm_K hm_A hm_pi] in G, XI.
  assert (G1 : forall n, (n < length X)%nat -> nth n (po_gamma po) (fun _ => 0) 0%nat = 1). { intros n Hn. rewrite G by lia. rewrite evidence_and_lone by (apply at_lone; lia). rewrite evidence_lone in *. field. lra. }
  assert (MP : mapM (e_step lone) (map (densities_gaussian eigh e) [X]) = Some [po]) by (cbn [map mapM]; fold ps; rewrite ES; reflexivity).
  assert (LN : forall i, (i < 1)%nat -> Rsum (map (fun X => visits 1 (fun _ _ => 1) (fun _ => 1) (densities_gaussian eigh e X) i) [X]) = INR (length X - 1)). { intros i Hi. replace i with 0%nat by lia. unfold Rsum. cbn [map fold_right]. fold ps. unfold visits. rewrite (bsum_ext _ _ (fun _ => 1)). { rewrite bsum_const, Lp. ring. } intros n Hn. rewrite evidence_and_lone by (apply at_lone; lia). rewrite evidence_lone in *. field. lra. }
  assert (NR : not_rare_gaussian eigh lone e [X]). { intros i Hi. cbv zeta. cbn [lone hm_K hm_A hm_pi] in *. rewrite LN by exact Hi. destruct (length X - 1)%nat as [|q] eqn:Q; [now left|]. right. rewrite S_INR. pose proof (pos_INR q). unfold tiny. assert (/ 10 ^ 15 <= 1); [|lra]. rewrite <- Rinv_1. apply Rinv_le_contravar; lra. }
  assert (UC : exists m', update_chain lone [po] = Some m' /\ hm_K m' = 1%nat). { unfold update_chain. cbn [length Nat.eqb lone hm_K map]. unfold normalized, tabulate. cbn [seq mapM]. unfold rdiv. destruct (po_gamma po) as [|g0 gs] eqn:EG; [cbn in LG; lia|]. cbn [bsum hd]. unfold Rsum. cbn [fold_right]. pose proof (G1 0%nat Lx) as G0. cbn [nth] in G0. rewrite G0. destruct (Req_EM_T _ 0) as [Z|]; [lra|]. cbn [bind]. eexists. split; reflexivity. }
  destruct UC as (m' & UC & Km). assert (EN : length (concat [X]) = length (concat (map po_gamma [po]))) by (cbn [map concat]; rewrite !app_nil_r; lia).
  assert (EZ : bsum (length X) (fun n => nth n (po_gamma po) (fun _ => 0) 0%nat) = INR (length X)). { rewrite (bsum_ext _ _ (fun _ => 1)) by (intros; now apply G1). rewrite bsum_const. ring. } assert (Np : 0 < INR (length X)) by (apply lt_0_INR; exact Lx).
  destruct (update_gaussian e [X] (map po_gamma [po])) as [e'|] eqn:UE.
  2: { exfalso. unfold update_gaussian in UE. cbn [length Nat.eqb map concat] in UE. rewrite !app_nil_r in UE. rewrite K in UE. cbn [seq forallb] in UE. rewrite (Rsum_nth _ _ (fun _ => 0)) in UE. replace (length (po_gamma po)) with (length X) in UE by lia. rewrite EZ in UE. destruct (Req_EM_T (INR (length X)) 0); [lra|discriminate]. }
  pose proof (update_sums _ _ _ _ UE EN 0%nat ltac:(lia)) as U. cbv zeta in U. cbn [map concat] in U. rewrite !app_nil_r in U. rewrite EZ in U. destruct U as (_ & Um & Us). destruct (update_shape _ _ _ _ UE) as (K' & O' & _).
  exists m', e', (Rsum (map po_ll [po])). split; [|split; [exact Km|split; [congruence|split; [exact O'|split; [|split; [|exact NR]]]]]].
  - unfold fit_step_gaussian. rewrite (proj2 (prob_full eigh e [X] SO (map (densities_gaussian eigh e) [X]))) by (split; [exact P|split; [intros Y [<-|[]]; exact Sh|reflexivity]]). cbn [bind]. rewrite MP. cbn [bind]. rewrite UC. cbn [bind]. rewrite UE. reflexivity.
  - intros d. rewrite Um. f_equal. apply bsum_ext. intros n Hn. rewrite G1 by auto. ring.
  - intros a b. rewrite Us. unfold Rdiv at 2. rewrite <- bsum_scal_r. apply bsum_ext. intros n Hn. rewrite G1 by auto. unfold Rdiv. ring.
Qed.
Definition eye (c : R) : gaussian := {| ga_K := 1; ga_O := 2; ga_mu := fun _ _ => 0; ga_S := fun _ r q => if Nat.eqb r q then c else 0 |}.
Definition diag_eigh (O : nat) (M : nat -> nat -> R) : (nat -> R) * (nat -> nat -> R) := (fun i => M i i, delta).
Lemma diag_solved : forall e, (forall k, (k < ga_K e)%nat -> forall r q, (r < ga_O e)%nat -> (q < ga_O e)%nat -> r <> q -> ga_S e k r q = 0) -> solved diag_eigh e.
Proof.
  intros e H k Hk. destruct (diag_dec (ga_O e) (fun i => ga_S e k i i)) as [D1 D2]. split; [exact D1|]. intros r q Hr Hq. cbn [diag_eigh fst snd] in *. rewrite <- (D2 r q Hr Hq). destruct (Nat.eqb_spec r q) as [->|N]; [reflexivity|]. now apply H.
Qed.
Lemma eye_solved : forall c, solved diag_eigh (eye c).
Proof. intros c. apply diag_solved. intros k _ r q _ _ N. cbn. destruct (Nat.eqb_spec r q); [contradiction|reflexivity]. Qed.
Lemma eye_definite : forall c, 0 < c -> proper_gaussian (eye c).
Proof. intros c Hc k Hk. cbn [eye ga_O ga_S]. apply (positive_definite 2 _ ((fun _ => c), delta) (diag_dec 2 (fun _ => c))). intros; exact Hc. Qed.
(** After an update on too few frames the covariance is singular and the next iteration raises: two
    frames of two components. *)
Theorem C151_singular_refuted : exists m e examples, subprobs (hm_K m) (hm_A m) (hm_pi m) /\ proper_gaussian e /\ forall eigh, solved eigh e -> exists m' e' ll, fit_step_gaussian eigh m e examples = Some (m', e', ll) /\ (solved eigh e' -> fit_step_gaussian eigh m' e' examples = None).
Proof.
  exists lone, (eye 1), [[[0; 0]; [1; 1]]]. split; [|split; [apply eye_definite; lra|]].
  - cbn [lone hm_K hm_A hm_pi]. split; [|intros i _]; (split; [intros; lra|cbn [bsum]; lra]).
  - intros eigh SO. destruct (step_lone eigh (eye 1) [[0; 0]; [1; 1]] SO (eye_definite 1 ltac:(lra)) eq_refl) as (m' & e' & ll & F & _ & K & O' & Em & Es & _); [intros x [<-|[<-|[]]]; reflexivity|discriminate|]. exists m', e', ll. split; [exact F|]. intros SO'. unfold fit_step_gaussian. destruct (prob_gaussian eigh e' _) as [pss|] eqn:Q; [|reflexivity]. exfalso. apply (prob_full eigh e' _ SO') in Q. destruct Q as [Q _]. specialize (Q 0%nat ltac:(lia) (fun r => match r with O => 1 | _ => -1 end) ltac:(exists 0%nat; rewrite O'; cbn; split; [lia|lra])).
    rewrite O' in Q. unfold quad in Q. cbn [eye ga_O bsum] in Q. rewrite !Es, !Em in Q. cbn [length bsum nth] in Q. change (INR 2) with 2 in Q. lra.
Qed.
Print Assumptions C151_singular_refuted.

(** Four frames around the origin: one iteration from the identity covariance halves it and gains
    likelihood. *)
Definition cross : list vec := [[1; 0]; [-1; 0]; [0; 1]; [0; -1]].
Example C151_step_case : exists m' e' ll, fit_step_gaussian diag_eigh lone (eye 1) [cross] = Some (m', e', ll) /\ ga_S e' 0%nat 0%nat 0%nat = 1 / 2 /\ ga_S e' 0%nat 0%nat 1%nat = 0 /\ solved diag_eigh e' /\ proper_gaussian e' /\ not_rare_gaussian diag_eigh lone (eye 1) [cross] /\ exists ll', total_ll_gaussian diag_eigh m' e' [cross] = Some ll' /\ ll <= ll'.
Proof.
  destruct (step_lone diag_eigh (eye 1) cross (eye_solved 1) (eye_definite 1 ltac:(lra)) eq_refl) as (m' & e' & ll & F & Km & K & O' & Em & Es & NR); [intros x [<-|[<-|[<-|[<-|[]]]]]; reflexivity|discriminate|].
  assert (I4 : INR 4 = 4) by (cbn; lra). assert (M0 : forall d, ga_mu e' 0%nat d = 0). { intros d. rewrite Em. unfold cross. cbn [length bsum nth]. rewrite I4. destruct d as [|[|d]]; cbn [nth]; try (destruct d); try field. all: cbn [nth]; field. }
  assert (S00 : ga_S e' 0%nat 0%nat 0%nat = 1 / 2) by (rewrite Es, !M0; unfold cross; cbn [length bsum nth]; rewrite I4; field). assert (S01 : ga_S e' 0%nat 0%nat 1%nat = 0) by (rewrite Es, !M0; unfold cross; cbn [length bsum nth]; rewrite I4; field).
  assert (S10 : ga_S e' 0%nat 1%nat 0%nat = 0) by (rewrite Es, !M0; unfold cross; cbn [length bsum nth]; rewrite I4; field). assert (S11 : ga_S e' 0%nat 1%nat 1%nat = 1 / 2) by (rewrite Es, !M0; unfold cross; cbn [length bsum nth]; rewrite I4; field).
  assert (SO' : solved diag_eigh e'). { apply diag_solved. intros k Hk r q Hr Hq N. rewrite O' in Hr, Hq. cbn [eye ga_O] in Hr, Hq. replace k with 0%nat by lia. destruct r as [|[|r]], q as [|[|q]]; try lia; assumption. }
  assert (P' : proper_gaussian e'). { intros k Hk. apply (positive_definite _ _ _ (SO' k Hk)). intros i Hi. rewrite O' in Hi. cbn [eye ga_O] in Hi. replace k with 0%nat by lia. cbn [diag_eigh fst]. destruct i as [|[|i]]; try lia; [rewrite S00|rewrite S11]; lra. }
  exists m', e', ll. split; [exact F|]. split; [exact S00|]. split; [exact S01|]. split; [exact SO'|]. split; [exact P'|]. split; [exact NR|].
  refine (proj2 (C151_step diag_eigh lone (eye 1) [cross] m' e' ll eq_refl _ (eye_solved 1) F) NR P' SO'). cbn [lone hm_K hm_A hm_pi]. split; [|intros i _]; (split; [intros; lra|cbn [bsum]; lra]).
Qed.
(** A covariance that is not diagonal: eigenvalues 3 and 1, with the inverse. *)
Definition tilted : nat -> nat -> R := fun r q => if Nat.eqb r q then 2 else 1.
Definition half : R := / sqrt 2.
Lemma half_sq : half * half = / 2.
Proof. unfold half. rewrite <- Rinv_mult. now rewrite sqrt_sqrt by lra. Qed.
Definition tilted_uv : (nat -> R) * (nat -> nat -> R) := (fun i => match i with O => 3 | _ => 1 end, fun r i => match r, i with O, O => half | O, _ => half | _, O => half | _, _ => - half end).
Example C151_density_case : decomposes 2 tilted tilted_uv /\ definite 2 tilted /\ gauss_pdf 2 (fun _ => 0) tilted_uv [1; 1] = exp (- (1 / 3)) / sqrt (Rprod [2 * PI * 3; 2 * PI * 1]).
Proof.
  assert (D : decomposes 2 tilted tilted_uv). { pose proof half_sq as H. split; [split|]; intros r q Hr Hq; (destruct r as [|[|r]]; [| |lia]); (destruct q as [|[|q]]; [| |lia]); unfold tilted, tilted_uv, delta; cbn [fst snd bsum Nat.eqb]; lra. }
  assert (P : definite 2 tilted) by (apply (positive_definite _ _ _ D); intros i Hi; destruct i as [|[|i]]; cbn; try lra; lia). split; [exact D|]. split; [exact P|].
  destruct (C151_density 2 tilted tilted_uv (fun _ => 0) [1; 1] D P) as (_ & _ & H). rewrite (H (fun r q => if Nat.eqb r q then 2 / 3 else - (1 / 3))). { cbn [map seq tilted_uv fst]. f_equal. f_equal. unfold quad. cbn [bsum nth Nat.eqb]. field. }
  intros r t Hr Ht. destruct r as [|[|r]]; [| |lia]; destruct t as [|[|t]]; try lia; unfold tilted, delta; cbn [bsum Nat.eqb]; field.
Qed.
