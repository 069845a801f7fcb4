(** Proofs about emissions with full covariance matrices. *)
From Coq Require Import List ZArith Lia Reals Lra Bool.
From Verif Require Import Base Vec Sum StftProofs DenoiseModel WienerProofs HmmModel HmmSpec BaseProofs HmmProofs HmmEm HmmFit HmmTrain GaussModel GaussSpec.
Import ListNotations.
Local Open Scope R_scope.

Definition proj (O : nat) (u : nat -> nat -> R) (v : nat -> R) (i : nat) : R := bsum O (fun r => v r * u r i).
Lemma delta_sum : forall n k (f : nat -> R), (k < n)%nat -> bsum n (fun i => delta k i * f i) = f k.
Proof. intros n k f Hk. rewrite (bsum_delta n k); [unfold delta; rewrite Nat.eqb_refl; ring|exact Hk|]. intros i _ Ni. unfold delta. destruct (Nat.eqb_spec k i); [congruence|ring]. Qed.
Lemma delta_sym : forall i j, delta i j = delta j i.
Proof. intros. unfold delta. now rewrite Nat.eqb_sym. Qed.
Lemma proj_sq : forall O u v i, (proj O u v i) ^ 2 = bsum O (fun r => bsum O (fun q => v r * v q * (u r i * u q i))).
Proof. intros. unfold proj. replace (bsum O (fun r => v r * u r i) ^ 2) with (bsum O (fun r => v r * u r i) * bsum O (fun r => v r * u r i)) by ring. rewrite bsum_mul. apply bsum_ext. intros r _. apply bsum_ext. intros q _. ring. Qed.
Lemma quad_dec : forall O M su v, decomposes O M su -> quad O M v = bsum O (fun i => fst su i * (proj O (snd su) v i) ^ 2).
Proof.
  intros O M [s u] v [_ D]. cbn [fst snd] in *. unfold quad. rewrite (bsum_ext O (fun i => s i * proj O u v i ^ 2) (fun i => bsum O (fun r => bsum O (fun q => s i * (v r * v q * (u r i * u q i)))))).
  2: { intros i _. rewrite proj_sq, <- bsum_scal. apply bsum_ext. intros r _. now rewrite bsum_scal. }
  symmetry. rewrite bsum_swap. apply bsum_ext. intros r Hr. rewrite bsum_swap. apply bsum_ext. intros q Hq. rewrite D by auto. symmetry. replace (v r * bsum O (fun i => s i * (u r i * u q i)) * v q) with ((v r * v q) * bsum O (fun i => s i * (u r i * u q i))) by ring. rewrite <- bsum_scal. apply bsum_ext. intros; ring.
Qed.
Lemma parseval : forall O u v, orthogonal O u -> bsum O (fun i => (proj O u v i) ^ 2) = bsum O (fun r => v r ^ 2).
Proof.
  intros O u v [_ H]. rewrite (bsum_ext O _ (fun i => bsum O (fun r => bsum O (fun q => v r * v q * (u r i * u q i))))) by (intros; apply proj_sq). rewrite bsum_swap. apply bsum_ext. intros r Hr. rewrite bsum_swap. rewrite (bsum_ext O _ (fun q => delta r q * (v r * v q))). { rewrite delta_sum by auto. ring. }
  intros q Hq. rewrite bsum_scal, H by auto. ring.
Qed.
Lemma column_unit : forall O u i, orthogonal O u -> (i < O)%nat -> bsum O (fun r => u r i ^ 2) = 1.
Proof. intros O u i [H _] Hi. rewrite (bsum_ext O _ (fun r => u r i * u r i)) by (intros; ring). rewrite H by auto. unfold delta. now rewrite Nat.eqb_refl. Qed.
Lemma quad_column : forall O M su i, decomposes O M su -> (i < O)%nat -> quad O M (fun r => snd su r i) = fst su i.
Proof.
  intros O M su i D Hi. rewrite (quad_dec _ _ _ _ D). destruct D as [[H _] _]. rewrite (bsum_ext O _ (fun j => delta i j * (fst su j * delta i j))). { rewrite delta_sum by auto. unfold delta. rewrite Nat.eqb_refl. ring. }
  intros j Hj. unfold proj. rewrite H by auto. unfold delta. destruct (Nat.eqb i j); ring.
Qed.
Lemma positive_definite : forall O M su, decomposes O M su -> (definite O M <-> forall i, (i < O)%nat -> 0 < fst su i).
Proof.
  intros O M su D. split.
  - intros P i Hi. rewrite <- (quad_column _ _ _ _ D Hi). apply P. apply Classical_Prop.NNPP. intros N. pose proof (column_unit O (snd su) i (proj1 D) Hi) as U. rewrite bsum_zero_ext in U; [lra|]. intros r Hr. destruct (Req_dec (snd su r i) 0) as [->|Ne]; [ring|]. exfalso. apply N. now exists r.
  - intros P v (r & Hr & Nv). rewrite (quad_dec _ _ _ _ D). assert (T : forall i, (i < O)%nat -> 0 <= fst su i * proj O (snd su) v i ^ 2) by (intros i Hi; apply Rmult_le_pos; [left; auto|apply pow2_ge_0]). destruct (Req_dec (bsum O (fun i => fst su i * proj O (snd su) v i ^ 2)) 0) as [E|Ne]; [|pose proof (bsum_nonneg O _ T); lra]. exfalso.
    pose proof (parseval O (snd su) v (proj1 D)) as Q. rewrite bsum_zero_ext in Q. { symmetry in Q. apply Nv. pose proof (nonneg_zero O (fun r => v r ^ 2) ltac:(intros; apply pow2_ge_0) Q r Hr) as Z. cbv beta in Z. nra. }
    intros i Hi. pose proof (nonneg_zero O _ T E i Hi) as Z. cbv beta in Z. specialize (P i Hi). apply Rmult_integral in Z. destruct Z; [lra|assumption].
Qed.
(** Gibbs' inequality for the eigenvalues of two matrices. *)
Lemma log_bound : forall O M su M' su', decomposes O M su -> decomposes O M' su' -> (forall i, (i < O)%nat -> 0 < fst su i) -> (forall i, (i < O)%nat -> 0 < fst su' i) ->
  bsum O (fun j => ln (fst su' j)) + INR O <= bsum O (fun i => ln (fst su i)) + bsum O (fun i => quad O M' (fun r => snd su r i) / fst su i).
Proof.
  intros O M [s u] M' [s' u'] D D' P P'. cbn [fst snd] in *. set (p := fun i j => proj O u' (fun r => u r i) j ^ 2).
  assert (R1 : forall i, (i < O)%nat -> bsum O (p i) = 1) by (intros i Hi; unfold p; rewrite parseval by exact (proj1 D'); apply (column_unit O u i (proj1 D) Hi)).
  assert (R2 : forall j, (j < O)%nat -> bsum O (fun i => p i j) = 1). { intros j Hj. unfold p. rewrite (bsum_ext O _ (fun i => proj O u (fun r => u' r j) i ^ 2)); [rewrite parseval by exact (proj1 D); apply (column_unit O u' j (proj1 D') Hj)|]. intros i _. unfold proj. f_equal. apply bsum_ext. intros; ring. }
  assert (Q : forall i, (i < O)%nat -> quad O M' (fun r => u r i) / s i = bsum O (fun j => p i j * (s' j / s i))). { intros i Hi. rewrite (quad_dec _ _ _ _ D'). cbn [fst snd]. unfold Rdiv. rewrite <- bsum_scal_r. apply bsum_ext. intros j _. unfold p. ring. }
  assert (I : bsum O (fun i => bsum O (fun j => p i j * (ln (s' j) - ln (s i) + 1))) <= bsum O (fun i => bsum O (fun j => p i j * (s' j / s i)))).
  { apply bsum_le. intros i Hi. apply bsum_le. intros j Hj. apply Rmult_le_compat_l; [unfold p; apply pow2_ge_0|]. pose proof (P i Hi) as Pi. pose proof (P' j Hj) as Pj. pose proof (ln_le_sub1 (s' j / s i) (Rdiv_lt_0_compat _ _ Pj Pi)) as L. unfold Rdiv in L at 1. rewrite ln_mult, ln_Rinv in L by (auto; now apply Rinv_0_lt_compat). lra. }
  rewrite (bsum_ext O (fun i => quad O M' (fun r => u r i) / s i) _ Q). assert (E : bsum O (fun i => bsum O (fun j => p i j * (ln (s' j) - ln (s i) + 1))) = bsum O (fun j => ln (s' j)) - bsum O (fun i => ln (s i)) + INR O); [|lra].
  transitivity (bsum O (fun i => bsum O (fun j => p i j * ln (s' j)) + (1 - ln (s i)))).
  { apply bsum_ext. intros i Hi. rewrite (bsum_ext O _ (fun j => p i j * ln (s' j) + (1 - ln (s i)) * p i j)) by (intros; ring). rewrite bsum_plus, bsum_scal, R1 by auto. ring. }
  rewrite bsum_plus, bsum_minus, bsum_const, bsum_swap. rewrite (bsum_ext O (fun j => bsum O (fun i => p i j * ln (s' j))) (fun j => ln (s' j))); [ring|]. intros j Hj. rewrite bsum_scal_r, R2 by auto. ring.
Qed.
Definition centre (mu : nat -> R) (x : vec) : nat -> R := fun r => nth r x 0 - mu r.
Lemma pdf_ln : forall O mu su x, (forall i, (i < O)%nat -> 0 < fst su i) ->
  ln (gauss_pdf O mu su x) = - (1 / 2) * (INR O * ln (2 * PI) + bsum O (fun i => ln (fst su i)) + bsum O (fun i => proj O (snd su) (centre mu x) i ^ 2 / fst su i)).
Proof.
  intros O mu su x P. unfold gauss_pdf. rewrite ln_exp. f_equal. f_equal. apply bsum_ext. intros i Hi. specialize (P i Hi). unfold proj, centre. rewrite (bsum_ext O _ (fun r => ((nth r x 0 - mu r) * snd su r i) * sqrt (/ fst su i))) by (intros; ring). rewrite bsum_scal_r, Rpow_mult_distr. unfold Rdiv. f_equal. apply pow2_sqrt. left. now apply Rinv_0_lt_compat.
Qed.
Lemma pdf_pos : forall O mu su x, 0 < gauss_pdf O mu su x.
Proof. intros. unfold gauss_pdf. apply exp_pos. Qed.

(** ** The density does not depend on the eigenvectors *)
Definition solve (O : nat) (su : (nat -> R) * (nat -> nat -> R)) (v : nat -> R) (q : nat) : R := bsum O (fun i => proj O (snd su) v i / fst su i * snd su q i).
Lemma rebuild : forall O u v r, orthogonal O u -> (r < O)%nat -> bsum O (fun i => u r i * proj O u v i) = v r.
Proof.
  intros O u v r [_ H] Hr. unfold proj. rewrite (bsum_ext O _ (fun i => bsum O (fun q => v q * (u r i * u q i)))) by (intros; rewrite <- bsum_scal; apply bsum_ext; intros; ring). rewrite bsum_swap. rewrite (bsum_ext O _ (fun q => delta r q * v q)); [now apply delta_sum|]. intros q Hq. rewrite bsum_scal, H by auto. ring.
Qed.
Lemma solve_ok : forall O M su v r, decomposes O M su -> (forall i, (i < O)%nat -> fst su i <> 0) -> (r < O)%nat -> mv O M (solve O su v) r = v r.
Proof.
  intros O M [s u] v r [Or D] N Hr. cbn [fst snd] in *. unfold mv, solve. cbn [fst snd].
  rewrite (bsum_ext O _ (fun q => bsum O (fun i => bsum O (fun j => (s i * u r i * (proj O u v j / s j)) * (u q i * u q j))))).
  2: { intros q Hq. rewrite D, bsum_mul by auto. apply bsum_ext. intros i _. apply bsum_ext. intros; ring. }
  rewrite bsum_swap. transitivity (bsum O (fun i => u r i * proj O u v i)); [|now apply rebuild]. apply bsum_ext. intros i Hi. rewrite bsum_swap. rewrite (bsum_ext O _ (fun j => delta i j * (s i * u r i * (proj O u v j / s j)))). { rewrite delta_sum by auto. field. now apply N. }
  intros j Hj. rewrite bsum_scal. destruct Or as [Oc _]. rewrite Oc by auto. ring.
Qed.
Lemma maha_ip : forall O su v, bsum O (fun i => proj O (snd su) v i ^ 2 / fst su i) = ip O v (solve O su v).
Proof.
  intros O [s u] v. cbn [fst snd]. unfold ip, solve. cbn [fst snd]. rewrite (bsum_ext O (fun i => v i * bsum O (fun i0 => proj O u v i0 / s i0 * u i i0)) (fun q => bsum O (fun i => (proj O u v i / s i) * (v q * u q i)))). 2: { intros q _. rewrite <- bsum_scal. apply bsum_ext. intros; ring. }
  rewrite bsum_swap. apply bsum_ext. intros i _. rewrite bsum_scal. fold (proj O u v i). unfold Rdiv. ring.
Qed.
Lemma decomposes_sym : forall O M su, decomposes O M su -> symmetric O M.
Proof. intros O M su [_ D] r q Hr Hq. rewrite !D by auto. apply bsum_ext. intros; ring. Qed.
Lemma maha_any : forall O M su v w, decomposes O M su -> (forall i, (i < O)%nat -> fst su i <> 0) -> (forall r, (r < O)%nat -> mv O M w r = v r) -> bsum O (fun i => proj O (snd su) v i ^ 2 / fst su i) = ip O v w.
Proof.
  intros O M su v w D N W. rewrite maha_ip. rewrite <- (ip_ext O (mv O M w) (solve O su v) v (solve O su v) W) by reflexivity. rewrite <- ip_mv_sym by (intros i j Hi Hj; apply (decomposes_sym O M su D); auto). rewrite ip_comm. apply ip_ext; [|reflexivity]. intros r Hr. now apply solve_ok.
Qed.
Lemma logdet_any : forall O M su tv, decomposes O M su -> decomposes O M tv -> (forall i, (i < O)%nat -> 0 < fst su i) -> (forall i, (i < O)%nat -> 0 < fst tv i) -> bsum O (fun i => ln (fst su i)) = bsum O (fun i => ln (fst tv i)).
Proof.
  assert (H : forall O M su tv, decomposes O M su -> decomposes O M tv -> (forall i, (i < O)%nat -> 0 < fst su i) -> (forall i, (i < O)%nat -> 0 < fst tv i) -> bsum O (fun i => ln (fst tv i)) <= bsum O (fun i => ln (fst su i))).
  { intros O M su tv D D' P P'. pose proof (log_bound O M su M tv D D' P P') as L. rewrite (bsum_ext O (fun i => quad O M (fun r => snd su r i) / fst su i) (fun _ => 1)) in L. { rewrite bsum_const in L. lra. } intros i Hi. rewrite (quad_column _ _ _ _ D Hi). field. apply Rgt_not_eq, P, Hi. }
  intros O M su tv D D' P P'. apply Rle_antisym; eapply H; eauto.
Qed.
Lemma pdf_unique : forall O M su tv mu x, decomposes O M su -> decomposes O M tv -> definite O M -> gauss_pdf O mu su x = gauss_pdf O mu tv x.
Proof.
  intros O M su tv mu x D D' P. pose proof (proj1 (positive_definite _ _ _ D) P) as P1. pose proof (proj1 (positive_definite _ _ _ D') P) as P2. apply ln_inv; try apply pdf_pos. rewrite !pdf_ln by auto. rewrite (logdet_any O M su tv) by auto. do 2 f_equal. rewrite (maha_ip O tv). apply (maha_any O M); auto; [intros i Hi; apply Rgt_not_eq, P1, Hi|]. intros r Hr. apply solve_ok; auto. intros i Hi. apply Rgt_not_eq, P2, Hi.
Qed.
Lemma Rprod_ln : forall n f, (forall i, (i < n)%nat -> 0 < f i) -> 0 < Rprod (map f (seq 0 n)) /\ ln (Rprod (map f (seq 0 n))) = bsum n (fun i => ln (f i)).
Proof.
  intros n f P. rewrite bsum_Rsum. assert (G : forall l, (forall i, In i l -> 0 < f i) -> 0 < Rprod (map f l) /\ ln (Rprod (map f l)) = Rsum (map (fun i => ln (f i)) l)). { induction l as [|a l IH]; intros H; [split; [cbn; lra|cbn; apply ln_1]|]. destruct (IH ltac:(intros; apply H; now right)) as [I1 I2]. specialize (H a (or_introl eq_refl)). unfold Rprod, Rsum in *. cbn [map fold_right]. split; [now apply Rmult_lt_0_compat|]. now rewrite ln_mult, I2 by auto. } apply G. intros i Hi. apply P. apply in_seq in Hi. lia.
Qed.
Lemma diag_dec : forall O d, decomposes O (fun r q => if Nat.eqb r q then d r else 0) (d, delta).
Proof.
  intros O d. split; cbn [fst snd].
  - split; intros i j Hi Hj; transitivity (bsum O (fun r => delta i r * delta r j)); try exact (delta_sum O i (fun r => delta r j) Hi); apply bsum_ext; intros r _; [now rewrite (delta_sym i r)|now rewrite (delta_sym j r)].
  - intros r q Hr Hq. rewrite (bsum_ext O _ (fun i => delta r i * (d i * delta q i))) by (intros; ring). rewrite delta_sum by auto. unfold delta. rewrite (Nat.eqb_sym q). destruct (Nat.eqb r q); ring.
Qed.
Lemma normal_diag : forall O mu d x, (forall i, (i < O)%nat -> 0 < d i) -> gauss_pdf O mu (d, delta) x = normal_pdf O mu d x.
Proof.
  intros O mu d x P. destruct (normal_pdf_pos O mu d x P) as [N1 N2]. apply ln_inv; [apply pdf_pos|exact N1|]. rewrite N2, pdf_ln by exact P. cbn [fst snd]. rewrite <- bsum_const, <- !bsum_plus, <- bsum_scal. apply bsum_ext. intros i Hi. specialize (P i Hi). unfold lnN, proj. rewrite (bsum_ext O _ (fun r => delta i r * centre mu x r)) by (intros; rewrite (delta_sym i); ring). rewrite delta_sum by auto. unfold centre. rewrite (ln_mult (2 * PI) (d i)) by (auto; pose proof PI_RGT_0; lra). field. lra.
Qed.

(** ** The update *)
Lemma gauss_gain : forall N O (x : nat -> vec) (g : nat -> R) mu su M su' mu' M', (forall n, (n < N)%nat -> 0 <= g n) -> let Z := bsum N g in Z <> 0 ->
  (forall d, (d < O)%nat -> mu' d = bsum N (fun n => nth d (x n) 0 * g n) / Z) -> (forall a b, (a < O)%nat -> (b < O)%nat -> M' a b = bsum N (fun n => ((nth a (x n) 0 - mu' a) * g n) * ((nth b (x n) 0 - mu' b) / Z))) ->
  decomposes O M su -> decomposes O M' su' -> (forall i, (i < O)%nat -> 0 < fst su i) -> (forall i, (i < O)%nat -> 0 < fst su' i) ->
  bsum N (fun n => g n * ln (gauss_pdf O mu su (x n))) <= bsum N (fun n => g n * ln (gauss_pdf O mu' su' (x n))).
Proof.
  intros N O x g mu su M su' mu' M' Hg Z Hz Em EM D D' P P'. assert (Zp : 0 < Z) by (pose proof (bsum_nonneg N g Hg) as HZ; fold Z in HZ; lra).
  assert (Q : forall v, bsum N (fun n => g n * (bsum O (fun r => centre mu' (x n) r * v r)) ^ 2) = Z * quad O M' v).
  { intros v. unfold quad. rewrite <- bsum_scal. rewrite (bsum_ext O (fun r => Z * _) (fun r => bsum O (fun q => bsum N (fun n => g n * (centre mu' (x n) r * v r * (centre mu' (x n) q * v q)))))).
    2: { intros r Hr. rewrite <- bsum_scal. apply bsum_ext. intros q Hq. rewrite EM by auto. replace (Z * (v r * bsum N (fun n => (nth r (x n) 0 - mu' r) * g n * ((nth q (x n) 0 - mu' q) / Z)) * v q)) with ((Z * v r * v q) * bsum N (fun n => (nth r (x n) 0 - mu' r) * g n * ((nth q (x n) 0 - mu' q) / Z))) by ring. rewrite <- bsum_scal. apply bsum_ext. intros n _. unfold centre. field. lra. }
    rewrite (bsum_ext N _ (fun n => bsum O (fun r => bsum O (fun q => g n * (centre mu' (x n) r * v r * (centre mu' (x n) q * v q)))))). { rewrite bsum_swap. apply bsum_ext. intros r _. apply bsum_swap. }
    intros n _. rewrite <- Rsqr_pow2. unfold Rsqr. rewrite bsum_mul, <- bsum_scal. apply bsum_ext. intros r _. now rewrite <- bsum_scal. }
  assert (C0 : forall v, bsum N (fun n => g n * bsum O (fun r => centre mu' (x n) r * v r)) = 0).
  { intros v. rewrite (bsum_ext N _ (fun n => bsum O (fun r => v r * (nth r (x n) 0 * g n - mu' r * g n)))) by (intros; rewrite <- bsum_scal; apply bsum_ext; intros; unfold centre; ring). rewrite bsum_swap. apply bsum_zero_ext. intros r Hr. rewrite bsum_scal, bsum_minus, bsum_scal. fold Z. rewrite Em by auto. field. lra. }
  assert (T : forall m sv, (forall i, (i < O)%nat -> 0 < fst sv i) -> bsum N (fun n => g n * ln (gauss_pdf O m sv (x n))) = - (1 / 2) * (Z * (INR O * ln (2 * PI) + bsum O (fun i => ln (fst sv i))) + bsum O (fun i => bsum N (fun n => g n * proj O (snd sv) (centre m (x n)) i ^ 2) / fst sv i))).
  { intros m sv Ps. rewrite (bsum_ext N _ (fun n => - (1 / 2) * (g n * (INR O * ln (2 * PI) + bsum O (fun i => ln (fst sv i))) + bsum O (fun i => g n * proj O (snd sv) (centre m (x n)) i ^ 2 * / fst sv i)))).
    2: { intros n _. rewrite pdf_ln by auto. rewrite (bsum_ext O (fun i => g n * _ * _) (fun i => g n * (proj O (snd sv) (centre m (x n)) i ^ 2 / fst sv i))) by (intros; unfold Rdiv; ring). rewrite bsum_scal. ring. }
    rewrite bsum_scal, bsum_plus, bsum_scal_r, bsum_swap. fold Z. do 2 f_equal. apply bsum_ext. intros i _. apply bsum_scal_r. }
  rewrite !T by auto. clear T.
  assert (E' : bsum O (fun i => bsum N (fun n => g n * proj O (snd su') (centre mu' (x n)) i ^ 2) / fst su' i) = Z * INR O).
  { rewrite (bsum_ext O _ (fun _ => Z)) by (intros i Hi; unfold proj; rewrite (Q (fun r => snd su' r i)), (quad_column _ _ _ _ D' Hi); field; apply Rgt_not_eq, P', Hi). rewrite bsum_const. ring. }
  assert (E : Z * bsum O (fun i => quad O M' (fun r => snd su r i) / fst su i) <= bsum O (fun i => bsum N (fun n => g n * proj O (snd su) (centre mu (x n)) i ^ 2) / fst su i)).
  { rewrite <- bsum_scal. apply bsum_le. intros i Hi. specialize (P i Hi). unfold Rdiv. rewrite <- Rmult_assoc. apply Rmult_le_compat_r; [left; now apply Rinv_0_lt_compat|]. rewrite <- (Q (fun r => snd su r i)).
    set (w := bsum O (fun r => (mu' r - mu r) * snd su r i)). set (c := fun n => bsum O (fun r => centre mu' (x n) r * snd su r i)). rewrite (bsum_ext N (fun n => g n * proj O _ _ i ^ 2) (fun n => g n * c n ^ 2 + (2 * w * (g n * c n) + w ^ 2 * g n))).
    - rewrite !bsum_plus, !bsum_scal. fold Z. assert (Hc : bsum N (fun n => g n * c n) = 0) by exact (C0 (fun r => snd su r i)). rewrite Hc. pose proof (pow2_ge_0 w) as W. pose proof (Rmult_le_pos _ _ W (Rlt_le _ _ Zp)). change (bsum N (fun n => g n * bsum O (fun r => centre mu' (x n) r * snd su r i) ^ 2)) with (bsum N (fun n => g n * c n ^ 2)). lra.
    - intros n _. assert (Ep : proj O (snd su) (centre mu (x n)) i = c n + w) by (unfold proj, c, w; rewrite <- bsum_plus; apply bsum_ext; intros; unfold centre; ring). rewrite Ep. ring. }
  rewrite E'. pose proof (log_bound O M su M' su' D D' P P') as L. apply (Rmult_le_compat_l Z) in L; [|lra]. rewrite !Rmult_plus_distr_l in L. rewrite !Rmult_plus_distr_l. lra.
Qed.
