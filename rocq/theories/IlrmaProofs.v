From Coq Require Import List ZArith Lia Reals Lra Bool.
From Verif Require Import Base Vec Sum Cpx BackModel BackProps AuxivaModel AuxivaSpec AuxivaProofs DetProofs IlrmaModel IlrmaSpec BaseProofs.
Import ListNotations.
Local Open Scope R_scope.

Lemma bsum_pos : forall n f, (0 < n)%nat -> (forall i, (i < n)%nat -> 0 < f i) -> 0 < bsum n f.
Proof.
  induction n as [|n IH]; intros f Hn H; [lia|]. cbn. destruct n; [cbn; pose proof (H 0%nat ltac:(lia)); lra|].
  pose proof (H (S n) ltac:(lia)). pose proof (IH f ltac:(lia) ltac:(auto)). lra.
Qed.
(** ** The multiplicative update of one entry *)
Lemma entry_decreases : forall eps t a b, 0 < eps -> eps <= t -> 0 <= a -> 0 < b ->
  let t' := floor_eps eps (t * sqrt (a / b)) in eps <= t' /\ t ^ 2 * a / t' + b * t' <= t ^ 2 * a / t + b * t.
Proof.
  intros eps t a b He Ht Ha Hb t'. set (x := t * sqrt (a / b)) in *. assert (Hab : 0 <= a / b) by (apply Rmult_le_pos; [auto|left; now apply Rinv_0_lt_compat]).
  assert (Hx : 0 <= x) by (unfold x; apply Rmult_le_pos; [lra|apply sqrt_pos]).
  assert (Ex : b * (x * x) = t ^ 2 * a). { unfold x. replace (b * (t * sqrt (a / b) * (t * sqrt (a / b)))) with (b * (t * t) * (sqrt (a / b) * sqrt (a / b))) by ring. rewrite sqrt_sqrt by auto. field. lra. }
  assert (Py : eps <= t'). { unfold t', floor_eps. destruct (Rlt_dec x eps); lra. } split; [auto|].
  assert (D : t ^ 2 * a / t + b * t - (t ^ 2 * a / t' + b * t') = (t - t') * (b * (t * t' - x * x)) / (t * t')) by (rewrite Rmult_minus_distr_l, Ex; field; lra).
  assert (0 <= (t - t') * (b * (t * t' - x * x)) / (t * t')); [|lra]. apply Rmult_le_pos; [|left; apply Rinv_0_lt_compat; nra].
  unfold t', floor_eps. destruct (Rlt_dec x eps).
  - apply Rmult_le_pos; [lra|]. apply Rmult_le_pos; [lra|]. nra.
  - replace ((t - x) * (b * (t * x - x * x))) with (b * x * ((t - x) * (t - x))) by ring. apply Rmult_le_pos; [apply Rmult_le_pos; lra|apply Rle_0_sqr].
Qed.
(** The bound of the fit by its terms. *)
Lemma fit_bound : forall K (a x : nat -> R) p, 0 <= p -> (0 < K)%nat -> (forall k, (k < K)%nat -> 0 < a k) -> (forall k, (k < K)%nat -> 0 < x k) ->
  fit p (bsum K x) <= bsum K (fun k => p / (bsum K a) ^ 2 * (a k ^ 2 / x k) + x k / bsum K a) + ln (bsum K a) - 1.
Proof.
  intros K a x p Hp HK Ha Hx. pose proof (bsum_pos K a HK Ha) as Pa. pose proof (bsum_pos K x HK Hx) as Px. set (r := bsum K a) in *. set (r' := bsum K x) in *.
  assert (J : r ^ 2 / r' <= bsum K (fun k => a k ^ 2 / x k)).
  { set (c := r / r'). assert (E : r ^ 2 / r' = bsum K (fun k => 2 * c * a k + - c ^ 2 * x k)). { rewrite bsum_plus, !bsum_scal. fold r r'. unfold c. field. lra. }
    rewrite E. apply bsum_le. intros k Hk. specialize (Hx k Hk).
    assert (D : a k ^ 2 / x k - (2 * c * a k + - c ^ 2 * x k) = (a k - c * x k) * (a k - c * x k) / x k) by (field; lra).
    assert (0 <= (a k - c * x k) * (a k - c * x k) / x k); [|lra]. apply Rmult_le_pos; [apply Rle_0_sqr|left; now apply Rinv_0_lt_compat]. }
  assert (Pc : 0 <= p / r ^ 2) by (apply Rmult_le_pos; [auto|left; apply Rinv_0_lt_compat, pow_lt; auto]).
  rewrite bsum_plus, bsum_scal. assert (E2 : bsum K (fun k => x k / r) = r' / r). { unfold Rdiv. rewrite bsum_scal_r. reflexivity. } rewrite E2.
  pose proof (ln_le_minus (r' / r) ltac:(apply Rdiv_lt_0_compat; auto)) as L. rewrite ln_quot in L by auto.
  apply (Rmult_le_compat_l (p / r ^ 2)) in J; auto. replace (p / r ^ 2 * (r ^ 2 / r')) with (p / r') in J by (field; lra). unfold fit. lra.
Qed.
Lemma fit_tight : forall K (a : nat -> R) p, (0 < K)%nat -> (forall k, (k < K)%nat -> 0 < a k) ->
  bsum K (fun k => p / (bsum K a) ^ 2 * (a k ^ 2 / a k) + a k / bsum K a) + ln (bsum K a) - 1 = fit p (bsum K a).
Proof.
  intros K a p HK Ha. pose proof (bsum_pos K a HK Ha) as Pa. set (r := bsum K a) in *.
  rewrite (bsum_ext K _ (fun k => (p / r ^ 2 + / r) * a k)) by (intros k Hk; specialize (Ha k Hk); field; lra). rewrite bsum_scal. fold r. unfold fit. field. lra.
Qed.
(** Half an update of the factorisation: [n] entries share the coefficients [t k]. *)
Lemma half_decreases : forall n K eps (p : nat -> R) (v : nat -> nat -> R) (t : nat -> R), 0 < eps -> (0 < n)%nat -> (0 < K)%nat ->
  (forall i, (i < n)%nat -> 0 <= p i) -> (forall i k, (i < n)%nat -> (k < K)%nat -> 0 < v i k) -> (forall k, (k < K)%nat -> eps <= t k) ->
  let ir i := 1 / bsum K (fun k => t k * v i k) in
  let t' k := floor_eps eps (t k * sqrt (bsum n (fun i => p i * ir i ^ 2 * v i k) / bsum n (fun i => ir i * v i k))) in
  bsum n (fun i => fit (p i) (bsum K (fun k => t' k * v i k))) <= bsum n (fun i => fit (p i) (bsum K (fun k => t k * v i k))).
Proof.
  intros n K eps p v t He Hn HK Hp Hv Ht ir t'.
  set (r i := bsum K (fun k => t k * v i k)). assert (Pr : forall i, (i < n)%nat -> 0 < r i).
  { intros i Hi. apply bsum_pos; auto. intros k Hk. apply Rmult_lt_0_compat; [specialize (Ht k Hk); lra|auto]. }
  assert (Pir : forall i, (i < n)%nat -> 0 < ir i). { intros i Hi. unfold ir. unfold Rdiv. rewrite Rmult_1_l. apply Rinv_0_lt_compat. now apply Pr. }
  assert (St : forall k, (k < K)%nat -> eps <= t' k /\ t k ^ 2 * bsum n (fun i => p i * ir i ^ 2 * v i k) / t' k + bsum n (fun i => ir i * v i k) * t' k <=
     t k ^ 2 * bsum n (fun i => p i * ir i ^ 2 * v i k) / t k + bsum n (fun i => ir i * v i k) * t k).
  { intros k Hk. apply entry_decreases; auto.
    - rewrite <- (bsum_zero n). apply bsum_le. intros i Hi. apply Rmult_le_pos; [apply Rmult_le_pos; [auto|apply pow2_ge_0]|left; auto].
    - apply bsum_pos; auto. intros i Hi. apply Rmult_lt_0_compat; auto. }
  set (Q x := bsum n (fun i => bsum K (fun k => p i / r i ^ 2 * ((t k * v i k) ^ 2 / (x k * v i k)) + x k * v i k / r i) + ln (r i) - 1)).
  apply Rle_trans with (Q t').
  { apply bsum_le. intros i Hi. apply (fit_bound K (fun k => t k * v i k) (fun k => t' k * v i k)); auto; intros k Hk; apply Rmult_lt_0_compat; auto; [specialize (Ht k Hk); lra|destruct (St k Hk); lra]. }
  apply Rle_trans with (Q t).
  2:{ right. apply bsum_ext. intros i Hi. apply (fit_tight K (fun k => t k * v i k)); auto. intros k Hk. apply Rmult_lt_0_compat; auto. specialize (Ht k Hk). lra. }
  assert (EQ : forall x, (forall k, (k < K)%nat -> 0 < x k) -> Q x = bsum K (fun k => t k ^ 2 * bsum n (fun i => p i * ir i ^ 2 * v i k) / x k + bsum n (fun i => ir i * v i k) * x k) + bsum n (fun i => ln (r i) - 1)).
  { intros x Hx. unfold Q. rewrite (bsum_ext n _ (fun i => bsum K (fun k => p i / r i ^ 2 * ((t k * v i k) ^ 2 / (x k * v i k)) + x k * v i k / r i) + (ln (r i) - 1))) by (intros; ring).
    rewrite bsum_plus. f_equal. rewrite bsum_swap. apply bsum_ext. intros k Hk. specialize (Hx k Hk). rewrite bsum_plus. f_equal.
    - replace (t k ^ 2 * bsum n (fun i => p i * ir i ^ 2 * v i k) / x k) with (t k ^ 2 / x k * bsum n (fun i => p i * ir i ^ 2 * v i k)) by (field; lra). rewrite <- bsum_scal.
      apply bsum_ext. intros i Hi. unfold ir. fold (r i). pose proof (Pr i Hi). pose proof (Hv i k Hi Hk). field. lra.
    - rewrite Rmult_comm, <- bsum_scal. apply bsum_ext. intros i Hi. unfold ir. fold (r i). pose proof (Pr i Hi). field. lra. }
  rewrite !EQ. 2:{ intros k Hk. specialize (Ht k Hk). lra. } 2:{ intros k Hk. destruct (St k Hk). lra. }
  apply Rplus_le_compat_r. apply bsum_le. intros k Hk. apply St, Hk.
Qed.

Lemma upd_ext : forall eps t a a' b b', a = a' -> b = b' -> floor_eps eps (t * sqrt (a / b)) = floor_eps eps (t * sqrt (a' / b')).
Proof. intros; now subst. Qed.
Lemma bsum_change : forall n s f g, (s < n)%nat -> (forall i, (i < n)%nat -> i <> s -> f i = g i) -> bsum n f - bsum n g = f s - g s.
Proof.
  intros n s f g Hs H. rewrite <- bsum_minus. rewrite (bsum_delta n s); auto. intros i Hi Ne. rewrite H by auto. ring.
Qed.
Lemma source_fit_ext : forall F N K P P' T T' V V', (forall f t, (f < F)%nat -> (t < N)%nat -> P f t = P' f t) -> (forall f k, (f < F)%nat -> (k < K)%nat -> T f k = T' f k) -> (forall t k, (t < N)%nat -> (k < K)%nat -> V t k = V' t k) ->
  source_fit F N K P T V = source_fit F N K P' T' V'.
Proof.
  intros. unfold source_fit. apply bsum_ext. intros f Hf. apply bsum_ext. intros t Ht. rewrite H by auto. f_equal. apply bsum_ext. intros k Hk. now rewrite H0, H1 by auto.
Qed.
Lemma source_fit_swap : forall F N K P T V, source_fit F N K P T V = source_fit N F K (fun t f => P f t) V T.
Proof.
  intros. unfold source_fit. rewrite bsum_swap. apply bsum_ext. intros t _. apply bsum_ext. intros f _. f_equal. apply bsum_ext. intros k _. ring.
Qed.

Section Step.
Variables (solve : nat -> mat -> (nat -> C) -> option (nat -> C)) (F M N K : nat) (eps : R) (X : nat -> nat -> nat -> C).
Hypotheses (Hsolve : is_solve solve) (He : 0 < eps) (HF : (0 < F)%nat) (HN : (0 < N)%nat) (HK : (0 < K)%nat).
Lemma floor_id : forall a, eps <= a -> floor_eps eps a = a.
Proof. intros a H. unfold floor_eps. destruct (Rlt_dec a eps); lra. Qed.
Lemma floor_ge : forall a, eps <= floor_eps eps a.
Proof. intros a. unfold floor_eps. destruct (Rlt_dec a eps); lra. Qed.
Definition mixes (T V : nat -> nat -> nat -> R) (s f t : nat) : R := bsum K (fun k => T s f k * V s t k).

Lemma update_one_parts : forall st s st', update_one solve F M N K eps X st s = Some st' ->
  let st1 := update_R K eps s (update_T N eps s st) in let st2 := update_R K eps s (update_V F eps s st1) in
  sT st' = sT st1 /\ sV st' = sV st2 /\ sR st' = sR st2 /\ siR st' = siR st2 /\ sP st' = sP st /\
  forall f, (f < F)%nat -> exists row, new_row solve M (sW st f) (weighted N X (siR st2 s f) f) s = Some row /\ sW st' f = set_row (sW st f) s row.
Proof.
  intros st s st' H st1 st2. unfold update_one, update_W in H. fold st1 st2 in H. destruct (for_all_f F _) as [W'|] eqn:E; [|discriminate]. cbn [bind] in H. injection H as <-. cbn.
  repeat split. intros f Hf. pose proof (for_all_f_Some _ _ _ E f Hf) as Q. cbv beta in Q.
  change (sW st2 f) with (sW st f) in Q. destruct (new_row _ _ _ _ _) as [row|]; [|discriminate]. cbn [bind] in Q. injection Q as Q. eauto.
Qed.
Lemma step_decreases : forall st s st', (s < M)%nat -> update_one solve F M N K eps X st s = Some st' ->
  (forall f k, (f < F)%nat -> (k < K)%nat -> eps <= sT st s f k) -> (forall t k, (t < N)%nat -> (k < K)%nat -> eps <= sV st s t k) ->
  (forall i f k, i <> s -> (i < M)%nat -> (f < F)%nat -> (k < K)%nat -> eps <= sT st i f k) -> (forall i t k, i <> s -> (i < M)%nat -> (t < N)%nat -> (k < K)%nat -> eps <= sV st i t k) ->
  (forall f t, (f < F)%nat -> (t < N)%nat -> sP st s f t = Cabs2 (demixed M X (sW st) f s t)) ->
  (forall f t, (f < F)%nat -> (t < N)%nat -> siR st s f t = 1 / mixes (sT st) (sV st) s f t) ->
  (forall f t, (f < F)%nat -> (t < N)%nat -> eps <= mixes (sT st') (sV st) s f t /\ eps <= mixes (sT st') (sV st') s f t) ->
  (forall f, (f < F)%nat -> det M (sW st f) <> C0) ->
  (forall f, (f < F)%nat -> det M (sW st' f) <> C0) /\ nll F M N K X (sW st') (sT st') (sV st') <= nll F M N K X (sW st) (sT st) (sV st).
Proof.
  intros st s st' Hs H HT HV HTo HVo HP HiR HR HD. destruct (update_one_parts st s st' H) as (ET & EV & _ & _ & _ & EW). cbv zeta in *.
  set (st1 := update_R K eps s (update_T N eps s st)) in *. set (st2 := update_R K eps s (update_V F eps s st1)) in *.
  (* the bases *)
  assert (T1 : forall f k, (f < F)%nat -> (k < K)%nat -> sT st' s f k = floor_eps eps (sT st s f k * sqrt (bsum N (fun t => sP st s f t * (1 / bsum K (fun k => sT st s f k * sV st s t k)) ^ 2 * sV st s t k) / bsum N (fun t => 1 / bsum K (fun k => sT st s f k * sV st s t k) * sV st s t k)))).
  { intros f k Hf Hk. rewrite ET. cbn. rewrite Nat.eqb_refl. apply upd_ext; apply bsum_ext; intros t Ht; rewrite HiR by auto; reflexivity. }
  assert (To : forall i f k, i <> s -> (i < M)%nat -> (f < F)%nat -> (k < K)%nat -> sT st' i f k = sT st i f k).
  { intros i f k Ne Hi Hf Hk. rewrite ET. cbn. destruct (Nat.eqb_spec i s); [contradiction|]. apply floor_id. auto. }
  (* the inverse spectra after the bases *)
  assert (I1 : forall f t, (f < F)%nat -> (t < N)%nat -> siR st1 s f t = 1 / mixes (sT st') (sV st) s f t).
  { intros f t Hf Ht. unfold st1. cbn [update_R siR]. rewrite !Nat.eqb_refl. f_equal. rewrite ET in HR |- *. exact (floor_id _ (proj1 (HR f t Hf Ht))). }
  assert (V1 : forall t k, (t < N)%nat -> (k < K)%nat -> sV st' s t k = floor_eps eps (sV st s t k * sqrt (bsum F (fun f => sP st s f t * (1 / bsum K (fun k => sV st s t k * sT st' s f k)) ^ 2 * sT st' s f k) / bsum F (fun f => 1 / bsum K (fun k => sV st s t k * sT st' s f k) * sT st' s f k)))).
  { intros t k Ht Hk. rewrite EV. unfold st2. cbn [update_R update_V sV]. rewrite Nat.eqb_refl. change (sV st1 s t k) with (sV st s t k). change (sP st1) with (sP st). rewrite <- ET.
    assert (Sy : forall f, bsum K (fun k => sV st s t k * sT st' s f k) = mixes (sT st') (sV st) s f t) by (intros f; apply bsum_ext; intros; ring).
    apply upd_ext; apply bsum_ext; intros f Hf; rewrite I1, Sy by auto; reflexivity. }
  assert (Vo : forall i t k, i <> s -> (i < M)%nat -> (t < N)%nat -> (k < K)%nat -> sV st' i t k = sV st i t k).
  { intros i t k Ne Hi Ht Hk. rewrite EV. unfold st2. cbn [update_R update_V sV]. destruct (Nat.eqb_spec i s); [contradiction|]. apply floor_id. change (sV st1) with (sV st). auto. }
  assert (I2 : forall f t, (f < F)%nat -> (t < N)%nat -> siR st2 s f t = 1 / mixes (sT st') (sV st') s f t).
  { intros f t Hf Ht. unfold st2. cbn [update_R siR]. rewrite !Nat.eqb_refl. f_equal. rewrite EV, ET in HR |- *. exact (floor_id _ (proj2 (HR f t Hf Ht))). }
  set (P0 := fun f t => Cabs2 (demixed M X (sW st) f s t)).
  (* bases and activations *)
  assert (D1 : source_fit F N K P0 (sT st' s) (sV st s) <= source_fit F N K P0 (sT st s) (sV st s)).
  { apply bsum_le. intros f Hf.
    pose proof (half_decreases N K eps (P0 f) (sV st s) (sT st s f) He HN HK (fun i _ => Cabs2_nonneg _) ltac:(intros t k Ht Hk; specialize (HV t k Ht Hk); lra) (fun k Hk => HT f k Hf Hk)) as Hd.
    cbv zeta in Hd. eapply Rle_trans; [|exact Hd]. right. apply bsum_ext. intros t Ht. f_equal. apply bsum_ext. intros k Hk. rewrite T1 by auto. f_equal. apply upd_ext; [|reflexivity]. apply bsum_ext. intros u Hu. now rewrite HP. }
  assert (D2 : source_fit F N K P0 (sT st' s) (sV st' s) <= source_fit F N K P0 (sT st' s) (sV st s)).
  { rewrite !(source_fit_swap F N). apply bsum_le. intros t Ht.
    pose proof (half_decreases F K eps (fun f => P0 f t) (sT st' s) (sV st s t) He HF HK (fun i _ => Cabs2_nonneg _) ltac:(intros f k Hf Hk; rewrite T1 by auto; match goal with |- 0 < floor_eps _ ?a => pose proof (floor_ge a); lra end) (fun k Hk => HV t k Ht Hk)) as Hd.
    cbv zeta in Hd. eapply Rle_trans; [|exact Hd]. right. apply bsum_ext. intros f Hf. f_equal. apply bsum_ext. intros k Hk. rewrite V1 by auto. f_equal. apply upd_ext; [|reflexivity]. apply bsum_ext. intros u Hu. now rewrite HP. }
  (* the rows *)
  set (rho := fun f t => siR st2 s f t).
  assert (B : forall f, (f < F)%nat -> det M (sW st' f) <> C0 /\
     / INR N * bsum N (fun t => Cabs2 (demixed M X (sW st') f s t) / mixes (sT st') (sV st') s f t) - ln (Cabs2 (det M (sW st' f))) <=
     / INR N * bsum N (fun t => Cabs2 (demixed M X (sW st) f s t) / mixes (sT st') (sV st') s f t) - ln (Cabs2 (det M (sW st f))) /\
     forall i c, i <> s -> sW st' f i c = sW st f i c).
  { intros f Hf. destruct (EW f Hf) as (row & Er & Ew).
    (* weights outside the frames do not matter; take them 0 *)
    set (rh := fun t => if (t <? N)%nat then siR st2 s f t else 0).
    assert (Wx : forall c d, weighted N X (siR st2 s f) f c d = weighted N X rh f c d).
    { intros c d. unfold weighted. f_equal. apply csum_ext. intros t Ht. unfold rh. destruct (Nat.ltb_spec t N); [reflexivity|lia]. }
    assert (Wy : weighted N X (siR st2 s f) f = weighted N X rh f).
    { unfold weighted. assert (Hcs : forall g g', (forall t, (t < N)%nat -> g t = g' t) -> csum N g = csum N g') by (intros; now apply csum_ext). 
      apply FunctionalExtensionality.functional_extensionality. intros c. apply FunctionalExtensionality.functional_extensionality. intros d. apply Wx. }
    rewrite Wy in Er.
    assert (Nn : forall t, 0 <= rh t).
    { intros t. unfold rh. destruct (Nat.ltb_spec t N); [|lra]. rewrite I2 by auto. destruct (HR f t Hf H0) as [_ Q]. unfold Rdiv. rewrite Rmult_1_l. left. apply Rinv_0_lt_compat. lra. }
    destruct (new_row_facts _ _ _ _ _ _ _ _ _ Hsolve Nn Hs Er) as (_ & _ & Q). destruct (Q (det M) (det_alternating M) (HD f Hf)) as [Nz Op]. rewrite Ew. split; [auto|].
    assert (Eq : forall w, q M N rh (X f) w = / INR N * bsum N (fun t => Cabs2 (csum M (fun c => (w c * X f c t)%C)) / mixes (sT st') (sV st') s f t)).
    { intros w. unfold q. f_equal. apply bsum_ext. intros t Ht. unfold rh. destruct (Nat.ltb_spec t N); [|lia]. rewrite I2 by auto. unfold Rdiv. ring. }
    assert (Dw : det M (set_row (sW st f) s (sW st f s)) = det M (sW st f)) by (apply det_ext; intros a b _ _; unfold set_row; destruct (Nat.eqb_spec a s); congruence).
    specialize (Op (sW st f s)). rewrite Dw in Op. specialize (Op (HD f Hf)). rewrite !Eq in Op. split.
    - unfold demixed. rewrite Ew. unfold set_row at 1. rewrite Nat.eqb_refl. exact Op.
    - intros i c Ni. unfold set_row. destruct (Nat.eqb_spec i s); [contradiction|auto]. }
  split; [intros f Hf; apply B, Hf|].
  unfold nll.
  match goal with |- / INR N * bsum M ?a - ?b <= / INR N * bsum M ?c - ?d => pose proof (bsum_change M s a c Hs) as Ch; assert (bsum M a - bsum M c = a s - c s) as Cg end.
  { apply Ch. intros i Hi Ne. apply source_fit_ext.
    - intros f t Hf Ht. f_equal. apply csum_ext. intros c _. destruct (B f Hf) as (_ & _ & U). now rewrite U.
    - intros; now apply To.
    - intros; now apply Vo. }
  clear Ch. cbv beta in Cg.
  set (Anew := source_fit F N K (fun f t => Cabs2 (csum M (fun c => (sW st' f s c * X f c t)%C))) (sT st' s) (sV st' s)) in *.
  change (source_fit F N K (fun f t => Cabs2 (csum M (fun c => (sW st f s c * X f c t)%C))) (sT st s) (sV st s)) with (source_fit F N K P0 (sT st s) (sV st s)) in Cg.
  assert (D3 : / INR N * Anew - bsum F (fun f => ln (Cabs2 (det M (sW st' f)))) <= / INR N * source_fit F N K P0 (sT st' s) (sV st' s) - bsum F (fun f => ln (Cabs2 (det M (sW st f))))).
  { unfold Anew, source_fit. rewrite <- !bsum_scal, <- !bsum_minus. apply bsum_le. intros f Hf. destruct (B f Hf) as (_ & Le & _). unfold fit. rewrite !bsum_plus, !Rmult_plus_distr_l.
    unfold mixes, demixed in Le. unfold P0, demixed. lra. }
  assert (PN : 0 < / INR N) by (apply Rinv_0_lt_compat, lt_0_INR; auto).
  assert (D4 : / INR N * source_fit F N K P0 (sT st' s) (sV st' s) <= / INR N * source_fit F N K P0 (sT st s) (sV st s)) by (apply Rmult_le_compat_l; lra).
  match goal with |- / INR N * ?a - ?b <= / INR N * ?c - ?d => set (xa := a) in *; set (xc := c) in *; set (xb := b) in *; set (xd := d) in * end.
  assert (Cg' : / INR N * xa = / INR N * xc + (/ INR N * Anew - / INR N * source_fit F N K P0 (sT st s) (sV st s))). { rewrite <- Rmult_minus_distr_l, <- Rmult_plus_distr_l. f_equal. lra. }
  lra.
Qed.
End Step.
