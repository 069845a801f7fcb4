(** C117: the subspace denoiser (denoise/subspace.py). *)
From Coq Require Import List ZArith Lia Reals Lra Bool Permutation Sorted.
From Verif Require Import Base Vec Sum StftModel StftSpec StftProofs DenoiseModel DenoiseSpec UtilModel WienerProofs SubspaceModel SubspaceSpec GridModel GridProps BaseProofs SubspaceProofs.
Import ListNotations.
Local Open Scope R_scope.

(** ** Successive updates *)
Lemma new_inv : forall h mu L skip thresh s, (1 <= h)%nat -> (1 <= L)%nat -> subspace_new (2 * h) mu L skip thresh = Some s ->
  (1 <= skip)%nat /\ ok h L skip thresh [] 0 s /\ sb_mu s = mu /\ sb_prev s = repeat 0 h /\ sb_prev_out s = repeat 0 h /\ sb_win s = hanning (2 * h).
Proof.
  intros h mu L skip thresh s Hh HL E. unfold subspace_new in E. destruct (Nat.odd (2 * h)) eqn:Od; [discriminate|]. assert (E2 : (2 * h / 2 = h)%nat) by (rewrite Nat.mul_comm; apply Nat.div_mul; lia). rewrite E2 in E.
  destruct (Nat.eqb_spec skip 0); [discriminate|]. apply some_inj in E. subst s. split; [lia|]. cbn [sb_mu sb_prev sb_prev_out sb_win]. split; [|repeat split].
  unfold ok. cbn [sb_len sb_hop sb_nsamples sb_skip sb_nframes sb_thresh sb_input sb_hist_sn sb_cov_sn sb_cov_n sb_hist_n sb_nnoise length map seq].
  assert (W : forall A (z : A), repeat z L = window L z []) by (intros A z; unfold window; cbn [length skipn]; now rewrite app_nil_r).
  assert (Z : forall p q, Rsum (map (fun M : mat => M p q) (repeat mzero L)) = 0). { intros p q. clear. induction L as [|L IH]; [reflexivity|]. cbn [repeat map Rsum fold_right]. unfold Rsum in IH. rewrite IH. unfold mzero. ring. }
  repeat split; [unfold last_of; cbn [length skipn]; now rewrite app_nil_r|apply W|intros p q; rewrite Z; unfold mzero; ring|].
  exists (fun _ => mzero), (fun _ => mzero), (fun _ => 1%nat). split; [split; [reflexivity|split; intros; lia]|]. split; [reflexivity|]. split; [apply W|]. split; [apply W|]. intros p q. rewrite Z. unfold mzero. ring.
Qed.
Lemma update_pos : forall h L skip thresh x T s b s', ok h L skip thresh x T s -> update_cov_matrices s b = Some s' -> (0 < h / skip)%nat.
Proof.
  intros h L skip thresh x T s b s' (_ & _ & _ & _ & _ & O5 & _) U. unfold update_cov_matrices in U. destruct (sb_hist_sn s), (sb_hist_n s), (sb_nnoise s); try discriminate. destruct (if Nat.eqb _ 0 then _ else _) as [nn c]. destruct (Nat.eqb_spec (sb_nframes s) 0) as [|Hn]; [discriminate|]. rewrite O5 in Hn. destruct (h / skip)%nat; lia.
Qed.
Lemma updates_ok : forall h L skip thresh blocks x T s s', (1 <= h)%nat -> (1 <= L)%nat -> (1 <= skip)%nat -> ok h L skip thresh x T s -> Forall (fun b => length b = h) blocks ->
  foldM update_cov_matrices blocks s = Some s' -> ok h L skip thresh (x ++ concat blocks) (T + length blocks) s'.
Proof.
  intros h L skip thresh blocks. induction blocks as [|b blocks IH]; intros x T s s' Hh HL Hs O F U.
  - cbn [foldM] in U. apply some_inj in U. subst s'. cbn [concat length]. rewrite app_nil_r, Nat.add_0_r. exact O.
  - cbn [foldM] in U. destruct (update_cov_matrices s b) as [s1|] eqn:U1; [|discriminate]. cbn [bind] in U. pose proof (update_pos _ _ _ _ _ _ _ _ _ O U1) as Hp. inversion F as [|? ? Fb F']; subst.
    destruct (update_ok (length b) L skip thresh Hh HL Hs x T s b O eq_refl Hp) as (s2 & U2 & O2 & _). rewrite U1 in U2. apply some_inj in U2. subst s2. specialize (IH (x ++ b) (T + 1)%nat s1 s' Hh HL Hs O2 F' U). cbn [concat length]. rewrite app_assoc. replace (T + S (length blocks))%nat with (T + 1 + length blocks)%nat by lia. exact IH.
Qed.
Lemma ok_signal : forall h L skip thresh x t s, (1 <= L)%nat -> (0 < h / skip)%nat -> ok h L skip thresh x (t + 1) s -> forall p q, sb_cov_sn s p q = signal_cov h skip L x t p q.
Proof.
  intros h L skip thresh x t s HL Hp (_ & _ & _ & _ & _ & O5 & _ & _ & O8 & O9 & _) p q. specialize (O9 p q). rewrite O8, (window_sum L mzero (fun u => psum (block_frames h skip x u)) (fun M => M p q)), O5 in O9.
  assert (N : INR (L * (h / skip)) <> 0) by (apply not_0_INR; nia). unfold signal_cov. rewrite (bsum_ext L _ (fun l => if (l <=? t)%nat then psum (block_frames h skip x (t - l)) p q else mzero p q)) by (intros l _; destruct (l <=? t)%nat; [symmetry; apply psum_products|reflexivity]).
  apply (Rmult_eq_reg_l (INR (L * (h / skip)))); [|exact N]. rewrite O9. field. exact N.
Qed.

(** C117: after each update the covariance of the noisy signal is the sum of the products of the
    frames of the last [lookback] blocks divided by [lookback * (hop // skip)], and the noise
    covariance follows the recursion of [noise_estimates]. *)
Theorem C117_cov : forall h mu L skip thresh s blocks s', (1 <= h)%nat -> (1 <= L)%nat -> subspace_new (2 * h) mu L skip thresh = Some s ->
  Forall (fun b => length b = h) blocks -> blocks <> [] -> foldM update_cov_matrices blocks s = Some s' ->
  let x := concat blocks in let T := length blocks in
  (forall p q, sb_cov_sn s' p q = signal_cov h skip L x (T - 1) p q) /\
  exists E S c, noise_estimates h skip L thresh x T E S c /\ forall p q, sb_cov_n s' p q = E T p q.
Proof.
  intros h mu L skip thresh s blocks s' Hh HL N F Hb U x T. destruct (new_inv _ _ _ _ _ _ Hh HL N) as (Hs & O & _). pose proof (updates_ok _ _ _ _ _ _ _ _ _ Hh HL Hs O F U) as O'. cbn [app Nat.add] in O'. fold x T in O'.
  assert (HT : (1 <= T)%nat) by (unfold T; destruct blocks; [congruence|cbn; lia]). split.
  - assert (Hp : (0 < h / skip)%nat). { destruct blocks as [|b blocks]; [congruence|]. cbn [foldM] in U. destruct (update_cov_matrices s b) as [s1|] eqn:U1; [|discriminate]. exact (update_pos _ _ _ _ _ _ _ _ _ O U1). }
    replace T with (T - 1 + 1)%nat in O' by lia. exact (ok_signal _ _ _ _ _ _ _ HL Hp O').
  - destruct O' as (_ & _ & _ & _ & _ & _ & _ & _ & _ & _ & E & S & c & NE & ON & _). exists E, S, c. split; assumption.
Qed.
Print Assumptions C117_cov.

(** ** Semidefiniteness *)
Lemma quad_ext : forall n A B v, (forall i j, A i j = B i j) -> quad n A v = quad n B v.
Proof. intros n A B v H. apply bsum_ext. intros i _. apply bsum_ext. intros j _. now rewrite H. Qed.
Lemma quad_sum : forall n L (F : nat -> nat -> nat -> R) d v, quad n (fun p q => bsum L (fun l => F l p q) / d) v = bsum L (fun l => quad n (F l) v) / d.
Proof.
  intros n L F d v. unfold quad, Rdiv. transitivity (bsum L (fun l => bsum n (fun i => bsum n (fun j => v i * F l i j * v j)) * / d)).
  - symmetry. transitivity (bsum L (fun l => bsum n (fun i => bsum n (fun j => v i * F l i j * v j * / d)))).
    + apply bsum_ext. intros l _. rewrite <- bsum_scal_r. apply bsum_ext. intros i _. rewrite <- bsum_scal_r. reflexivity.
    + rewrite bsum_swap. apply bsum_ext. intros i _. rewrite bsum_swap. apply bsum_ext. intros j _. rewrite <- bsum_scal_r, <- bsum_scal, <- bsum_scal_r. apply bsum_ext. intros; ring.
  - apply bsum_scal_r.
Qed.
Lemma products_sym : forall fs p q, products fs p q = products fs q p.
Proof. intros. apply bsum_ext. intros; ring. Qed.
Lemma noise_good : forall h skip L thresh x T E S c, noise_estimates h skip L thresh x T E S c ->
  forall t, (t <= T)%nat -> (forall p q, E t p q = E t q p) /\ forall n v, 0 <= quad n (E t) v.
Proof.
  intros h skip L thresh x T E S c (N1 & N2 & N3) t. induction t as [t IH] using lt_wf_ind. intros Ht. destruct t as [|t].
  - split; [intros p q; now rewrite !N1|]. intros n v. apply Req_le. symmetry. apply bsum_zero_ext. intros i _. apply bsum_zero_ext. intros j _. rewrite N1. ring.
  - assert (GS : forall u, (u <= t)%nat -> (forall p q, S u p q = S u q p) /\ forall n v, 0 <= quad n (S u) v).
    { intros u Hu. destruct (N2 u ltac:(lia)) as [A B]. destruct (noise_frames h skip thresh x u) as [|f fs] eqn:Ef.
      - destruct (A eq_refl) as [_ Es]. destruct (IH u ltac:(lia) ltac:(lia)) as [G1 G2]. split; [intros p q; now rewrite !Es|]. intros n v. rewrite (quad_ext n _ (E u)) by exact Es. apply G2.
      - destruct (B ltac:(discriminate)) as [_ Es]. split; [intros p q; rewrite !Es; apply products_sym|]. intros n v. rewrite (quad_ext n _ (products (f :: fs))) by exact Es. apply products_psd. }
    rewrite <- Nat.add_1_r. set (total := bsum L (fun l => if (l <=? t)%nat then INR (c (t - l)%nat) else INR (h / skip))).
    assert (NT : forall p q, E (t + 1)%nat p q = bsum L (fun l => if (l <=? t)%nat then S (t - l)%nat p q else 0) / total) by (intros p q; apply (N3 t ltac:(lia) p q)). assert (Tp : 0 < total) by apply (N3 t ltac:(lia) 0%nat 0%nat). clearbody total. split.
    + intros p q. rewrite !NT. f_equal. apply bsum_ext. intros l _. destruct (Nat.leb_spec l t); [|reflexivity]. apply GS. lia.
    + intros n v. rewrite (quad_ext n _ _ v NT), (quad_sum n L (fun l p q => if (l <=? t)%nat then S (t - l)%nat p q else 0)). apply Rmult_le_pos; [|left; now apply Rinv_0_lt_compat]. apply bsum_nonneg. intros l _. destruct (Nat.leb_spec l t); [apply GS; lia|].
      apply Req_le. symmetry. apply bsum_zero_ext. intros i _. apply bsum_zero_ext. intros j _. ring.
Qed.

(** C117: both estimates are symmetric and positive semidefinite, always. *)
Theorem C117_psd : forall h mu L skip thresh s blocks s', (1 <= h)%nat -> (1 <= L)%nat -> subspace_new (2 * h) mu L skip thresh = Some s ->
  Forall (fun b => length b = h) blocks -> blocks <> [] -> foldM update_cov_matrices blocks s = Some s' ->
  (forall p q, sb_cov_sn s' p q = sb_cov_sn s' q p) /\ (forall p q, sb_cov_n s' p q = sb_cov_n s' q p) /\
  forall v, 0 <= quad (2 * h) (sb_cov_sn s') v /\ 0 <= quad (2 * h) (sb_cov_n s') v.
Proof.
  intros h mu L skip thresh s blocks s' Hh HL N F Hb U. destruct (C117_cov _ _ _ _ _ _ _ _ Hh HL N F Hb U) as (C & E & S & c & NE & CN). cbv zeta in C, NE, CN. destruct (noise_good _ _ _ _ _ _ _ _ _ NE (length blocks) (le_n _)) as [G1 G2].
  assert (Q : forall n d v, 0 <= quad n (fun p q => bsum L (fun l => if (l <=? length blocks - 1)%nat then products (block_frames h skip (concat blocks) (length blocks - 1 - l)) p q else 0) / INR d) v).
  { intros n d v. rewrite (quad_sum n L (fun l p q => if (l <=? length blocks - 1)%nat then products (block_frames h skip (concat blocks) (length blocks - 1 - l)) p q else 0)). destruct d as [|d]; [cbn [INR]; unfold Rdiv; rewrite Rinv_0; lra|]. apply Rmult_le_pos; [|left; apply Rinv_0_lt_compat; apply lt_0_INR; lia].
    apply bsum_nonneg. intros l _. destruct (l <=? _)%nat; [apply products_psd|]. apply Req_le. symmetry. apply bsum_zero_ext. intros i _. apply bsum_zero_ext. intros j _. ring. }
  split; [|split; [intros p q; rewrite !CN; apply G1|]].
  - intros p q. rewrite !C. unfold signal_cov. f_equal. apply bsum_ext. intros l _. destruct (l <=? _)%nat; [apply products_sym|reflexivity].
  - intros v. split; [rewrite (quad_ext _ _ _ v C); apply (Q (2 * h)%nat (L * (h / skip))%nat v)|]. rewrite (quad_ext _ _ _ v CN). apply G2.
Qed.
Print Assumptions C117_psd.

(** ** Successive calls *)
Section Run.
Variable lstsq : nat -> mat -> mat -> mat.
Variable eig : nat -> mat -> option (vec * mat).
Variable argsort : vec -> list nat.
Variable pinv : nat -> mat -> mat.
Hypothesis eig_ok : forall n A l V, eig n A = Some (l, V) -> eigenpairs n A l V.
Hypothesis argsort_ok : sorts argsort.
Variables h L skip : nat.
Variables thresh mu : R.
Hypothesis Hh : (1 <= h)%nat.
Hypothesis HL : (1 <= L)%nat.
Hypothesis Hs : (1 <= skip)%nat.

Definition inv (x : vec) (T : nat) (s : subspace) : Prop := ok h L skip thresh x T s /\ sb_mu s = mu /\ sb_prev s = last_of h x /\ length (sb_prev_out s) = h /\ sb_win s = hanning (2 * h).
(** What is known of the filter used for block [t]. *)
Definition filter_at (x : vec) (t : nat) (H : mat) : Prop :=
  exists cn csn E S c l V, noise_estimates h skip L thresh x (t + 1) E S c /\ (forall p q, cn p q = E (t + 1)%nat p q) /\ (forall p q, csn p q = signal_cov h skip L x t p q) /\
    eigenpairs (2 * h) (msub (lstsq (2 * h)%nat cn csn) eye) l V /\
    (inverts (2 * h) (pinv (2 * h)%nat) -> regular (2 * h) V -> forall j k, (j < 2 * h)%nat -> (k < 2 * h)%nat -> bsum (2 * h) (fun i => H i k * V i j) = subspace_gain mu (nth j l 0) * V k j) /\
    ((forall j, (j < 2 * h)%nat -> nth j l 0 <= 0) -> forall i k, H i k = 0).

Lemma step_spec : forall x T s b s' o, inv x T s -> sub_apply lstsq eig argsort pinv s b = Some (s', o) ->
  length b = h /\ inv (x ++ b) (T + 1) s' /\ sb_out s' = o /\ length o = h /\ exists H, filter_at (x ++ b) T H /\
    (forall i, (i < h)%nat -> nth i o 0 = nth i (sb_prev_out s) 0 + sym_hann (2 * h) i * applied (2 * h) H (frame_at h (x ++ b) T) i) /\
    (forall i, (i < h)%nat -> nth i (sb_prev_out s') 0 = sym_hann (2 * h) (h + i) * applied (2 * h) H (frame_at h (x ++ b) T) (h + i)).
Proof.
  intros x T s b s' o (O & I1 & I2 & I3 & I4) A. unfold sub_apply in A. pose proof O as (Lx & _ & O2 & _). rewrite O2 in A. destruct (Nat.eqb_spec (length b) h) as [Lb|]; [|discriminate]. cbn [negb] in A.
  destruct (update_cov_matrices s b) as [s1|] eqn:U; [|discriminate]. cbn [bind] in A. pose proof (update_pos _ _ _ _ _ _ _ _ _ O U) as Hp.
  destruct (update_ok h L skip thresh Hh HL Hs x T s b O Lb Hp) as (s2 & U2 & O' & M1 & M2 & M3 & M4 & M5). rewrite U in U2. apply some_inj in U2. subst s2.
  destruct (compute_signal_projection lstsq eig argsort pinv s1) as [H|] eqn:P; [|discriminate]. cbn [bind] in A. pose proof O' as (Lx' & O1' & O2' & _). rewrite O1', O2' in A.
  apply some_inj in A. set (out := map _ (seq 0 (2 * h))) in A. apply pair_equal_spec in A. destruct A as [<- <-].
  assert (Lo : length out = (2 * h)%nat) by (unfold out; now rewrite map_length, seq_length).
  assert (No : forall i, (i < 2 * h)%nat -> nth i out 0 = sym_hann (2 * h) i * applied (2 * h) H (frame_at h (x ++ b) T) i).
  { intros i Hi. unfold out. rewrite nth_map_seq by auto. rewrite M5, I4. unfold hanning. rewrite nth_map_seq by auto. unfold sym_hann, applied. f_equal. apply bsum_ext. intros j Hj. f_equal. unfold frame_at, delayed. rewrite I2. unfold last_of. rewrite Lx.
    replace (skipn (T * h) (repeat 0 h ++ x) ++ b) with (skipn (T * h) (repeat 0 h ++ x ++ b)). 2: { rewrite app_assoc, (skipn_app _ (repeat 0 h ++ x)), app_length, repeat_length, Lx. replace (T * h - (h + T * h))%nat with 0%nat by lia. reflexivity. } now rewrite nth_skipn. }
  clearbody out. split; [exact Lb|]. split; [|split; [reflexivity|split]].
  - split; [destruct O' as (Q1 & Q2 & Q3 & Q4 & Q5 & Q); unfold ok; cbn [sb_len sb_hop sb_nsamples sb_skip sb_nframes sb_thresh sb_input sb_hist_sn sb_cov_sn sb_cov_n sb_hist_n sb_nnoise]; split; [exact Q1|]; split; [reflexivity|]; split; [reflexivity|]; split; [exact Q4|]; split; [exact Q5|exact Q]|]. cbn [sb_mu sb_prev sb_prev_out sb_win]. split; [congruence|]. split; [|split; [rewrite skipn_length; lia|congruence]].
    rewrite (last_of_app h L skip Hh HL Hs) by lia. rewrite Lb, skipn_all2; [reflexivity|]. unfold last_of. rewrite skipn_length, app_length, repeat_length. lia.
  - rewrite map2_length; rewrite M3; [exact I3|]. rewrite firstn_length. lia.
  - exists H. split; [|split].
    + destruct (projection_spec lstsq eig argsort pinv eig_ok argsort_ok s1 H P) as (l & V & P1 & P2 & P3). rewrite O1' in P1, P2, P3. rewrite M1, I1 in P2. pose proof O' as (_ & _ & _ & _ & _ & _ & _ & _ & _ & _ & E & S & c & NE & ON & _).
      exists (sb_cov_n s1), (sb_cov_sn s1), E, S, c, l, V. split; [exact NE|]. split; [exact ON|]. split; [exact (ok_signal _ _ _ _ _ _ _ HL Hp O')|]. split; [exact P1|]. split; [exact P2|exact P3].
    + intros i Hi. rewrite M3. rewrite (nth_map2 _ _ _ _ 0 0) by (rewrite ?firstn_length; lia). rewrite nth_firstn by lia. rewrite No by lia. reflexivity.
    + intros i Hi. cbn [sb_prev_out]. rewrite nth_skipn. apply No. lia.
Qed.
Lemma noise_estimates_app : forall x b T E S c, length x = (T * h)%nat -> noise_estimates h skip L thresh x T E S c -> noise_estimates h skip L thresh (x ++ b) T E S c.
Proof.
  intros x b T E S c Lx (N1 & N2 & N3). split; [exact N1|]. split; [|exact N3]. intros u Hu. unfold noise_frames. rewrite (block_frames_app h L skip Hh HL Hs x b u T Lx Hu). exact (N2 u Hu).
Qed.
Lemma signal_cov_app : forall x b t p q, length x = ((t + 1) * h)%nat -> signal_cov h skip L (x ++ b) t p q = signal_cov h skip L x t p q.
Proof. intros x b t p q Lx. unfold signal_cov. f_equal. apply bsum_ext. intros l _. destruct (Nat.leb_spec l t); [|reflexivity]. now rewrite (block_frames_app h L skip Hh HL Hs x b (t - l) (t + 1) Lx ltac:(lia)). Qed.
Lemma filter_at_app : forall x b t H, length x = ((t + 1) * h)%nat -> filter_at x t H -> filter_at (x ++ b) t H.
Proof.
  intros x b t H Lx (cn & csn & E & S & c & l & V & F1 & F2 & F3 & F4). exists cn, csn, E, S, c, l, V. split; [now apply noise_estimates_app|]. split; [exact F2|]. split; [|exact F4]. intros p q. rewrite signal_cov_app by auto. apply F3.
Qed.
Lemma frame_at_app : forall x b t j, length x = ((t + 1) * h)%nat -> (j < 2 * h)%nat -> frame_at h (x ++ b) t j = frame_at h x t j.
Proof. intros x b t j Lx Hj. unfold frame_at, delayed. rewrite app_assoc, app_nth1; [reflexivity|]. rewrite app_length, repeat_length. lia. Qed.
Lemma applied_ext : forall n H f g i, (forall j, (j < n)%nat -> f j = g j) -> applied n H f i = applied n H g i.
Proof. intros n H f g i E. apply bsum_ext. intros j Hj. now rewrite E. Qed.

Lemma run_spec : forall blocks x T s s' outs, inv x T s -> sub_run lstsq eig argsort pinv s blocks = Some (s', outs) ->
  let X := x ++ concat blocks in
  length outs = length blocks /\ Forall (fun b => length b = h) blocks /\ inv X (T + length blocks) s' /\ Forall (fun o => length o = h) outs /\ (blocks <> [] -> sb_out s' = last outs []) /\
  exists Hs : nat -> mat, (forall t, (t < length blocks)%nat -> filter_at X (T + t) (Hs t)) /\
    forall t i, (t < length blocks)%nat -> (i < h)%nat -> nth i (nth t outs []) 0 = sym_hann (2 * h) i * applied (2 * h) (Hs t) (frame_at h X (T + t)) i +
      match t with O => nth i (sb_prev_out s) 0 | S t' => sym_hann (2 * h) (h + i) * applied (2 * h) (Hs t') (frame_at h X (T + t')) (h + i) end.
Proof.
  induction blocks as [|b blocks IH]; intros x T s s' outs I Rn X.
  - cbn [sub_run] in Rn. apply some_inj in Rn. apply pair_equal_spec in Rn. destruct Rn as [<- <-]. unfold X. cbn [concat length]. rewrite app_nil_r, Nat.add_0_r. repeat split; auto; try congruence; try apply I. exists (fun _ => mzero). split; intros; lia.
  - cbn [sub_run] in Rn. destruct (sub_apply lstsq eig argsort pinv s b) as [[s1 o]|] eqn:A; [|discriminate]. cbn [bind fst snd] in Rn. destruct (sub_run lstsq eig argsort pinv s1 blocks) as [[s2 os]|] eqn:R2; [|discriminate]. cbn [bind fst snd] in Rn. apply some_inj in Rn. apply pair_equal_spec in Rn. destruct Rn as [<- <-].
    destruct (step_spec _ _ _ _ _ _ I A) as (Lb & I1 & So & Lo & H & F & P1 & P2). destruct (IH _ _ _ _ _ I1 R2) as (L1 & F1 & I2 & F2 & Sl & Hs' & G1 & G2). unfold X. cbn [concat length]. rewrite app_assoc. set (Y := (x ++ b) ++ concat blocks) in *.
    assert (LX : length (x ++ b) = ((T + 1) * h)%nat) by (destruct I1 as ((Q & _) & _); exact Q).
    split; [now rewrite L1|]. split; [now constructor|]. split; [now replace (T + S (length blocks))%nat with (T + 1 + length blocks)%nat by lia|]. split; [now constructor|]. split.
    { intros _. destruct blocks as [|b' blocks]; [|].
      - cbn [sub_run] in R2. apply some_inj in R2. apply pair_equal_spec in R2. destruct R2 as [<- <-]. exact So.
      - rewrite Sl by discriminate. destruct os as [|o' os]; [cbn in L1; lia|]. reflexivity. }
    exists (fun t => match t with O => H | S t' => Hs' t' end). assert (FA : forall i, applied (2 * h) H (frame_at h Y T) i = applied (2 * h) H (frame_at h (x ++ b) T) i) by (intros i; apply applied_ext; intros j Hj; apply frame_at_app; auto). split.
    + intros [|t] Ht; [rewrite Nat.add_0_r; now apply filter_at_app|]. replace (T + S t)%nat with (T + 1 + t)%nat by lia. apply G1. lia.
    + intros [|t] i Ht Hi; [rewrite Nat.add_0_r; cbn [nth]; rewrite P1, FA by auto; ring|]. cbn [nth]. replace (T + S t)%nat with (T + 1 + t)%nat by lia. rewrite G2 by lia. f_equal. destruct t as [|t]; [rewrite Nat.add_0_r, FA; apply P2; auto|]. now replace (T + S t)%nat with (T + 1 + t)%nat by lia.
Qed.
End Run.

(** C117, streaming: the results are the overlap-add, with a symmetric Hann window, of the frames of
    the signal, each multiplied by a filter that scales the eigenvectors of
    (noise covariance)^-1 (covariance) - I, computed for the estimates of that moment, by l/(l+mu) if
    the eigenvalue l is positive and by zero otherwise. *)
Theorem C117_stream : forall lstsq eig argsort pinv h mu L skip thresh s blocks s' outs,
  (forall n A l V, eig n A = Some (l, V) -> eigenpairs n A l V) -> sorts argsort -> inverts (2 * h) (pinv (2 * h)%nat) ->
  (1 <= h)%nat -> (1 <= L)%nat -> subspace_new (2 * h) mu L skip thresh = Some s -> sub_run lstsq eig argsort pinv s blocks = Some (s', outs) ->
  let x := concat blocks in
  length outs = length blocks /\ Forall (fun b => length b = h) blocks /\ Forall (fun o => length o = h) outs /\
  exists H : nat -> nat -> nat -> R,
    (forall t, (t < length blocks)%nat -> exists cn csn E S c, noise_estimates h skip L thresh x (t + 1) E S c /\ (forall p q, cn p q = E (t + 1)%nat p q) /\ (forall p q, csn p q = signal_cov h skip L x t p q) /\
       filters (2 * h) mu (fun i j => lstsq (2 * h)%nat cn csn i j - if Nat.eqb i j then 1 else 0) (H t)) /\
    forall t i, (t < length blocks)%nat -> (i < h)%nat -> nth i (nth t outs []) 0 =
      sym_hann (2 * h) i * applied (2 * h) (H t) (frame_at h x t) i + match t with O => 0 | S t' => sym_hann (2 * h) (h + i) * applied (2 * h) (H t') (frame_at h x t') (h + i) end.
Proof.
  intros lstsq eig argsort pinv h mu L skip thresh s blocks s' outs He Ha Hp Hh HL N Rn x. destruct (new_inv _ _ _ _ _ _ Hh HL N) as (Hs & O & M1 & M2 & M3 & M4).
  assert (I : inv h L skip thresh mu [] 0 s) by (split; [exact O|]; split; [exact M1|]; split; [unfold last_of; cbn [length skipn]; now rewrite app_nil_r|]; split; [rewrite M3; apply repeat_length|exact M4]).
  destruct (run_spec lstsq eig argsort pinv He Ha h L skip thresh mu Hh HL Hs blocks [] 0 s s' outs I Rn) as (G1 & G2 & _ & G3 & _ & H & G4 & G5). cbn [app] in G4, G5. fold x in G4, G5. split; [exact G1|]. split; [exact G2|]. split; [exact G3|]. exists H. split.
  - intros t Ht. destruct (G4 t Ht) as (cn & csn & E & S & c & l & V & F1 & F2 & F3 & F4 & F5 & _). exists cn, csn, E, S, c. split; [exact F1|]. split; [exact F2|]. split; [exact F3|]. exists l, V. split; [exact F4|]. exact (F5 Hp).
  - intros t i Ht Hi. rewrite (G5 t i Ht Hi). cbn [Nat.add]. f_equal. destruct t; [|reflexivity]. rewrite M3. apply nth_repeat.
Qed.
Print Assumptions C117_stream.

(** C117, one shot: apply_subspace cuts the signal in blocks, streams them and completes the result
    with zeros; the result has the length of the input. *)
Theorem C117_apply : forall lstsq eig argsort pinv x h mu L skip thresh y,
  (forall n A l V, eig n A = Some (l, V) -> eigenpairs n A l V) -> sorts argsort -> inverts (2 * h) (pinv (2 * h)%nat) -> (1 <= L)%nat ->
  apply_subspace lstsq eig argsort pinv x (2 * h) mu L skip thresh = Some y ->
  let K := (length x / h)%nat in
  length y = length x /\ (1 <= h)%nat /\ exists s s' outs, subspace_new (2 * h) mu L skip thresh = Some s /\
    sub_run lstsq eig argsort pinv s (map (fun j => map (fun i => nth (j * h + i) x 0) (seq 0 h)) (seq 0 K)) = Some (s', outs) /\
    (forall t i, (t < K)%nat -> (i < h)%nat -> nth (t * h + i) y 0 = nth i (nth t outs []) 0) /\ forall n, (K * h <= n)%nat -> nth n y 0 = 0.
Proof.
  intros lstsq eig argsort pinv x h mu L skip thresh y He Ha Hp HL A K. unfold apply_subspace in A. destruct (subspace_new (2 * h) mu L skip thresh) as [s|] eqn:N; [|discriminate]. cbn [bind] in A. assert (E2 : (2 * h / 2 = h)%nat) by (rewrite Nat.mul_comm; apply Nat.div_mul; lia). rewrite E2 in A.
  destruct (Nat.eqb_spec h 0) as [|Hn]; [discriminate|]. assert (Hh : (1 <= h)%nat) by lia. fold K in A. assert (HK : (K * h <= length x)%nat) by (unfold K; rewrite Nat.mul_comm; apply Nat.mul_div_le; lia).
  assert (EB : map (fun j => slice (j * h) h x) (seq 0 K) = map (fun j => map (fun i => nth (j * h + i) x 0) (seq 0 h)) (seq 0 K)).
  { apply map_ext_in. intros j Hj. apply in_seq in Hj. assert (j * h + h <= K * h)%nat by nia. unfold slice. apply nth_ext with (d := 0) (d' := 0); rewrite ?firstn_length, ?skipn_length, ?map_length, ?seq_length; [lia|]. intros i Hi. rewrite nth_firstn by lia. rewrite nth_skipn, nth_map_seq by lia. reflexivity. }
  rewrite EB in A. destruct (sub_run lstsq eig argsort pinv s _) as [[s' outs]|] eqn:Rn; [|discriminate]. cbn [bind snd] in A. apply some_inj in A. subst y.
  destruct (C117_stream lstsq eig argsort pinv h mu L skip thresh s _ s' outs He Ha Hp Hh HL N Rn) as (L1 & _ & F & _). rewrite map_length, seq_length in L1.
  assert (LC : forall (l : list vec), Forall (fun o => length o = h) l -> length (concat l) = (length l * h)%nat) by (intros l Hl; induction Hl as [|o l Ho Hl IH]; [reflexivity|]; cbn [concat length]; rewrite app_length, IH, Ho; lia).
  assert (NC : forall (l : list vec), Forall (fun o => length o = h) l -> forall t i, (t < length l)%nat -> (i < h)%nat -> nth (t * h + i) (concat l) 0 = nth i (nth t l []) 0).
  { intros l Hl. induction Hl as [|o l Ho Hl IH]; intros t i Ht Hi; [cbn in Ht; lia|]. cbn [concat]. destruct t as [|t]; [cbn [nth Nat.mul Nat.add]; apply app_nth1; lia|]. rewrite app_nth2 by nia. cbn [nth length] in *. replace (S t * h + i - length o)%nat with (t * h + i)%nat by nia. apply IH; lia. }
  split; [rewrite app_length, repeat_length, LC, L1 by auto; lia|]. split; [exact Hh|]. exists s, s', outs. split; [reflexivity|]. split; [exact Rn|]. split.
  - intros t i Ht Hi. assert (t * h + i < K * h)%nat by nia. rewrite app_nth1 by (rewrite LC, L1 by auto; lia). apply NC; auto. lia.
  - intros n Hn'. rewrite app_nth2 by (rewrite LC, L1 by auto; lia). apply nth_repeat.
Qed.
Print Assumptions C117_apply.

(** C117: for a positive mu the filter never amplifies an eigenvector, removes exactly those whose
    eigenvalue is not positive, and keeps more of those with larger eigenvalues. *)
Theorem C117_filter : forall lstsq eig argsort pinv s H, (forall n A l V, eig n A = Some (l, V) -> eigenpairs n A l V) -> sorts argsort -> inverts (sb_len s) (pinv (sb_len s)) -> 0 < sb_mu s ->
  compute_signal_projection lstsq eig argsort pinv s = Some H -> let n := sb_len s in
  exists l V g, eigenpairs n (fun i j => lstsq n (sb_cov_n s) (sb_cov_sn s) i j - if Nat.eqb i j then 1 else 0) l V /\
    (forall j, (j < n)%nat -> 0 <= g j < 1 /\ (g j = 0 <-> nth j l 0 <= 0)) /\ (forall i j, (i < n)%nat -> (j < n)%nat -> nth i l 0 <= nth j l 0 -> g i <= g j) /\
    (regular n V -> forall j k, (j < n)%nat -> (k < n)%nat -> bsum n (fun i => H i k * V i j) = g j * V k j).
Proof.
  intros lstsq eig argsort pinv s H He Ha Hp Hm P n. destruct (projection_spec lstsq eig argsort pinv He Ha s H P) as (l & V & P1 & P2 & _). exists l, V, (fun j => subspace_gain (sb_mu s) (nth j l 0)). split; [exact P1|].
  assert (G : forall v, 0 < v -> 0 < v / (v + sb_mu s) < 1). { intros v Hv. split; [apply Rdiv_lt_0_compat; lra|]. apply (Rmult_lt_reg_r (v + sb_mu s)); [lra|]. unfold Rdiv. rewrite Rmult_assoc, Rinv_l by lra. lra. }
  split; [|split; [|exact (P2 Hp)]].
  - intros j Hj. unfold subspace_gain. destruct (Rlt_dec 0 (nth j l 0)) as [Hl|Hl]; [|lra]. specialize (G _ Hl). lra.
  - intros i j Hi Hj Hij. unfold subspace_gain. destruct (Rlt_dec 0 (nth i l 0)) as [Hl|Hl], (Rlt_dec 0 (nth j l 0)) as [Hl'|Hl']; try lra.
    + set (a := nth i l 0) in *. set (b := nth j l 0) in *. set (m := sb_mu s) in *. clearbody a b m. apply (Rmult_le_reg_r ((a + m) * (b + m))); [apply Rmult_lt_0_compat; lra|]. replace (a / (a + m) * ((a + m) * (b + m))) with (a * (b + m)) by (field; lra). replace (b / (b + m) * ((a + m) * (b + m))) with (b * (a + m)) by (field; lra). nra.
    + specialize (G _ Hl'). lra.
Qed.
Print Assumptions C117_filter.

(** C117: what is rejected. *)
Theorem C117_rejects : forall lstsq eig argsort pinv frame_len mu L skip thresh,
  (Nat.odd frame_len = true -> subspace_new frame_len mu L skip thresh = None) /\
  (skip = 0%nat -> subspace_new frame_len mu L skip thresh = None) /\
  forall s b, subspace_new frame_len mu L skip thresh = Some s ->
    (length b <> (frame_len / 2)%nat -> sub_apply lstsq eig argsort pinv s b = None) /\
    (L = 0%nat \/ (frame_len / 2 < skip)%nat -> sub_apply lstsq eig argsort pinv s b = None).
Proof.
  intros lstsq eig argsort pinv n mu L skip thresh. unfold subspace_new. split; [now intros ->|]. split; [intros ->; destruct (Nat.odd n); reflexivity|]. intros s b E. destruct (Nat.odd n); [discriminate|]. destruct (Nat.eqb_spec skip 0); [discriminate|]. apply some_inj in E. subst s. unfold sub_apply. cbn [sb_hop]. split.
  - intros Hb. destruct (Nat.eqb_spec (length b) (n / 2)); [contradiction|reflexivity].
  - intros [->|Hs]; destruct (negb _); try reflexivity. unfold update_cov_matrices. cbn [sb_hist_sn sb_hist_n sb_nnoise sb_nframes]. rewrite (Nat.div_small (n / 2) skip) by exact Hs. rewrite Nat.mul_0_r. destruct L as [|L]; [reflexivity|]. cbn [repeat]. destruct (if Nat.eqb _ 0 then _ else _) as [nn c]. reflexivity.
Qed.
Print Assumptions C117_rejects.

(** C117, finding: the returned array is the internal buffer, so a client that keeps the results of
    its calls finds all of them overwritten by the last one. *)
Theorem C117_alias : forall lstsq eig argsort pinv h mu L skip thresh s blocks s' outs,
  (forall n A l V, eig n A = Some (l, V) -> eigenpairs n A l V) -> sorts argsort ->
  (1 <= h)%nat -> (1 <= L)%nat -> subspace_new (2 * h) mu L skip thresh = Some s -> sub_run lstsq eig argsort pinv s blocks = Some (s', outs) ->
  sub_kept lstsq eig argsort pinv s blocks = Some (repeat (last outs []) (length outs)).
Proof.
  intros lstsq eig argsort pinv h mu L skip thresh s blocks s' outs He Ha Hh HL N Rn. destruct (new_inv _ _ _ _ _ _ Hh HL N) as (Hs & O & M1 & M2 & M3 & M4).
  assert (I : inv h L skip thresh mu [] 0 s) by (split; [exact O|]; split; [exact M1|]; split; [unfold last_of; cbn [length skipn]; now rewrite app_nil_r|]; split; [rewrite M3; apply repeat_length|exact M4]).
  destruct (run_spec lstsq eig argsort pinv He Ha h L skip thresh mu Hh HL Hs blocks [] 0 s s' outs I Rn) as (G1 & _ & _ & _ & G2 & _). unfold sub_kept. rewrite Rn. cbn [bind fst]. f_equal. destruct blocks as [|b blocks]; [destruct outs; [reflexivity|discriminate]|]. rewrite G2 by discriminate. rewrite G1. generalize (last outs []). clear. intros v. induction (b :: blocks) as [|a l IH]; [reflexivity|]. cbn [map length repeat]. now rewrite IH.
Qed.
Print Assumptions C117_alias.

(** C117, finding: if the frames below the threshold are silent, as in a signal without background
    noise, the result is silent, however loud the signal. *)
Theorem C117_mute : forall lstsq eig argsort pinv h mu L skip thresh s blocks s' outs,
  (forall n A l V, eig n A = Some (l, V) -> eigenpairs n A l V) -> sorts argsort ->
  (forall A B, (forall i j, (i < 2 * h)%nat -> (j < 2 * h)%nat -> A i j = 0) -> forall i j, (i < 2 * h)%nat -> (j < 2 * h)%nat -> lstsq (2 * h)%nat A B i j = 0) ->
  (1 <= h)%nat -> (1 <= L)%nat -> subspace_new (2 * h) mu L skip thresh = Some s -> sub_run lstsq eig argsort pinv s blocks = Some (s', outs) ->
  (forall t f, (t < length blocks)%nat -> In f (noise_frames h skip thresh (concat blocks) t) -> forall i, nth i f 0 = 0) ->
  forall t, (t < length blocks)%nat -> nth t outs [] = repeat 0 h.
Proof.
  intros lstsq eig argsort pinv h mu L skip thresh s blocks s' outs He Ha Hl Hh HL N Rn Z. destruct (new_inv _ _ _ _ _ _ Hh HL N) as (Hs & O & M1 & M2 & M3 & M4).
  assert (I : inv h L skip thresh mu [] 0 s) by (split; [exact O|]; split; [exact M1|]; split; [unfold last_of; cbn [length skipn]; now rewrite app_nil_r|]; split; [rewrite M3; apply repeat_length|exact M4]).
  destruct (run_spec lstsq eig argsort pinv He Ha h L skip thresh mu Hh HL Hs blocks [] 0 s s' outs I Rn) as (G1 & _ & _ & G3 & _ & H & G4 & G5). cbn [app] in G4, G5. set (x := concat blocks) in *.
  assert (HZ : forall t, (t < length blocks)%nat -> forall i k, H t i k = 0).
  { intros t Ht. destruct (G4 t Ht) as (cn & csn & E & S & c & l & V & (N1 & N2 & N3) & F2 & _ & (_ & F4) & _ & F5). apply F5. cbn [Nat.add] in *. clear F5.
    assert (EZ : forall u, (u <= t + 1)%nat -> forall p q, E u p q = 0).
    { intros u. induction u as [u IH] using lt_wf_ind. intros Hu p q. destruct u as [|u]; [apply N1|]. rewrite <- Nat.add_1_r. destruct (N3 u ltac:(lia) p q) as [_ ->]. apply Rmult_eq_0_compat_r. apply bsum_zero_ext. intros m _. destruct (Nat.leb_spec m u); [|reflexivity]. destruct (N2 (u - m)%nat ltac:(lia)) as [A B]. specialize (Z (u - m)%nat). destruct (noise_frames h skip thresh x (u - m)) as [|f fs] eqn:Ef.
      - destruct (A eq_refl) as [_ ->]. apply IH; lia.
      - destruct (B ltac:(discriminate)) as [_ ->]. apply bsum_zero_ext. intros k Hk. rewrite (Z (nth k (f :: fs) [])); [ring|lia|now apply nth_In]. }
    intros j Hj. destruct (F4 j Hj) as ((i & Hi & Hv) & F6). specialize (F6 i Hi). rewrite (bsum_delta (2 * h) i) in F6; [|exact Hi|].
    - unfold msub, eye in F6. rewrite Nat.eqb_refl, (Hl cn csn) in F6; [|intros; rewrite F2; apply EZ; lia|exact Hi|exact Hi]. assert (EV : (nth j l 0 + 1) * V i j = 0) by lra. apply Rmult_integral in EV. destruct EV; [lra|contradiction].
    - intros k Hk Hne. unfold msub, eye. rewrite (Hl cn csn); [|intros; rewrite F2; apply EZ; lia|exact Hi|exact Hk]. destruct (Nat.eqb_spec i k); [congruence|ring]. }
  assert (AZ : forall t i f, (t < length blocks)%nat -> applied (2 * h) (H t) f i = 0) by (intros t i f Ht; apply bsum_zero_ext; intros j _; rewrite HZ by auto; ring).
  intros t Ht. rewrite Forall_forall in G3. apply nth_ext with (d := 0) (d' := 0); [rewrite repeat_length; apply G3, nth_In; lia|]. intros i Hi. rewrite (G3 (nth t outs [])) in Hi by (apply nth_In; lia). rewrite G5, nth_repeat by auto. rewrite AZ by auto. destruct t; [rewrite M3, nth_repeat; ring|]. rewrite AZ by lia. ring.
Qed.
Print Assumptions C117_mute.

(** C117, finding: when [skip] does not divide the hop more than [hop // skip] frames are summed, and
    the "average" is not one: a constant signal of ones has a covariance of twos. *)
Theorem C117_count_refuted : exists s s', subspace_new 6 1 1 2 (/ 100) = Some s /\
  foldM update_cov_matrices (repeat (repeat 1 3) 3) s = Some s' /\ (forall p q, (p < 6)%nat -> (q < 6)%nat -> sb_cov_sn s' p q = 2).
Proof.
  destruct (subspace_new 6 1 1 2 (/ 100)) as [s|] eqn:N; [|discriminate]. exists s. destruct (new_inv 3 1 1 2 (/ 100) s ltac:(lia) ltac:(lia) N) as (_ & O & _).
  assert (H1 : (1 <= 3)%nat) by lia. assert (H2 : (1 <= 1)%nat) by lia. assert (H3 : (1 <= 2)%nat) by lia. assert (H4 : (0 < 3 / 2)%nat) by (cbn; lia).
  destruct (update_ok 3 1 2 (/ 100) H1 H2 H3 _ _ s (repeat 1 3) O eq_refl H4) as (s1 & U1 & O1 & _). destruct (update_ok 3 1 2 (/ 100) H1 H2 H3 _ _ s1 (repeat 1 3) O1 eq_refl H4) as (s2 & U2 & O2 & _). destruct (update_ok 3 1 2 (/ 100) H1 H2 H3 _ _ s2 (repeat 1 3) O2 eq_refl H4) as (s3 & U3 & O3 & _).
  exists s3. split; [reflexivity|]. split; [cbn [repeat foldM]; cbn [repeat] in U1, U2, U3; rewrite U1; cbn [bind]; rewrite U2; cbn [bind]; rewrite U3; reflexivity|].
  intros p q Hp Hq. change (0 + 1 + 1 + 1)%nat with (2 + 1)%nat in O3. rewrite (ok_signal 3 1 2 (/ 100) _ 2 s3 H2 H4 O3). unfold signal_cov. cbn [bsum]. 
  change (0 <=? 2)%nat with true. change (block_frames 3 2 _ (2 - 0)) with [[1;1;1;1;1;1];[1;1;1;1;1;1]]. change (1 * (3 / 2))%nat with 1%nat. unfold products. cbn [length bsum INR]. change (nth 0 [[1; 1; 1; 1; 1; 1]; [1; 1; 1; 1; 1; 1]] []) with [1; 1; 1; 1; 1; 1]. change (nth 1 [[1; 1; 1; 1; 1; 1]; [1; 1; 1; 1; 1; 1]] []) with [1; 1; 1; 1; 1; 1].
  assert (P : forall i, (i < 6)%nat -> nth i [1; 1; 1; 1; 1; 1] 0 = 1) by (intros i Hi; do 6 (destruct i as [|i]; [reflexivity|]); lia). rewrite !P by auto. field.
Qed.
Print Assumptions C117_count_refuted.

(** Cases: linear algebra that handles multiples of the identity. *)
Definition case_eig (n : nat) (A : mat) : option (vec * mat) :=
  if forallb (fun i => forallb (fun j => if Req_EM_T (A i j) (if Nat.eqb i j then A 0%nat 0%nat else 0) then true else false) (seq 0 n)) (seq 0 n) then Some (repeat (A 0%nat 0%nat) n, eye) else None.
Definition case_lstsq (c : R) (n : nat) (A B : mat) : mat := fun i j => if Nat.eqb i j then c else 0.
Definition case_pinv (n : nat) (A : mat) : mat := fun i j =>
  (if Nat.eqb i j then A (1 - i)%nat (1 - j)%nat else - A i j) / (A 0%nat 0%nat * A 1%nat 1%nat - A 0%nat 1%nat * A 1%nat 0%nat).
Lemma case_eig_ok : forall n A l V, case_eig n A = Some (l, V) -> eigenpairs n A l V.
Proof.
  intros n A l V E. unfold case_eig in E. destruct (forallb _ _) eqn:F; [|discriminate]. apply some_inj in E. apply pair_equal_spec in E. destruct E as [<- <-].
  assert (EA : forall i j, (i < n)%nat -> (j < n)%nat -> A i j = if Nat.eqb i j then A 0%nat 0%nat else 0).
  { intros i j Hi Hj. rewrite forallb_forall in F. specialize (F i ltac:(apply in_seq; lia)). rewrite forallb_forall in F. specialize (F j ltac:(apply in_seq; lia)). destruct (Req_EM_T _ _); [assumption|discriminate]. }
  clear F. split; [apply repeat_length|]. intros j Hj. split; [exists j; split; [exact Hj|]; unfold eye; rewrite Nat.eqb_refl; lra|]. intros i Hi. rewrite (bsum_delta n j); [|exact Hj|].
  - rewrite EA by auto. unfold eye. rewrite Nat.eqb_refl. rewrite (nth_indep _ 0 (A 0%nat 0%nat)) by (rewrite repeat_length; auto). rewrite nth_repeat. destruct (Nat.eqb i j); ring.
  - intros k Hk Hne. unfold eye. destruct (Nat.eqb_spec k j); [congruence|ring].
Qed.
Lemma case_sorts : sorts some_argsort.
Proof.
  intros l. destruct (some_argsort_ok l) as [P H]. split; [exact P|]. apply (nth_ssorted (fun a b => nth a l 0 <= nth b l 0) _ 0%nat). intros i j Hij. rewrite (Permutation_length P), seq_length in Hij. now apply H.
Qed.
Lemma case_pinv_ok : inverts 2 (case_pinv 2).
Proof.
  intros A (B & HB). assert (D : A 0%nat 0%nat * A 1%nat 1%nat - A 0%nat 1%nat * A 1%nat 0%nat <> 0).
  { pose proof (proj1 (HB 0%nat 0%nat ltac:(lia) ltac:(lia))) as H00. pose proof (proj1 (HB 0%nat 1%nat ltac:(lia) ltac:(lia))) as H01. pose proof (proj1 (HB 1%nat 0%nat ltac:(lia) ltac:(lia))) as H10. pose proof (proj1 (HB 1%nat 1%nat ltac:(lia) ltac:(lia))) as H11. cbn [bsum Nat.eqb] in *. intros Z.
    assert (E : (A 0%nat 0%nat * A 1%nat 1%nat - A 0%nat 1%nat * A 1%nat 0%nat) * (B 0%nat 0%nat * B 1%nat 1%nat - B 0%nat 1%nat * B 1%nat 0%nat) = (0 + A 0%nat 0%nat * B 0%nat 0%nat + A 0%nat 1%nat * B 1%nat 0%nat) * (0 + A 1%nat 0%nat * B 0%nat 1%nat + A 1%nat 1%nat * B 1%nat 1%nat) - (0 + A 0%nat 0%nat * B 0%nat 1%nat + A 0%nat 1%nat * B 1%nat 1%nat) * (0 + A 1%nat 0%nat * B 0%nat 0%nat + A 1%nat 1%nat * B 1%nat 0%nat)) by ring.
    rewrite Z, H00, H01, H10, H11 in E. lra. }
  intros i j Hi Hj. assert (Hi' : i = 0%nat \/ i = 1%nat) by lia. assert (Hj' : j = 0%nat \/ j = 1%nat) by lia. destruct Hi' as [-> | ->], Hj' as [-> | ->]; unfold case_pinv; cbn [bsum Nat.eqb Nat.sub]; split; field; exact D.
Qed.
Lemma case_runs : forall c h mu L skip thresh blocks x T s, (1 <= h)%nat -> (1 <= L)%nat -> (1 <= skip <= h)%nat -> mu <> 0 -> c - 1 + mu <> 0 -> inv h L skip thresh mu x T s -> Forall (fun b => length b = h) blocks ->
  exists r, sub_run (case_lstsq c) case_eig some_argsort case_pinv s blocks = Some r.
Proof.
  intros c h mu L skip thresh blocks. induction blocks as [|b blocks IH]; intros x T s Hh HL Hs Hm Hc I F; [eexists; reflexivity|]. inversion F as [|? ? Lb F']; subst.
  assert (A : exists r, sub_apply (case_lstsq c) case_eig some_argsort case_pinv s b = Some r).
  { destruct I as (O & I1 & I2 & I3 & I4). unfold sub_apply. pose proof O as (Lx & _ & O2 & _). rewrite O2, Nat.eqb_refl. cbn [negb]. assert (Hp : (0 < length b / skip)%nat) by (apply Nat.div_str_pos; lia). assert (Hs1 : (1 <= skip)%nat) by lia.
    destruct (update_ok (length b) L skip thresh Hh HL Hs1 x T s b O eq_refl Hp) as (s1 & U & O' & M1 & _). rewrite U. cbn [bind]. unfold compute_signal_projection. destruct (case_eig (sb_len s1) _) as [[l V]|] eqn:E.
    - cbn [bind fst snd]. destruct (mapM _ _) as [q|] eqn:Q; [eexists; reflexivity|]. exfalso. assert (G : forall (l' : list nat), exists q, mapM (fun i => let v := nth i l 0 in rdiv v (v + sb_mu s1)) l' = Some q).
      { unfold case_eig in E. destruct (forallb _ _); [|discriminate]. apply some_inj in E. apply pair_equal_spec in E. destruct E as [<- _]. intros l'. destruct (mapM_Some (fun i => let v := nth i (repeat (msub (case_lstsq c (sb_len s1) (sb_cov_n s1) (sb_cov_sn s1)) eye 0%nat 0%nat) (sb_len s1)) 0 in rdiv v (v + sb_mu s1)) l') as (q & Eq & _); [|exists q; exact Eq]. intros i _. cbv zeta. set (v := nth i _ 0). assert (Hv : v + sb_mu s1 <> 0).
        { rewrite M1, I1. unfold v. destruct (Nat.lt_ge_cases i (sb_len s1)); [|rewrite nth_overflow by (rewrite repeat_length; auto); lra]. rewrite (nth_indep _ 0 (msub (case_lstsq c (sb_len s1) (sb_cov_n s1) (sb_cov_sn s1)) eye 0%nat 0%nat)) by (rewrite repeat_length; auto). rewrite nth_repeat. unfold msub, case_lstsq, eye. cbn [Nat.eqb]. exact Hc. }
        unfold rdiv. destruct (Req_EM_T (v + sb_mu s1) 0); [contradiction|]. eexists. reflexivity. }
      destruct (G (firstn (length (filter (fun l => if Rlt_dec 0 l then true else false) l)) (rev (some_argsort l)))) as [q E']. cbv zeta in Q. cbv zeta in E'. rewrite Q in E'. discriminate.
    - exfalso. unfold case_eig in E. destruct (forallb _ _) eqn:Fb; [discriminate|]. assert (Ft : forall n, forallb (fun i => forallb (fun j => if Req_EM_T (msub (case_lstsq c (sb_len s1) (sb_cov_n s1) (sb_cov_sn s1)) eye i j) (if Nat.eqb i j then msub (case_lstsq c (sb_len s1) (sb_cov_n s1) (sb_cov_sn s1)) eye 0%nat 0%nat else 0) then true else false) (seq 0 n)) (seq 0 n) = true).
      { intros n. apply forallb_forall. intros i _. apply forallb_forall. intros j _. unfold msub, case_lstsq, eye. change (Nat.eqb 0 0) with true. destruct (Req_EM_T _ _) as [|Ne]; [reflexivity|]. exfalso. apply Ne. destruct (Nat.eqb i j); ring. }
      rewrite Ft in Fb. discriminate. }
  destruct A as [[s1 o] A]. cbn [sub_run]. rewrite A. cbn [bind fst snd]. destruct (step_spec _ _ _ _ case_eig_ok case_sorts (length b) L skip thresh mu Hh HL ltac:(lia) _ _ _ _ _ _ I A) as (_ & I1 & _). destruct (IH _ _ s1 Hh HL Hs Hm Hc I1 F') as [q ->]. eexists. reflexivity.
Qed.
Lemma new_inv' : forall h mu L skip thresh s, (1 <= h)%nat -> (1 <= L)%nat -> subspace_new (2 * h) mu L skip thresh = Some s -> inv h L skip thresh mu [] 0 s.
Proof.
  intros h mu L skip thresh s Hh HL N. destruct (new_inv _ _ _ _ _ _ Hh HL N) as (Hs & O & M1 & M2 & M3 & M4). split; [exact O|]. split; [exact M1|]. split; [unfold last_of; cbn [length skipn]; now rewrite app_nil_r|]. split; [rewrite M3; apply repeat_length|exact M4].
Qed.
(** A run of two blocks meeting the hypotheses of C117_stream, with gains 2/(2+1). *)
Example C117_stream_case : exists s s' outs, (forall n A l V, case_eig n A = Some (l, V) -> eigenpairs n A l V) /\ sorts some_argsort /\ inverts 2 (case_pinv 2) /\
  subspace_new 2 1 2 1 (/ 100) = Some s /\ sub_run (case_lstsq 3) case_eig some_argsort case_pinv s [[1]; [-2]] = Some (s', outs).
Proof.
  destruct (subspace_new 2 1 2 1 (/ 100)) as [s|] eqn:N; [|discriminate]. pose proof (new_inv' 1 1 2 1 (/ 100) s ltac:(lia) ltac:(lia) N) as I.
  destruct (case_runs 3 1 1 2 1 (/ 100) [[1]; [-2]] [] 0 s ltac:(lia) ltac:(lia) ltac:(lia) ltac:(lra) ltac:(lra) I) as [[s' outs] E]; [repeat constructor|]. exists s, s', outs. split; [exact case_eig_ok|]. split; [exact case_sorts|]. split; [exact case_pinv_ok|]. split; [reflexivity|exact E].
Qed.
(** A run meeting the hypotheses of C117_mute: an alternating signal of amplitude 1 with a small
    threshold; the only frame below the threshold is the silence before the signal. *)
Example C117_mute_case : exists s s' outs, subspace_new 4 2 1 1 (/ 100) = Some s /\
  sub_run (case_lstsq 0) case_eig some_argsort case_pinv s [[1; -1]; [1; -1]; [1; -1]] = Some (s', outs) /\ forall t, (t < 3)%nat -> nth t outs [] = [0; 0].
Proof.
  destruct (subspace_new 4 2 1 1 (/ 100)) as [s|] eqn:N; [|discriminate]. pose proof (new_inv' 2 2 1 1 (/ 100) s ltac:(lia) ltac:(lia) N) as I.
  destruct (case_runs 0 2 2 1 1 (/ 100) [[1; -1]; [1; -1]; [1; -1]] [] 0 s ltac:(lia) ltac:(lia) ltac:(lia) ltac:(lra) ltac:(lra) I) as [[s' outs] E]; [repeat constructor|]. exists s, s', outs. split; [reflexivity|]. split; [exact E|].
  apply (C117_mute (case_lstsq 0) case_eig some_argsort case_pinv 2 2 1 1 (/ 100) s [[1; -1]; [1; -1]; [1; -1]] s' outs case_eig_ok case_sorts); auto; try lia.
  - intros A B _ i j _ _. unfold case_lstsq. destruct (Nat.eqb i j); reflexivity.
  - intros t f Ht Hf i. unfold noise_frames in Hf. apply filter_In in Hf. destruct Hf as [Hf He]. assert (Ht' : (t = 0 \/ t = 1 \/ t = 2)%nat) by (cbn in Ht; lia).
    destruct Ht' as [-> | [-> | ->]]; cbv [block_frames past_frame map seq Nat.div Nat.divmod fst snd Nat.add Nat.sub Nat.mul delayed repeat app concat nth] in Hf; cbn [In] in Hf; destruct Hf as [<- | [<- | []]]; try (do 5 (destruct i as [|i]; [reflexivity|]); reflexivity);
      exfalso; (destruct (Rlt_dec _ _) as [Lt|]; [|discriminate]); unfold energy in Lt; cbn [length bsum nth INR] in Lt; apply (Rlt_not_le _ _ Lt); lra.
Qed.
