(** C146: coherent signal subspaces (CSSM and WAVES). *)
From Coq Require Import List ZArith Lia Reals Lra Bool.
From Verif Require AuxivaProofs GlRun.
From Verif Require Import Base Sum Cpx ModeModel ModeProps BandsModel DoaModel SrpProps GridModel GridProps MusicProps CssmModel BaseProofs.
Import ListNotations.
Local Open Scope R_scope.

(** ** Specification *)
(** numpy.linalg.inv *)
Definition inv_ok (M : nat) (inv : cmat -> option cmat) : Prop := forall A V, inv A = Some V -> forall i j, (i < M)%nat -> (j < M)%nat -> csum M (fun q => Cmul (V i q) (A q j)) = delta i j.
(** the left singular vectors, by descending singular value, of a matrix with [J] columns *)
Definition is_svd (M J : nat) (Z u : cmat) : Prop :=
  (forall p q, (p < M)%nat -> (q < M)%nat -> cip M (fun i => u i p) (fun i => u i q) = delta p q) /\
  (forall i j, (i < M)%nat -> (j < M)%nat -> csum M (fun q => Cmul (u i q) (Conj (u j q))) = delta i j) /\
  exists s : nat -> R, (forall i q, (i < M)%nat -> (q < M)%nat -> csum M (fun j => Cmul (csum J (fun c => Cmul (Z i c) (Conj (Z j c)))) (u j q)) = Cmul (RtoC (s q)) (u i q)) /\
    forall p q, (p <= q)%nat -> (q < M)%nat -> s q <= s p.
(** the steering vectors at bin [k] of the directions [ds] *)
Definition steer (mode : nat -> nat -> nat -> C) (k : nat) (ds : list nat) : nat -> nat -> C := fun i p => mode k i (nth p ds 0%nat).
(** at bin [k] the signals are those of sources in the directions [ds], not fully correlated, in white noise *)
Definition from_sources (M S : nat) (mode X : nat -> nat -> nat -> C) (ds : list nat) (k : nat) (sigma2 : R) : Prop :=
  exists P, source_covariance M (length ds) (covariance S X k) (steer mode k ds) P sigma2 /\ positive_definite (length ds) P.
(** no other grid point has a steering vector in the span of those of [ds] *)
Definition unambiguous (M N : nat) (mode : nat -> nat -> nat -> C) (ds : list nat) (k : nat) : Prop :=
  independent M (length ds) (steer mode k ds) /\ forall n x, (n < N)%nat -> (forall i, (i < M)%nat -> mode k i n = csum (length ds) (fun p => Cmul (x p) (steer mode k ds i p))) -> In n ds.
(** infinite exactly at the sources *)
Definition found (N : nat) (ds : list nat) (vs : list (option R)) : Prop := length vs = N /\ forall n, (n < N)%nat -> nth n vs (Some 0) = None <-> In n ds.

(** ** Focusing *)
Section Focus.
Variables (M : nat) (mode : nat -> nat -> nat -> C) (inv : cmat -> option cmat).
Hypothesis Hinv : inv_ok M inv.
Lemma focusing_cols k f0 beta T : focusing M mode inv k f0 beta = Some T -> forall i p, (i < M)%nat -> (p < M)%nat -> csum M (fun m => Cmul (T i m) (with_identity mode k beta m p)) = with_identity mode f0 beta i p.
Proof.
  unfold focusing. destruct (Nat.ltb_spec M (length beta)); [discriminate|]. destruct (inv (with_identity mode k beta)) as [V|] eqn:E; [|discriminate]. cbn [bind]. intros HT i p Hi Hp. assert (HT' : T = fun i j => csum M (fun q => Cmul (with_identity mode f0 beta i q) (V q j))) by congruence. subst T.
  rewrite (csum_ext M _ (fun m => csum M (fun q => Cmul (with_identity mode f0 beta i q) (Cmul (V q m) (with_identity mode k beta m p))))) by (intros m _; rewrite <- csum_scal_r; apply csum_ext; intros; ring). rewrite csum_swap.
  rewrite (csum_ext M _ (fun q => Cmul (with_identity mode f0 beta i q) (delta q p))) by (intros q Hq; rewrite csum_scal; now rewrite (Hinv _ _ E q p Hq Hp)).
  rewrite (csum_delta M p); [unfold delta; rewrite Nat.eqb_refl; ring|exact Hp|]. intros q _ Hq. unfold delta. destruct (Nat.eqb_spec q p); [contradiction|ring].
Qed.
End Focus.
(** The focusing matrix of a bin turns the steering vectors of the peaks at this bin into those at the reference bin, and leaves the
    remaining unit vectors. *)
Theorem C146_focus : forall M mode inv k f0 beta T, inv_ok M inv -> focusing M mode inv k f0 beta = Some T -> (length beta <= M)%nat /\
  (forall i p, (i < M)%nat -> (p < length beta)%nat -> csum M (fun m => Cmul (T i m) (mode k m (nth p beta 0%nat))) = mode f0 i (nth p beta 0%nat)) /\
  forall i q, (i < M)%nat -> (length beta <= q)%nat -> (q < M)%nat -> T i q = if (i =? q)%nat then C1 else C0.
Proof.
  intros M mode inv k f0 beta T HI HT. assert (L : (length beta <= M)%nat) by (unfold focusing in HT; destruct (Nat.ltb_spec M (length beta)); [discriminate|lia]). split; [exact L|]. pose proof (focusing_cols M mode inv HI k f0 beta T HT) as F. split.
  - intros i p Hi Hp. specialize (F i p Hi ltac:(lia)). unfold with_identity in F. destruct (Nat.ltb_spec p (length beta)); [exact F|lia].
  - intros i q Hi Hb Hq. specialize (F i q Hi Hq). unfold with_identity in F. destruct (Nat.ltb_spec q (length beta)); [lia|]. rewrite <- F. rewrite (csum_delta M q); [rewrite Nat.eqb_refl; ring|exact Hq|]. intros m _ Hm. destruct (Nat.eqb_spec m q); [contradiction|ring].
Qed.
Print Assumptions C146_focus.

(** ** The spectrum *)
Lemma spectrum_none M N mode Q (F : nat -> nat -> C) k n : (n < N)%nat ->
  nth n (spectrum M N mode (fun i j => csum Q (fun q => Cmul (F i q) (Conj (F j q)))) k) (Some 0) = None <-> forall q, (q < Q)%nat -> cip M (fun i => F i q) (fun i => mode k i n) = C0.
Proof.
  intros Hn. unfold spectrum. rewrite nth_map_seq by exact Hn.
  assert (E : csum M (fun i => Cmul (Conj (mode k i n)) (csum M (fun j => Cmul (csum Q (fun q => Cmul (F i q) (Conj (F j q)))) (mode k j n)))) = RtoC (bsum Q (fun q => Cabs2 (cip M (fun i => F i q) (fun i => mode k i n))))).
  { transitivity (csum M (fun i => csum Q (fun q => Cmul (Cmul (Conj (mode k i n)) (F i q)) (cip M (fun i => F i q) (fun i => mode k i n))))).
    - apply csum_ext. intros i Hi. rewrite (csum_ext M _ (fun j => csum Q (fun q => Cmul (Cmul (F i q) (Conj (F j q))) (mode k j n)))) by (intros j _; now rewrite csum_scal_r). rewrite csum_swap, <- csum_scal. apply csum_ext. intros q _. unfold cip. rewrite <- !csum_scal. apply csum_ext. intros j _. ring.
    - rewrite csum_swap, <- csum_RtoC. apply csum_ext. intros q _. rewrite csum_scal_r. rewrite <- Cmul_conj, cip_conj. unfold cip. ring. }
  cbv zeta. rewrite E. assert (NN : 0 <= bsum Q (fun q => Cabs2 (cip M (fun i => F i q) (fun i => mode k i n)))) by (apply bsum_nonneg; intros; apply Cabs2_nonneg). rewrite Cabs_RtoC by exact NN. destruct (Req_EM_T _ 0) as [Z|Z].
  - split; [|reflexivity]. intros _ q Hq. apply Cabs2_zero. exact (AuxivaProofs.bsum_zero_each Q (fun q => Cabs2 (cip M (fun i => F i q) (fun i => mode k i n))) (fun _ => Cabs2_nonneg _) Z q Hq).
  - split; [discriminate|]. intros H. exfalso. apply Z. apply bsum_zero_ext. intros q Hq. rewrite H by exact Hq. unfold Cabs2, C0. cbn. ring.
Qed.
Lemma spectrum_length M N mode A k : length (spectrum M N mode A k) = N.
Proof. unfold spectrum. now rewrite map_length, seq_length. Qed.

(** ** Covariances of sources, focused *)
Lemma sandwich_sources M K T A a a0 P : (forall i p, (i < M)%nat -> (p < K)%nat -> csum M (fun m => Cmul (T i m) (a m p)) = a0 i p) -> source_covariance M K A a P 0 ->
  forall i l, (i < M)%nat -> (l < M)%nat -> sandwich M T A i l = csum K (fun p => csum K (fun q => Cmul (Cmul (a0 i p) (P p q)) (Conj (a0 l q)))).
Proof.
  intros HT HA i l Hi Hl. unfold sandwich.
  transitivity (csum M (fun p => csum M (fun q => csum K (fun r => csum K (fun s => Cmul (Cmul (Cmul (T i p) (a p r)) (P r s)) (Conj (Cmul (T l q) (a q s)))))))).
  - apply csum_ext. intros p Hp. apply csum_ext. intros q Hq. rewrite (HA p q Hp Hq). transitivity (Cmul (Cmul (T i p) (csum K (fun r => csum K (fun s => Cmul (Cmul (a p r) (P r s)) (Conj (a q s)))))) (Conj (T l q))).
    + unfold Cscal. destruct (delta p q). apply C_eq; cbn; ring.
    + rewrite <- csum_scal, <- csum_scal_r. apply csum_ext. intros r _. rewrite <- csum_scal, <- csum_scal_r. apply csum_ext. intros s _. rewrite Conj_mul. ring.
  - transitivity (csum K (fun r => csum K (fun s => csum M (fun p => csum M (fun q => Cmul (Cmul (Cmul (T i p) (a p r)) (P r s)) (Conj (Cmul (T l q) (a q s)))))))).
    + rewrite (csum_ext M _ (fun p => csum K (fun r => csum K (fun s => csum M (fun q => Cmul (Cmul (Cmul (T i p) (a p r)) (P r s)) (Conj (Cmul (T l q) (a q s)))))))) by (intros p _; rewrite csum_swap; apply csum_ext; intros r _; apply csum_swap). rewrite csum_swap. apply csum_ext. intros r _. apply csum_swap.
    + apply csum_ext. intros r Hr. apply csum_ext. intros s Hs. rewrite <- (HT i r Hi Hr), <- (HT l s Hl Hs). rewrite csum_conj. rewrite (csum_ext M _ (fun p => Cmul (Cmul (Cmul (T i p) (a p r)) (P r s)) (csum M (fun q => Conj (Cmul (T l q) (a q s)))))) by (intros p _; apply csum_scal). rewrite csum_scal_r. f_equal. now rewrite csum_scal_r.
Qed.
Lemma bsum_pos n f : (0 < n)%nat -> (forall i, (i < n)%nat -> 0 < f i) -> 0 < bsum n f.
Proof. intros Hn H. destruct n as [|n]; [lia|]. cbn [bsum]. assert (0 <= bsum n f) by (apply bsum_nonneg; intros i Hi; left; apply H; lia). specialize (H n ltac:(lia)). lra. Qed.
Lemma pd_sum K : forall n (P : nat -> nat -> nat -> C), (0 < n)%nat -> (forall j, (j < n)%nat -> positive_definite K (P j)) -> positive_definite K (fun p q => csum n (fun j => P j p q)).
Proof.
  intros n P Hn H x Nz. assert (E : csum K (fun p => csum K (fun q => Cmul (Cmul (Conj (x p)) (csum n (fun j => P j p q))) (x q))) = csum n (fun j => csum K (fun p => csum K (fun q => Cmul (Cmul (Conj (x p)) (P j p q)) (x q))))).
  { transitivity (csum K (fun p => csum n (fun j => csum K (fun q => Cmul (Cmul (Conj (x p)) (P j p q)) (x q))))).
    - apply csum_ext. intros p _. rewrite (csum_ext K _ (fun q => csum n (fun j => Cmul (Cmul (Conj (x p)) (P j p q)) (x q)))) by (intros q _; rewrite <- csum_scal, <- csum_scal_r; reflexivity). apply csum_swap.
    - apply csum_swap. }
  rewrite E. change (0 < bsum n (fun j => fst (csum K (fun p => csum K (fun q => Cmul (Cmul (Conj (x p)) (P j p q)) (x q)))))). apply bsum_pos; [exact Hn|]. intros j Hj. exact (H j Hj x Nz).
Qed.

(** ** The runs *)
Section Run.
Variables (M S N K : nat) (bins : list nat) (mode X : nat -> nat -> nat -> C) (peaks : list (option R) -> list nat) (argmax : list R -> nat) (inv : cmat -> option cmat) (eigh : cmat -> (nat -> R) * cmat) (svd : nat -> cmat -> cmat) (ds : list nat).
Hypothesis HK : (1 <= K)%nat.
Hypothesis Hds : length ds = K.
Hypothesis Hpk : forall j, (j < length bins)%nat -> peaks (first_guess M S N bins mode X j) = ds.
Lemma kept_all : kept M S N K bins mode X peaks = map (fun k => (k, ds)) bins.
Proof.
  unfold kept. transitivity (flat_map (fun j => [(nth j bins 0%nat, ds)]) (seq 0 (length bins))).
  - rewrite !flat_map_concat_map. f_equal. apply map_ext_in. intros j Hj. apply in_seq in Hj. rewrite Hpk by lia. cbv zeta. rewrite Hds, Nat.ltb_irrefl. reflexivity.
  - clear. generalize 0%nat at 1 as d. intros d. transitivity (map (fun j => (nth j bins d, ds)) (seq 0 (length bins))).
    + induction (seq 0 (length bins)) as [|j q IH]; [reflexivity|]. cbn [flat_map map app]. now f_equal.
    + apply nth_ext with (d := (d, ds)) (d' := (d, ds)); [now rewrite !map_length, seq_length|]. intros n Hn. rewrite map_length, seq_length in Hn. rewrite nth_map_seq by exact Hn. symmetry. apply (map_nth (fun k => (k, ds))).
Qed.
Lemma kept_bins_all : kept_bins M S N K bins mode X peaks = bins.
Proof. unfold kept_bins. rewrite kept_all, map_map. apply map_id. Qed.
Lemma betas_all : map snd (kept M S N K bins mode X peaks) = repeat ds (length bins).
Proof. rewrite kept_all, map_map. cbn [snd]. clear. induction bins; [reflexivity|]. cbn. now f_equal. Qed.
Lemma iterate_S values n f0 betas last : iterate M S N K bins mode X peaks values (Datatypes.S n) f0 betas last = bind (values f0 betas) (fun vs => iterate M S N K bins mode X peaks values n f0 (repeat (peaks vs) (length (kept_bins M S N K bins mode X peaks))) vs).
Proof. reflexivity. Qed.
Lemma iterate_found values f0 : (forall vs, found N ds vs -> peaks vs = ds) -> (forall vs, values f0 (repeat ds (length bins)) = Some vs -> found N ds vs) ->
  forall n last vs, iterate M S N K bins mode X peaks values (Datatypes.S n) f0 (repeat ds (length bins)) last = Some vs -> found N ds vs.
Proof.
  intros Hf Hv. induction n as [|n IH]; intros last vs H; rewrite iterate_S in H.
  - cbn [iterate] in H. destruct (values f0 (repeat ds (length bins))) as [v|] eqn:E; [|discriminate]. cbn [bind] in H. assert (v = vs) by congruence. subst. now apply Hv.
  - destruct (values f0 (repeat ds (length bins))) as [v|] eqn:E; [|discriminate]. cbn [bind] in H. rewrite kept_bins_all in H. rewrite (Hf v (Hv v eq_refl)) in H. apply (IH v vs). exact H.
Qed.
Hypothesis Hinv : inv_ok M inv.
Lemma focused f0 Ts : mapM (fun j => focusing M mode inv (nth j bins 0%nat) f0 (nth j (repeat ds (length bins)) [])) (seq 0 (length bins)) = Some Ts ->
  forall j, (j < length bins)%nat -> forall i p, (i < M)%nat -> (p < K)%nat -> csum M (fun m => Cmul (nth j Ts (fun _ _ => C0) i m) (steer mode (nth j bins 0%nat) ds m p)) = steer mode f0 ds i p.
Proof.
  intros H j Hj i p Hi Hp. destruct (GlRun.mapM_nth _ _ _ 0%nat (fun _ _ => C0) H) as [L Q]. rewrite seq_length in L, Q. specialize (Q j Hj). rewrite seq_nth in Q by exact Hj. cbn [plus] in Q. rewrite (nth_indep _ [] ds) in Q by now rewrite repeat_length. rewrite nth_repeat in Q.
  destruct (C146_focus M mode inv _ f0 ds _ Hinv Q) as (_ & F & _). apply F; [exact Hi|lia].
Qed.
Lemma cssm_found f0 vs : bins <> [] -> (forall k, In k bins -> from_sources M S mode X ds k 0) -> unambiguous M N mode ds f0 ->
  (forall R, coherent_sum M S N K bins mode X peaks inv f0 (repeat ds (length bins)) = Some R -> is_eigh M R (fst (eigh R)) (snd (eigh R))) ->
  cssm_values M S N K bins mode X peaks inv eigh f0 (repeat ds (length bins)) = Some vs -> found N ds vs.
Proof.
  intros HB HS [Ind Un] HE HV. unfold cssm_values in HV. destruct (coherent_sum _ _ _ _ _ _ _ _ _ _ _) as [R0|] eqn:E; [|discriminate]. specialize (HE R0 eq_refl). cbn [bind] in HV. set (e := snd (eigh R0)) in *.
  match type of HV with Some ?x = Some _ => assert (EV : vs = x) by congruence end. subst vs. split; [apply spectrum_length|]. intros n Hn. rewrite spectrum_none by exact Hn.
  unfold coherent_sum in E. rewrite kept_bins_all in E. destruct (mapM _ _) as [Ts|] eqn:ET in E; [|discriminate]. cbn [bind] in E. pose proof (focused f0 Ts ET) as HF.
  assert (PC : exists P : nat -> nat -> nat -> C, forall j, (j < length bins)%nat -> source_covariance M K (covariance S X (nth j bins 0%nat)) (steer mode (nth j bins 0%nat) ds) (P j) 0 /\ positive_definite K (P j)).
  { rewrite <- Hds. clear -HS. induction bins as [|b l IH]; [exists (fun _ _ _ => C0); cbn; intros; lia|]. destruct IH as [P HP]; [intros; apply HS; now right|]. destruct (HS b (or_introl eq_refl)) as [P0 H0]. exists (fun j => match j with O => P0 | Datatypes.S j => P j end). intros [|j] Hj; [exact H0|]. cbn in Hj |- *. apply HP. lia. }
  destruct PC as [P HP].
  assert (SC : source_covariance M K R0 (steer mode f0 ds) (fun p q => csum (length bins) (fun j => P j p q)) 0).
  { intros i l Hi Hl. assert (ER : R0 = fun i l => csum (length bins) (fun j => sandwich M (nth j Ts (fun _ _ => C0)) (C_hat S bins X j) i l)) by congruence. rewrite ER. clear ER.
    rewrite (csum_ext (length bins) _ (fun j => csum K (fun p => csum K (fun q => Cmul (Cmul (steer mode f0 ds i p) (P j p q)) (Conj (steer mode f0 ds l q)))))).
    - transitivity (csum K (fun p => csum K (fun q => csum (length bins) (fun j => Cmul (Cmul (steer mode f0 ds i p) (P j p q)) (Conj (steer mode f0 ds l q)))))); [rewrite csum_swap; apply csum_ext; intros p _; apply csum_swap|].
      transitivity (csum K (fun p => csum K (fun q => Cmul (Cmul (steer mode f0 ds i p) (csum (length bins) (fun j => P j p q))) (Conj (steer mode f0 ds l q))))); [apply csum_ext; intros p _; apply csum_ext; intros q _; rewrite csum_scal_r, csum_scal; reflexivity|]. unfold Cscal. destruct (delta i l). apply C_eq; cbn; ring.
    - intros j Hj. destruct (HP j Hj) as [HC _]. exact (sandwich_sources M K _ _ _ _ _ (HF j Hj) HC i l Hi Hl). }
  assert (PD : positive_definite K (fun p q => csum (length bins) (fun j => P j p q))) by (apply pd_sum; [destruct bins; [congruence|cbn; lia]|intros j Hj; apply HP, Hj]).
  assert (NN : n_noise M K = (M - K)%nat) by (unfold n_noise; destruct (Nat.eqb_spec K 0); [lia|reflexivity]). rewrite NN. rewrite Hds in Ind, Un. split.
  - intros Q. destruct (orthogonal_combination M K R0 _ _ 0 (fst (eigh R0)) e SC PD HE Ind (fun i => mode f0 i n) Q) as [x Hx]. exact (Un n x Hn Hx).
  - intros HI q Hq. destruct (In_nth ds n 0%nat HI) as (p & Hp & Ep). rewrite Hds in Hp. apply (combination_orthogonal M K R0 (steer mode f0 ds) _ 0 (fst (eigh R0)) e SC PD HE _ (fun r => delta p r)); [|exact Hq].
    intros i Hi. rewrite (csum_delta K p); [unfold delta, steer; rewrite Nat.eqb_refl, Ep; ring|exact Hp|]. intros r _ Hr. unfold delta. destruct (Nat.eqb_spec p r); [congruence|ring].
Qed.
(** *** WAVES *)
Lemma waves_found f0 sigma2 vs : bins <> [] -> (K < M)%nat -> 0 <= sigma2 -> (forall k, In k bins -> from_sources M S mode X ds k sigma2 /\ independent M K (steer mode k ds)) -> unambiguous M N mode ds f0 ->
  (forall j, (j < length bins)%nat -> is_eigh M (C_hat S bins X j) (fst (eigh (C_hat S bins X j))) (snd (eigh (C_hat S bins X j)))) ->
  (forall Z, waves_matrix M S N K bins mode X peaks inv eigh f0 (repeat ds (length bins)) = Some Z -> is_svd M (length bins * K) Z (svd (length bins * K)%nat Z)) ->
  waves_values M S N K bins mode X peaks inv eigh svd f0 (repeat ds (length bins)) = Some vs -> found N ds vs.
Proof.
  intros HB HKM HS2 HS [Ind Un] HE HSV HV. unfold waves_values in HV. rewrite kept_bins_all in HV. destruct (waves_matrix _ _ _ _ _ _ _ _ _ _ _) as [Z|] eqn:E; [|discriminate]. specialize (HSV Z eq_refl). cbn [bind] in HV. set (J := (length bins * K)%nat) in *. set (u := svd J Z) in *.
  match type of HV with Some ?x = Some _ => assert (EV : vs = x) by congruence end. subst vs. clear HV. split; [apply spectrum_length|]. intros n Hn.
  rewrite (spectrum_none M N mode (M - K) (fun i q => u i (K + q)%nat)) by exact Hn.
  unfold waves_matrix in E. rewrite kept_bins_all in E. destruct (mapM _ _) as [Ts|] eqn:ET in E; [|discriminate]. cbn [bind] in E. pose proof (focused f0 Ts ET) as HF.
  assert (NN : n_noise M K = (M - K)%nat) by (unfold n_noise; destruct (Nat.eqb_spec K 0); [lia|reflexivity]). rewrite NN in E. destruct (Nat.eqb_spec (M - K) 0); [lia|].
  set (w := fun j => fst (eigh (C_hat S bins X j))) in *. set (e := fun j => snd (eigh (C_hat S bins X j))) in *.
  (* each column is a combination of the steering vectors at the reference *)
  assert (PC : exists P : nat -> nat -> nat -> C, forall j, (j < length bins)%nat -> source_covariance M K (covariance S X (nth j bins 0%nat)) (steer mode (nth j bins 0%nat) ds) (P j) sigma2 /\ positive_definite K (P j) /\ independent M K (steer mode (nth j bins 0%nat) ds)).
  { rewrite <- Hds in HS |- *. clear -HS. induction bins as [|b l IH]; [exists (fun _ _ _ => C0); cbn; intros; lia|]. destruct IH as [P HP]; [intros; apply HS; now right|]. destruct (HS b (or_introl eq_refl)) as [[P0 [H0 H1]] H2]. exists (fun j => match j with O => P0 | Datatypes.S j => P j end). intros [|j] Hj; [auto|]. cbn in Hj |- *. apply HP. lia. }
  destruct PC as [P HP].
  set (c := fun j q p => csum K (fun r => Cmul (P j p r) (cip M (fun i => steer mode (nth j bins 0%nat) ds i r) (fun i => e j i q)))).
  set (mu := fun j q => w j q - sigma2). set (rho := fun j q => (w j q - w j (M - K - 1)%nat) / sqrt (w j q * w j (M - K - 1)%nat + 1)).
  assert (RE : forall j i q, (j < length bins)%nat -> (i < M)%nat -> (q < M)%nat -> Cmul (RtoC (mu j q)) (e j i q) = csum K (fun p => Cmul (steer mode (nth j bins 0%nat) ds i p) (c j q p))).
  { intros j i q Hj Hi Hq. destruct (HP j Hj) as (H1 & H2 & H3). exact (range_eq M K _ _ (P j) sigma2 (w j) (e j) H1 (HE j Hj) i q Hi Hq). }
  assert (MU : forall j q, (j < length bins)%nat -> (M - K <= q)%nat -> (q < M)%nat -> 0 < mu j q).
  { intros j q Hj Hq1 Hq2. destruct (HP j Hj) as (H1 & H2 & H3). exact (signal_positive M K _ _ (P j) sigma2 (w j) (e j) H1 H2 (HE j Hj) H3 q Hq1 Hq2). }
  assert (W0 : forall j, (j < length bins)%nat -> w j (M - K - 1)%nat = sigma2).
  { intros j Hj. destruct (HP j Hj) as (H1 & H2 & H3). pose proof (mu_form M K _ _ (P j) sigma2 (w j) (e j) H1 (HE j Hj) (M - K - 1) ltac:(lia)) as Q. rewrite csum_zero_ext in Q; [cbn in Q; lra|]. intros p Hp. apply csum_zero_ext. intros r Hr. rewrite (noise_orthogonal M K _ _ (P j) sigma2 (w j) (e j) H1 H2 (HE j Hj) (M - K - 1) ltac:(lia) r Hr). ring. }
  assert (RHO : forall j q, (j < length bins)%nat -> (M - K <= q)%nat -> (q < M)%nat -> 0 < rho j q).
  { intros j q Hj Hq1 Hq2. pose proof (MU j q Hj Hq1 Hq2) as Q. unfold mu in Q. unfold rho. rewrite W0 by exact Hj. apply Rdiv_lt_0_compat; [exact Q|]. apply sqrt_lt_R0. assert (0 <= w j q * sigma2) by (apply Rmult_le_pos; lra). lra. }
  set (D := fun j q p => Cmul (RtoC (rho j q / mu j q)) (c j q p)).
  assert (TE : forall j i q, (j < length bins)%nat -> (i < M)%nat -> (M - K <= q)%nat -> (q < M)%nat -> Cmul (csum M (fun m => Cmul (nth j Ts (fun _ _ => C0) i m) (e j m q))) (RtoC (rho j q)) = csum K (fun p => Cmul (steer mode f0 ds i p) (D j q p))).
  { intros j i q Hj Hi Hq1 Hq2. pose proof (MU j q Hj Hq1 Hq2) as Pq.
    assert (T1 : Cmul (RtoC (mu j q)) (csum M (fun m => Cmul (nth j Ts (fun _ _ => C0) i m) (e j m q))) = csum K (fun p => Cmul (steer mode f0 ds i p) (c j q p))).
    { rewrite <- csum_scal. transitivity (csum M (fun m => csum K (fun p => Cmul (Cmul (nth j Ts (fun _ _ => C0) i m) (steer mode (nth j bins 0%nat) ds m p)) (c j q p)))).
      - apply csum_ext. intros m Hm. transitivity (Cmul (nth j Ts (fun _ _ => C0) i m) (Cmul (RtoC (mu j q)) (e j m q))); [ring|]. rewrite RE by auto. rewrite <- csum_scal. apply csum_ext. intros p _. ring.
      - rewrite csum_swap. apply csum_ext. intros p Hp. rewrite csum_scal_r. now rewrite HF. }
    transitivity (Cmul (RtoC (rho j q / mu j q)) (Cmul (RtoC (mu j q)) (csum M (fun m => Cmul (nth j Ts (fun _ _ => C0) i m) (e j m q))))).
    - match goal with |- Cmul ?x _ = _ => destruct x as [xa xb] end. unfold RtoC. apply C_eq; cbn; field; lra.
    - rewrite T1, <- csum_scal. apply csum_ext. intros p _. unfold D. ring. }
  set (jc := fun cc => (cc / K)%nat). set (qc := fun cc => (M - K + cc mod K)%nat).
  assert (IX : forall cc, (cc < J)%nat -> (jc cc < length bins)%nat /\ (M - K <= qc cc)%nat /\ (qc cc < M)%nat).
  { intros cc Hc. unfold jc, qc, J in *. pose proof (Nat.mod_upper_bound cc K ltac:(lia)). split; [apply Nat.div_lt_upper_bound; lia|lia]. }
  assert (ZC : forall i cc, (i < M)%nat -> (cc < J)%nat -> Z i cc = csum K (fun p => Cmul (steer mode f0 ds i p) (D (jc cc) (qc cc) p))).
  { intros i cc Hi Hc. destruct (IX cc Hc) as (I1 & I2 & I3). rewrite <- TE by auto. match type of E with Some ?x = Some _ => assert (EZ : Z = x) by congruence end. rewrite EZ. cbv zeta. fold (jc cc) (qc cc). unfold rho, w, e. change (cc / K)%nat with (jc cc). destruct (eigh (C_hat S bins X (jc cc))) as [ww ee]. cbn [fst snd]. reflexivity. }
  clear E.
  set (PP := fun p r => csum J (fun cc => Cmul (D (jc cc) (qc cc) p) (Conj (D (jc cc) (qc cc) r)))).
  assert (SC : source_covariance M K (fun i l => csum J (fun cc => Cmul (Z i cc) (Conj (Z l cc)))) (steer mode f0 ds) PP 0).
  { intros i l Hi Hl. rewrite (csum_ext J _ (fun cc => csum K (fun p => csum K (fun r => Cmul (Cmul (steer mode f0 ds i p) (Cmul (D (jc cc) (qc cc) p) (Conj (D (jc cc) (qc cc) r)))) (Conj (steer mode f0 ds l r)))))).
    - transitivity (csum K (fun p => csum K (fun r => csum J (fun cc => Cmul (Cmul (steer mode f0 ds i p) (Cmul (D (jc cc) (qc cc) p) (Conj (D (jc cc) (qc cc) r)))) (Conj (steer mode f0 ds l r)))))); [rewrite csum_swap; apply csum_ext; intros p _; apply csum_swap|].
      transitivity (csum K (fun p => csum K (fun r => Cmul (Cmul (steer mode f0 ds i p) (PP p r)) (Conj (steer mode f0 ds l r))))); [apply csum_ext; intros p _; apply csum_ext; intros r _; unfold PP; rewrite csum_scal_r, csum_scal; reflexivity|]. unfold Cscal. destruct (delta i l). apply C_eq; cbn; ring.
    - intros cc Hc. rewrite !ZC by auto. rewrite csum_conj, <- csum_scal_r. apply csum_ext. intros p _. rewrite <- csum_scal. apply csum_ext. intros r _. rewrite Conj_mul. ring. }
  assert (PD : positive_definite K PP).
  { intros x Nz.
    assert (Q : csum K (fun p => csum K (fun q => Cmul (Cmul (Conj (x p)) (PP p q)) (x q))) = RtoC (bsum J (fun cc => Cabs2 (csum K (fun p => Cmul (Conj (x p)) (D (jc cc) (qc cc) p)))))).
    { rewrite <- csum_RtoC. rewrite (csum_ext J _ (fun cc => csum K (fun p => csum K (fun q => Cmul (Cmul (Conj (x p)) (Cmul (D (jc cc) (qc cc) p) (Conj (D (jc cc) (qc cc) q)))) (x q))))).
      - symmetry. transitivity (csum K (fun p => csum K (fun r => csum J (fun cc => Cmul (Cmul (Conj (x p)) (Cmul (D (jc cc) (qc cc) p) (Conj (D (jc cc) (qc cc) r)))) (x r))))); [rewrite csum_swap; apply csum_ext; intros p _; apply csum_swap|]. apply csum_ext; intros p _; apply csum_ext; intros r _; unfold PP. rewrite csum_scal_r, csum_scal. reflexivity.
      - intros cc _. rewrite <- Cmul_conj, csum_conj, <- csum_scal_r. apply csum_ext. intros p _. rewrite <- csum_scal. apply csum_ext. intros r _. rewrite Conj_mul, Conj_conj. ring. }
    rewrite Q. cbn [RtoC fst]. match goal with |- 0 < ?b => assert (0 <= b) by (apply bsum_nonneg; intros; apply Cabs2_nonneg); destruct (Req_EM_T b 0) as [B0|B0]; [exfalso|lra] end.
    assert (XC : forall q, (q < K)%nat -> csum K (fun p => Cmul (Conj (x p)) (c 0%nat (M - K + q)%nat p)) = C0).
    { intros q Hq. assert (HJ : (q < J)%nat) by (unfold J; destruct bins; [congruence|cbn; lia]). pose proof (AuxivaProofs.bsum_zero_each J _ (fun _ => Cabs2_nonneg _) B0 q HJ) as Q0. cbv beta in Q0. apply Cabs2_zero in Q0. unfold jc, qc in Q0. rewrite Nat.div_small, Nat.mod_small in Q0 by exact Hq.
      assert (Hb : (0 < length bins)%nat) by (destruct bins; [congruence|cbn; lia]). pose proof (MU 0%nat (M - K + q)%nat Hb ltac:(lia) ltac:(lia)). pose proof (RHO 0%nat (M - K + q)%nat Hb ltac:(lia) ltac:(lia)). set (g := rho 0%nat (M - K + q)%nat / mu 0%nat (M - K + q)%nat) in *.
      assert (G0 : g <> 0) by (unfold g; apply Rgt_not_eq, Rdiv_lt_0_compat; assumption).
      assert (Q1 : Cmul (RtoC g) (csum K (fun p => Cmul (Conj (x p)) (c 0%nat (M - K + q)%nat p))) = C0). { rewrite <- csum_scal, <- Q0. apply csum_ext. intros p _. unfold D. fold g. ring. }
      apply C_integral in Q1; [exact Q1|]. intros W. injection W. lra. }
    (* K + 1 vectors of length K are dependent *)
    destruct (dependent K (Datatypes.S K) (fun j p => if (j <? K)%nat then c 0%nat (M - K + j)%nat p else x p) ltac:(lia)) as (al & (j0 & Hj0 & Nz0) & Dep).
    assert (Hb : (0 < length bins)%nat) by (destruct bins; [congruence|cbn; lia]).
    assert (Dep' : forall r, (r < K)%nat -> Cadd (csum K (fun j => Cmul (al j) (c 0%nat (M - K + j)%nat r))) (Cmul (al K) (x r)) = C0).
    { intros r Hr. specialize (Dep r Hr). rewrite csum_S in Dep. rewrite Nat.ltb_irrefl in Dep. rewrite <- Dep. f_equal. apply csum_ext. intros j Hj. destruct (Nat.ltb_spec j K); [reflexivity|lia]. }
    assert (AK : al K = C0).
    { assert (S1 : Cmul (al K) (csum K (fun r => Cmul (Conj (x r)) (x r))) = C0).
      { rewrite <- csum_scal. transitivity (csum K (fun r => Cmul (Conj (x r)) (Cadd (csum K (fun j => Cmul (al j) (c 0%nat (M - K + j)%nat r))) (Cmul (al K) (x r))))); [|apply csum_zero_ext; intros r Hr; rewrite Dep' by exact Hr; ring].
        symmetry. rewrite (csum_ext K _ (fun r => Cadd (csum K (fun j => Cmul (al j) (Cmul (Conj (x r)) (c 0%nat (M - K + j)%nat r)))) (Cmul (al K) (Cmul (Conj (x r)) (x r))))).
        - rewrite csum_add, csum_swap. rewrite (csum_zero_ext K (fun j => csum K (fun i => Cmul (al j) (Cmul (Conj (x i)) (c 0%nat (M - K + j)%nat i))))); [ring|]. intros j Hj. rewrite csum_scal, XC by exact Hj. ring.
        - intros r _. rewrite (csum_ext K (fun j => Cmul (al j) (Cmul (Conj (x r)) (c 0%nat (M - K + j)%nat r))) (fun j => Cmul (Conj (x r)) (Cmul (al j) (c 0%nat (M - K + j)%nat r)))) by (intros; ring). rewrite csum_scal. ring. }
      destruct (C_eq_dec (al K) C0) as [|NA]; [assumption|]. exfalso. apply (C_integral _ _ S1) in NA. change (cip K x x = C0) in NA. rewrite cip_self in NA. assert (B1 : bsum K (fun i => Cabs2 (x i)) = 0) by (apply (f_equal fst) in NA; exact NA). destruct Nz as (p & Hp & Np). apply Np. apply Cabs2_zero. exact (AuxivaProofs.bsum_zero_each K (fun i => Cabs2 (x i)) (fun _ => Cabs2_nonneg _) B1 p Hp). }
    assert (Hj0' : (j0 < K)%nat) by (destruct (Nat.eq_dec j0 K) as [->|]; [congruence|lia]). apply Nz0.
    assert (CO : forall i, (i < M)%nat -> csum K (fun j => Cmul (Cmul (al j) (RtoC (mu 0%nat (M - K + j)%nat))) (e 0%nat i (M - K + j)%nat)) = C0).
    { intros i Hi. rewrite (csum_ext K _ (fun j => csum K (fun p => Cmul (Cmul (al j) (c 0%nat (M - K + j)%nat p)) (steer mode (nth 0 bins 0%nat) ds i p)))).
      - rewrite csum_swap. apply csum_zero_ext. intros p Hp. rewrite csum_scal_r. pose proof (Dep' p Hp) as Q2. rewrite AK in Q2. replace (csum K (fun i0 => Cmul (al i0) (c 0%nat (M - K + i0)%nat p))) with C0; [ring|]. rewrite <- Q2. ring.
      - intros j Hj. transitivity (Cmul (al j) (Cmul (RtoC (mu 0%nat (M - K + j)%nat)) (e 0%nat i (M - K + j)%nat))); [ring|]. rewrite RE by (auto; lia). rewrite <- csum_scal. apply csum_ext. intros p _. ring. }
    destruct (HE 0%nat Hb) as (On & _). 
    assert (W : Cmul (al j0) (RtoC (mu 0%nat (M - K + j0)%nat)) = C0).
    { transitivity (csum M (fun i => Cmul (Conj (e 0%nat i (M - K + j0)%nat)) (csum K (fun j => Cmul (Cmul (al j) (RtoC (mu 0%nat (M - K + j)%nat))) (e 0%nat i (M - K + j)%nat))))); [|apply csum_zero_ext; intros i Hi; rewrite CO by exact Hi; ring].
      rewrite (csum_ext M _ (fun i => csum K (fun j => Cmul (Cmul (al j) (RtoC (mu 0%nat (M - K + j)%nat))) (Cmul (Conj (e 0%nat i (M - K + j0)%nat)) (e 0%nat i (M - K + j)%nat))))) by (intros i _; rewrite <- csum_scal; apply csum_ext; intros; ring). rewrite csum_swap.
      rewrite (csum_delta K j0); [|exact Hj0'|].
      - rewrite csum_scal. change (csum M (fun i => Cmul (Conj (e 0%nat i (M - K + j0)%nat)) (e 0%nat i (M - K + j0)%nat))) with (cip M (fun i => e 0%nat i (M - K + j0)%nat) (fun i => e 0%nat i (M - K + j0)%nat)). unfold e at 1 2. rewrite On by lia. unfold delta. rewrite Nat.eqb_refl. ring.
      - intros j Hj Hne. rewrite csum_scal. change (csum M (fun i => Cmul (Conj (e 0%nat i (M - K + j0)%nat)) (e 0%nat i (M - K + j)%nat))) with (cip M (fun i => e 0%nat i (M - K + j0)%nat) (fun i => e 0%nat i (M - K + j)%nat)). unfold e at 1 2. rewrite On by lia. unfold delta. destruct (Nat.eqb_spec (M - K + j0) (M - K + j)); [lia|ring]. }
    pose proof (MU 0%nat (M - K + j0)%nat Hb ltac:(lia) ltac:(lia)) as PM. destruct (C_eq_dec (al j0) C0) as [|NA]; [assumption|]. apply (C_integral _ _ W) in NA. injection NA as NA. lra. }
  (* the left singular vectors in ascending order *)
  destruct HSV as (On & Cp & s & Ev & Ds).
  assert (EI : is_eigh M (fun i l => csum J (fun cc => Cmul (Z i cc) (Conj (Z l cc)))) (fun q => s (M - 1 - q)%nat) (fun i q => u i (M - 1 - q)%nat)).
  { split; [|split; [|split]].
    - intros p q Hp Hq. rewrite On by lia. unfold delta. destruct (Nat.eqb_spec (M - 1 - p) (M - 1 - q)), (Nat.eqb_spec p q); auto; lia.
    - intros i j Hi Hj. rewrite <- (csum_rev M (fun q => Cmul (u i q) (Conj (u j q)))). now apply Cp.
    - intros i q Hi Hq. apply Ev; lia.
    - intros p q Hpq Hq. apply Ds; lia. }
  rewrite Hds in Ind, Un. split.
  - intros Q. destruct (orthogonal_combination M K _ (steer mode f0 ds) PP 0 _ _ SC PD EI Ind (fun i => mode f0 i n)) as [x Hx]; [|exact (Un n x Hn Hx)]. intros q Hq. specialize (Q (M - 1 - q - K)%nat ltac:(lia)). replace (K + (M - 1 - q - K))%nat with (M - 1 - q)%nat in Q by lia. exact Q.
  - intros HI q Hq. destruct (In_nth ds n 0%nat HI) as (p & Hp & Ep). rewrite Hds in Hp. pose proof (combination_orthogonal M K _ (steer mode f0 ds) PP 0 _ _ SC PD EI (fun i => mode f0 i n) (fun r => delta p r)) as CO. cbv beta in CO.
    specialize (fun H => CO H (M - 1 - (K + q))%nat ltac:(lia)). replace (M - 1 - (M - 1 - (K + q)))%nat with (K + q)%nat in CO by lia. apply CO.
    intros i Hi. rewrite (csum_delta K p); [unfold delta, steer; rewrite Nat.eqb_refl, Ep; ring|exact Hp|]. intros r _ Hr. unfold delta. destruct (Nat.eqb_spec p r); [congruence|ring].
Qed.
End Run.

Lemma reference_in M S N K bins mode X peaks argmax f0 : reference M S N K bins mode X peaks argmax = Some f0 -> In f0 (kept_bins M S N K bins mode X peaks).
Proof. unfold reference. destruct (kept_bins M S N K bins mode X peaks) as [|b l]; [discriminate|]. apply nth_error_In. Qed.

(** When the initial search of every bin finds the sources and there is no noise, CSSM keeps finding them: however many iterations, the final
    spectrum is infinite exactly at the directions of the sources. *)
Theorem C146_cssm : forall M S N bins mode X peaks argmax inv eigh ds num_iter vs, (1 <= length ds)%nat -> (1 <= num_iter)%nat -> inv_ok M inv ->
  (forall j, (j < length bins)%nat -> peaks (first_guess M S N bins mode X j) = ds) -> (forall ws, found N ds ws -> peaks ws = ds) ->
  (forall k, In k bins -> from_sources M S mode X ds k 0 /\ unambiguous M N mode ds k) ->
  (forall f0 R, coherent_sum M S N (length ds) bins mode X peaks inv f0 (repeat ds (length bins)) = Some R -> is_eigh M R (fst (eigh R)) (snd (eigh R))) ->
  cssm M S N (length ds) bins mode X peaks argmax inv eigh num_iter = Some vs -> found N ds vs.
Proof.
  intros M S N bins mode X peaks argmax inv eigh ds num_iter vs HK Hn Hinv Hpk Hf HS HE H. unfold cssm, process in H.
  destruct (reference _ _ _ _ _ _ _ _ _) as [f0|] eqn:ER in H; [|discriminate]. cbn [bind] in H. apply reference_in in ER. rewrite (kept_bins_all M S N (length ds) bins mode X peaks ds HK eq_refl Hpk) in ER.
  rewrite (betas_all M S N (length ds) bins mode X peaks ds HK eq_refl Hpk) in H. destruct num_iter as [|n]; [lia|].
  refine (iterate_found M S N (length ds) bins mode X peaks ds HK eq_refl Hpk _ f0 Hf _ n _ vs H). intros ws HV.
  refine (cssm_found M S N (length ds) bins mode X peaks inv eigh ds HK eq_refl Hpk Hinv f0 ws _ (fun k Hk => proj1 (HS k Hk)) (proj2 (HS f0 ER)) (HE f0) HV). intros ->. inversion ER.
Qed.
(** The same for WAVES, also in white noise of any level. *)
Theorem C146_waves : forall M S N bins mode X peaks argmax inv eigh svd ds sigma2 num_iter vs, (1 <= length ds < M)%nat -> (1 <= num_iter)%nat -> inv_ok M inv -> 0 <= sigma2 ->
  (forall j, (j < length bins)%nat -> peaks (first_guess M S N bins mode X j) = ds) -> (forall ws, found N ds ws -> peaks ws = ds) ->
  (forall k, In k bins -> from_sources M S mode X ds k sigma2 /\ unambiguous M N mode ds k) ->
  (forall j, (j < length bins)%nat -> is_eigh M (C_hat S bins X j) (fst (eigh (C_hat S bins X j))) (snd (eigh (C_hat S bins X j)))) ->
  (forall f0 Z, waves_matrix M S N (length ds) bins mode X peaks inv eigh f0 (repeat ds (length bins)) = Some Z -> is_svd M (length bins * length ds) Z (svd (length bins * length ds)%nat Z)) ->
  waves M S N (length ds) bins mode X peaks argmax inv eigh svd num_iter = Some vs -> found N ds vs.
Proof.
  intros M S N bins mode X peaks argmax inv eigh svd ds sigma2 num_iter vs [HK HKM] Hn Hinv H2 Hpk Hf HS HE HV H. unfold waves, process in H.
  destruct (reference _ _ _ _ _ _ _ _ _) as [f0|] eqn:ER in H; [|discriminate]. cbn [bind] in H. apply reference_in in ER. rewrite (kept_bins_all M S N (length ds) bins mode X peaks ds HK eq_refl Hpk) in ER.
  rewrite (betas_all M S N (length ds) bins mode X peaks ds HK eq_refl Hpk) in H. destruct num_iter as [|n]; [lia|].
  refine (iterate_found M S N (length ds) bins mode X peaks ds HK eq_refl Hpk _ f0 Hf _ n _ vs H). intros ws HW.
  refine (waves_found M S N (length ds) bins mode X peaks inv eigh svd ds HK eq_refl Hpk Hinv f0 sigma2 ws _ HKM H2 _ (proj2 (HS f0 ER)) HE (HV f0) HW).
  - intros ->. inversion ER.
  - intros k Hk. split; [exact (proj1 (HS k Hk))|exact (proj1 (proj2 (HS k Hk)))].
Qed.
Print Assumptions C146_cssm.
Print Assumptions C146_waves.

(** ** Two microphones, one source *)
(** direction 0 is a quarter of a period late at bin 1 and half a period at bin 2, direction 1 is in front *)
Definition late (k n : nat) : C := match n with O => match k with 1%nat => (0, -1) | _ => (-1, 0) end | _ => (1, 0) end.
Definition pair_mode (k i n : nat) : C := match i with O => C1 | _ => late k n end.
Definition pair_X (i k s : nat) : C := pair_mode k i 0.
Definition above (a b : option R) : bool := match a, b with None, Some _ => true | Some x, Some y => if Rlt_dec y x then true else false | _, _ => false end.
Definition pair_peaks (vs : list (option R)) : list nat := match vs with [a; b] => if above a b then [0%nat] else if above b a then [1%nat] else [] | _ => [] end.
Definition Cinv (z : C) : C := Cscal (/ Cabs2 z) (Conj z).
Definition pair_inv (A : cmat) : option cmat :=
  let d := Csub (Cmul (A 0 0)%nat (A 1 1)%nat) (Cmul (A 0 1)%nat (A 1 0)%nat) in
  if C_eq_dec d C0 then None else
  Some (fun i j => Cmul (Cinv d) (match i, j with O, O => A 1 1 | O, _ => Copp (A 0 1) | _, O => Copp (A 1 0) | _, _ => A 0 0 end)%nat).
(** unit vectors along (1, a) and across *)
Definition along (a : C) (i : nat) : C := Cscal (/ sqrt 2) (match i with O => C1 | _ => a end).
Definition across (a : C) (i : nat) : C := Cscal (/ sqrt 2) (match i with O => C1 | _ => Copp a end).
Definition pair_eigh (A : cmat) : (nat -> R) * cmat :=
  let g := fst (A 0 0)%nat in
  if Req_EM_T g 0 then (fun _ => 0, fun i q => if (i =? q)%nat then C1 else C0) else
  let a := Cscal (/ g) (A 1 0)%nat in (fun q => match q with O => 0 | _ => 2 * g end, fun i q => match q with O => across a i | _ => along a i end).
Definition pair_svd (J : nat) (Z : cmat) : cmat := let a := Cmul (Z 1 0)%nat (Cinv (Z 0 0)%nat) in fun i q => match q with O => along a i | _ => across a i end.
Lemma pair_inv_ok : inv_ok 2 pair_inv.
Proof.
  intros A V H. unfold pair_inv in H. cbv zeta in H. set (d := Csub (Cmul (A 0 0)%nat (A 1 1)%nat) (Cmul (A 0 1)%nat (A 1 0)%nat)) in *. destruct (C_eq_dec d C0) as [|Nz]; [discriminate|].
  match type of H with Some ?x = Some _ => assert (E : V = x) by congruence end. subst V. clear H.
  assert (I : Cmul (Cinv d) d = C1). { unfold Cinv. transitivity (Cscal (/ Cabs2 d) (Cmul d (Conj d))); [destruct d; apply C_eq; cbn; ring|]. rewrite Cmul_conj. assert (Cabs2 d <> 0) by (intros Q; apply Nz, Cabs2_zero, Q). apply C_eq; cbn; field; assumption. }
  intros i j Hi Hj. rewrite !csum_S, csum_0. unfold delta. destruct i as [|[|i]]; [| |lia]; (destruct j as [|[|j]]; [| |lia]); cbn [Nat.eqb].
  - rewrite <- I. unfold d. ring.
  - ring.
  - ring.
  - rewrite <- I. unfold d. ring.
Qed.
Lemma half2 : / sqrt 2 * / sqrt 2 = / 2.
Proof. rewrite <- Rinv_mult. now rewrite sqrt_sqrt by lra. Qed.
Lemma basis a : Cabs2 a = 1 ->
  (forall p q, (p < 2)%nat -> (q < 2)%nat -> cip 2 (fun i => match p with O => across a i | _ => along a i end) (fun i => match q with O => across a i | _ => along a i end) = delta p q) /\
  (forall i j, (i < 2)%nat -> (j < 2)%nat -> Cadd (Cmul (along a i) (Conj (along a j))) (Cmul (across a i) (Conj (across a j))) = delta i j).
Proof.
  intros Ha. pose proof half2 as H2. destruct a as [x y]. unfold Cabs2 in Ha. cbn in Ha. split; intros i j Hi Hj; (destruct i as [|[|i]]; [| |lia]); (destruct j as [|[|j]]; [| |lia]); unfold cip; rewrite ?csum_S, ?csum_0; unfold delta, along, across; cbn [Nat.eqb]; set (h := / sqrt 2) in *; apply C_eq; cbn; nra.
Qed.
Lemma rank_one_eigh A g a : g > 0 -> Cabs2 a = 1 -> (A 0 0)%nat = RtoC g -> (A 1 0)%nat = Cscal g a -> (A 0 1)%nat = Cscal g (Conj a) -> (A 1 1)%nat = RtoC g -> is_eigh 2 A (fst (pair_eigh A)) (snd (pair_eigh A)).
Proof.
  intros Hg Ha A00 A10 A01 A11. unfold pair_eigh. cbv zeta. rewrite A00, A10. cbn [RtoC fst]. destruct (Req_EM_T g 0); [lra|]. assert (Ea : Cscal (/ g) (Cscal g a) = a) by (destruct a; apply C_eq; cbn; field; lra). rewrite Ea. cbn [fst snd].
  destruct (basis a Ha) as [B1 B2]. split; [exact B1|split; [|split]].
  - intros i j Hi Hj. rewrite !csum_S, csum_0. rewrite <- (B2 i j Hi Hj). ring.
  - intros i q Hi Hq. rewrite !csum_S, csum_0. pose proof half2 as H2. destruct a as [x y]. unfold Cabs2 in Ha. cbn in Ha. destruct i as [|[|i]]; [| |lia]; (destruct q as [|[|q]]; [| |lia]); rewrite ?A00, ?A10, ?A01, ?A11; unfold along, across; apply C_eq; cbn; try ring.
    all: try (apply (Rmult_eq_reg_l (sqrt 2)); [|apply Rgt_not_eq, sqrt_lt_R0; lra]; field_simplify_eq; [nra|apply Rgt_not_eq, sqrt_lt_R0; lra]).
  - intros p q Hpq Hq. destruct p as [|[|p]]; destruct q as [|[|q]]; try lia; lra.
Qed.
Lemma pair_found ws : found 2 [0%nat] ws -> pair_peaks ws = [0%nat].
Proof.
  intros [L H]. destruct ws as [|a [|b [|c ws]]]; try discriminate. pose proof (proj2 (H 0%nat ltac:(lia)) (or_introl eq_refl)) as H0. cbn in H0. subst a. destruct b as [b|]; [reflexivity|]. destruct (proj1 (H 1%nat ltac:(lia)) eq_refl) as [|[]]; discriminate.
Qed.
Lemma pair_cov k i l : covariance 1 pair_X k i l = Cmul (pair_mode k i 0) (Conj (pair_mode k l 0)).
Proof. unfold covariance, pair_X. rewrite csum_S, csum_0. unfold Cscal. cbn [INR]. rewrite Rinv_1. apply C_eq; cbn; ring. Qed.
Lemma pair_late k n : Cabs2 (late k n) = 1.
Proof. unfold late, Cabs2. destruct n as [|n]; [destruct k as [|[|k]]|]; cbn; ring. Qed.
Lemma spectrum_two A k d0 d1 : 0 <= d0 -> 0 <= d1 -> 
  (forall n d, (n = 0 /\ d = d0 \/ n = 1 /\ d = d1)%nat -> csum 2 (fun i => Cmul (Conj (pair_mode k i n)) (csum 2 (fun j => Cmul (A i j) (pair_mode k j n)))) = RtoC d) ->
  spectrum 2 2 pair_mode A k = [if Req_EM_T d0 0 then None else Some (/ d0); if Req_EM_T d1 0 then None else Some (/ d1)].
Proof.
  intros H0 H1 H. unfold spectrum. cbn [seq map]. rewrite (H 0%nat d0) by auto. rewrite (H 1%nat d1) by auto. cbv zeta. rewrite !Cabs_RtoC by assumption. reflexivity.
Qed.
Lemma pair_guess j : (j < 2)%nat -> pair_peaks (first_guess 2 1 2 [1; 2]%nat pair_mode pair_X j) = [0%nat].
Proof.
  intros Hj. unfold first_guess. destruct j as [|[|j]]; [| |lia]; cbn [nth].
  - rewrite (spectrum_two _ _ 4 2) by (try lra; intros n d [[-> ->]|[-> ->]]; rewrite !csum_S, !csum_0; unfold C_hat; rewrite !pair_cov; unfold pair_mode, late; cbn [nth]; apply C_eq; cbn; ring).
    destruct (Req_EM_T 4 0); [lra|]. destruct (Req_EM_T 2 0); [lra|]. cbn [map pair_peaks above]. destruct (Rlt_dec (/ / 2) (/ / 4)) as [|N]; [reflexivity|]. exfalso. apply N. rewrite !Rinv_inv. lra.
  - rewrite (spectrum_two _ _ 4 0) by (try lra; intros n d [[-> ->]|[-> ->]]; rewrite !csum_S, !csum_0; unfold C_hat; rewrite !pair_cov; unfold pair_mode, late; cbn [nth]; apply C_eq; cbn; ring).
    destruct (Req_EM_T 4 0); [lra|]. destruct (Req_EM_T 0 0); [|lra]. cbn [map pair_peaks above]. destruct (Rlt_dec 0 (/ / 4)) as [|N]; [reflexivity|]. exfalso. apply N. rewrite Rinv_inv. lra.
Qed.
Lemma pair_sources k : source_covariance 2 1 (covariance 1 pair_X k) (steer pair_mode k [0%nat]) (fun _ _ => C1) 0.
Proof. intros i l Hi Hl. rewrite pair_cov, !csum_S, !csum_0. unfold steer. cbn [nth]. unfold Cscal. destruct (pair_mode k i 0), (pair_mode k l 0). apply C_eq; cbn; ring. Qed.
Lemma pair_from k : from_sources 2 1 pair_mode pair_X [0%nat] k 0.
Proof.
  exists (fun _ _ => C1). split; [apply pair_sources|]. intros x (p & Hp & Np). cbn in Hp. assert (p = 0%nat) by lia. subst p. cbn [length]. rewrite !csum_S, !csum_0. assert (0 < Cabs2 (x 0%nat)).
  { destruct (Req_EM_T (Cabs2 (x 0%nat)) 0) as [Z|Z]; [now apply Cabs2_zero in Z|]. pose proof (Cabs2_nonneg (x 0%nat)). lra. }
  unfold Cabs2 in H. destruct (x 0%nat) as [a b]. cbn in *. nra.
Qed.
Lemma pair_unambiguous k : In k [1; 2]%nat -> unambiguous 2 2 pair_mode [0%nat] k.
Proof.
  intros Hk. split.
  - intros x H p Hp. cbn in Hp. assert (p = 0%nat) by lia. subst p. specialize (H 0%nat ltac:(lia)). cbn [length] in H. rewrite csum_S, csum_0 in H. unfold steer, pair_mode in H. rewrite <- H. ring.
  - intros n x Hn H. destruct n as [|[|n]]; [now left| |lia]. exfalso. pose proof (H 0%nat ltac:(lia)) as H0. pose proof (H 1%nat ltac:(lia)) as H1. cbn [length] in H0, H1. rewrite csum_S, csum_0 in H0, H1. unfold steer, pair_mode in H0, H1. cbn [nth] in H0, H1.
    assert (X0 : x 0%nat = C1) by (rewrite H0; ring). rewrite X0 in H1. destruct Hk as [<-|[<-|[]]]; unfold late in H1; apply (f_equal fst) in H1; cbn in H1; lra.
Qed.
Lemma pair_focusing k f0 : exists T, focusing 2 pair_mode pair_inv k f0 [0%nat] = Some T.
Proof.
  unfold focusing. cbn [length Nat.ltb Nat.leb]. unfold pair_inv. cbv zeta. match goal with |- context [C_eq_dec ?d C0] => replace d with C1 end.
  - destruct (C_eq_dec C1 C0) as [Q|Q]; [injection Q; lra|]. cbn [bind]. eexists; reflexivity.
  - unfold with_identity, pair_mode. cbn [length Nat.ltb Nat.leb nth Nat.eqb]. ring.
Qed.
Lemma pair_foci f0 : exists Ts, mapM (fun j => focusing 2 pair_mode pair_inv (nth j [1; 2]%nat 0%nat) f0 (nth j (repeat [0%nat] (length [1; 2]%nat)) [])) (seq 0 (length [1; 2]%nat)) = Some Ts.
Proof. destruct (pair_focusing 1 f0) as [T1 E1], (pair_focusing 2 f0) as [T2 E2]. exists [T1; T2]. cbn [length repeat seq]. unfold mapM. cbn [nth]. rewrite E1, E2. reflexivity. Qed.
Lemma pair_one : (1 <= 1)%nat.
Proof. lia. Qed.
Lemma pair_eigen f0 R : coherent_sum 2 1 2 1 [1; 2]%nat pair_mode pair_X pair_peaks pair_inv f0 (repeat [0%nat] 2) = Some R -> is_eigh 2 R (fst (pair_eigh R)) (snd (pair_eigh R)).
Proof.
  intros H. unfold coherent_sum in H. rewrite (kept_bins_all 2 1 2 1 [1; 2]%nat pair_mode pair_X pair_peaks [0%nat] pair_one eq_refl pair_guess) in H. destruct (mapM _ _) as [Ts|] eqn:ET in H; [|discriminate]. cbn [bind] in H.
  pose proof (focused 2 1 [1; 2]%nat pair_mode pair_inv [0%nat] pair_one eq_refl pair_inv_ok f0 Ts ET) as HF.
  match type of H with Some ?x = Some _ => assert (E : R = x) by congruence end.
  assert (V : forall i l, (i < 2)%nat -> (l < 2)%nat -> R i l = Cscal 2 (Cmul (pair_mode f0 i 0) (Conj (pair_mode f0 l 0)))).
  { intros i l Hi Hl. rewrite E. cbn [length]. rewrite !csum_S, csum_0. change (C_hat 1 [1; 2]%nat pair_X 0) with (covariance 1 pair_X 1). change (C_hat 1 [1; 2]%nat pair_X 1) with (covariance 1 pair_X 2). rewrite (sandwich_sources 2 1 _ _ _ _ _ (HF 0%nat ltac:(cbn; lia)) (pair_sources 1) i l Hi Hl), (sandwich_sources 2 1 _ _ _ _ _ (HF 1%nat ltac:(cbn; lia)) (pair_sources 2) i l Hi Hl).
    rewrite !csum_S, !csum_0. unfold steer. cbn [nth]. unfold Cscal. destruct (pair_mode f0 i 0), (pair_mode f0 l 0). apply C_eq; cbn; ring. }
  pose proof (pair_late f0 0) as PL. unfold Cabs2 in PL. apply (rank_one_eigh R 2 (late f0 0)); [lra|apply pair_late| | | |]; rewrite V by lia; unfold pair_mode, Cscal; destruct (late f0 0) as [x y]; cbn in PL; apply C_eq; cbn; nra.
Qed.
Lemma pair_eigen_bin j : (j < 2)%nat -> is_eigh 2 (C_hat 1 [1; 2]%nat pair_X j) (fst (pair_eigh (C_hat 1 [1; 2]%nat pair_X j))) (snd (pair_eigh (C_hat 1 [1; 2]%nat pair_X j))).
Proof.
  intros Hj. set (k := nth j [1; 2]%nat 0%nat). change (C_hat 1 [1; 2]%nat pair_X j) with (covariance 1 pair_X k). pose proof (pair_late k 0) as PL. unfold Cabs2 in PL. apply (rank_one_eigh _ 1 (late k 0)); [lra|apply pair_late| | | |]; rewrite pair_cov; unfold pair_mode, Cscal; destruct (late k 0) as [x y]; cbn in PL; apply C_eq; cbn; nra.
Qed.
Lemma pair_eigh_bin j : fst (pair_eigh (C_hat 1 [1; 2]%nat pair_X j)) 0%nat = 0 /\ fst (pair_eigh (C_hat 1 [1; 2]%nat pair_X j)) 1%nat = 2 /\
  forall m, snd (pair_eigh (C_hat 1 [1; 2]%nat pair_X j)) m 1%nat = Cscal (/ sqrt 2) (pair_mode (nth j [1; 2]%nat 0%nat) m 0).
Proof.
  set (k := nth j [1; 2]%nat 0%nat). change (C_hat 1 [1; 2]%nat pair_X j) with (covariance 1 pair_X k). unfold pair_eigh. cbv zeta. rewrite !pair_cov. cbn [pair_mode]. replace (Cmul C1 (Conj C1)) with (RtoC 1) by (apply C_eq; cbn; ring). cbn [RtoC fst]. destruct (Req_EM_T 1 0); [lra|]. cbn [fst snd].
  split; [reflexivity|split; [lra|]]. intros m. unfold along. f_equal. destruct m; [reflexivity|]. cbn [pair_mode]. rewrite Rinv_1. destruct (late k 0). apply C_eq; cbn; ring.
Qed.
Lemma pair_singular f0 Z : waves_matrix 2 1 2 1 [1; 2]%nat pair_mode pair_X pair_peaks pair_inv pair_eigh f0 (repeat [0%nat] 2) = Some Z -> is_svd 2 2 Z (pair_svd 2 Z).
Proof.
  intros H. unfold waves_matrix in H. rewrite (kept_bins_all 2 1 2 1 [1; 2]%nat pair_mode pair_X pair_peaks [0%nat] pair_one eq_refl pair_guess) in H. destruct (mapM _ _) as [Ts|] eqn:ET in H; [|discriminate]. cbn [bind] in H.
  pose proof (focused 2 1 [1; 2]%nat pair_mode pair_inv [0%nat] pair_one eq_refl pair_inv_ok f0 Ts ET) as HF. change (n_noise 2 1) with 1%nat in H. cbn [Nat.eqb] in H. match type of H with Some ?x = Some _ => assert (E : Z = x) by congruence end. clear H.
  assert (V : forall i c, (i < 2)%nat -> (c < 2)%nat -> Z i c = Cscal (2 * / sqrt 2) (pair_mode f0 i 0)).
  { intros i c Hi Hc. rewrite E. clear E. cbv zeta. rewrite Nat.div_1_r. replace (1 + c mod 1)%nat with 1%nat by (now rewrite Nat.mod_1_r). change (1 - 1)%nat with 0%nat. destruct (pair_eigh_bin c) as (W0 & W1 & EV). destruct (pair_eigh (C_hat 1 [1; 2]%nat pair_X c)) as [ww ee]. cbn [fst snd] in *.
    rewrite (csum_ext 2 _ (fun m => Cmul (RtoC (/ sqrt 2)) (Cmul (nth c Ts (fun _ _ => C0) i m) (steer pair_mode (nth c [1; 2]%nat 0%nat) [0%nat] m 0)))).
    - rewrite csum_scal, (HF c Hc i 0%nat Hi ltac:(lia)). rewrite W0, W1. unfold steer. cbn [nth]. replace (2 * 0 + 1) with 1 by ring. rewrite sqrt_1. destruct (pair_mode f0 i 0). unfold Cscal. apply C_eq; cbn; field; apply Rgt_not_eq, sqrt_lt_R0; lra.
    - intros m _. rewrite EV. unfold steer, Cscal. cbn [nth]. destruct (nth c Ts (fun _ _ => C0) i m), (pair_mode (nth c [1; 2]%nat 0%nat) m 0). apply C_eq; cbn; ring. }
  clear E. assert (S2 : 0 < sqrt 2) by (apply sqrt_lt_R0; lra). pose proof half2 as H2. set (a := late f0 0) in *.
  assert (Ea : Cmul (Z 1%nat 0%nat) (Cinv (Z 0%nat 0%nat)) = a).
  { rewrite !V by lia. unfold pair_mode. fold a. unfold Cinv, Cscal, Cabs2. destruct a as [x y]. apply C_eq; cbn; field; lra. }
  unfold pair_svd. cbv zeta. rewrite Ea. destruct (basis a (pair_late f0 0)) as [B1 B2].
  assert (G : forall i j, (i < 2)%nat -> (j < 2)%nat -> csum 2 (fun c => Cmul (Z i c) (Conj (Z j c))) = Cscal 4 (Cmul (pair_mode f0 i 0) (Conj (pair_mode f0 j 0)))).
  { intros i j Hi Hj. rewrite !csum_S, csum_0, !V by lia. replace (2 * / sqrt 2) with (sqrt 2) by (apply (Rmult_eq_reg_r (/ sqrt 2)); [rewrite Rmult_assoc, half2, Rinv_r; lra|apply Rinv_neq_0_compat; lra]). pose proof (sqrt_sqrt 2 ltac:(lra)) as SS. set (h := sqrt 2) in *. destruct (pair_mode f0 i 0) as [x y], (pair_mode f0 j 0) as [x' y']. unfold Cscal. apply C_eq; cbn; [replace 4 with (2 * (h * h)) by lra|replace 4 with (2 * (h * h)) by lra]; ring. }
  split; [|split].
  - intros p q Hp Hq. pose proof (B1 (1 - p) (1 - q))%nat as B. specialize (B ltac:(lia) ltac:(lia)). destruct p as [|[|p]]; [| |lia]; (destruct q as [|[|q]]; [| |lia]); cbn [Nat.sub] in B; exact B.
  - intros i j Hi Hj. rewrite !csum_S, csum_0. rewrite <- (B2 i j Hi Hj). ring.
  - exists (fun q => match q with O => 8 | _ => 0 end). split; [|intros p q Hpq Hq; destruct p as [|[|p]]; destruct q as [|[|q]]; try lia; lra].
    intros i q Hi Hq. rewrite (csum_S 1), (csum_S 0), csum_0, !G by lia. pose proof (pair_late f0 0) as PL. fold a in PL. unfold Cabs2 in PL. unfold along, across, pair_mode, Cscal. fold a. clearbody a. destruct a as [x y]. cbn in PL. set (h := / sqrt 2) in *. assert (X2 : x * x = 1 - y * y) by lra.
    destruct i as [|[|i]]; [| |lia]; (destruct q as [|[|q]]; [| |lia]); apply C_eq; cbn; ring [X2].
Qed.
Lemma pair_runs values f0 last : (exists ws, values f0 [[0]; [0]]%nat = Some ws /\ found 2 [0%nat] ws) -> forall n, exists vs, iterate 2 1 2 1 [1; 2]%nat pair_mode pair_X pair_peaks values (S n) f0 [[0]; [0]]%nat last = Some vs.
Proof.
  intros (ws & HV & HF) n. revert last. induction n as [|n IH]; intros last.
  - exists ws. cbn [iterate]. rewrite HV. reflexivity.
  - rewrite iterate_S, HV. cbn [bind]. rewrite (pair_found ws HF), (kept_bins_all 2 1 2 1 [1; 2]%nat pair_mode pair_X pair_peaks [0%nat] pair_one eq_refl pair_guess). apply IH.
Qed.
Example C146_cssm_case : exists vs, cssm 2 1 2 1 [1; 2]%nat pair_mode pair_X pair_peaks (fun _ => 0%nat) pair_inv pair_eigh 5 = Some vs /\ found 2 [0%nat] vs.
Proof.
  assert (R : exists vs, cssm 2 1 2 1 [1; 2]%nat pair_mode pair_X pair_peaks (fun _ => 0%nat) pair_inv pair_eigh 5 = Some vs).
  { unfold cssm, process, reference. rewrite (kept_bins_all 2 1 2 1 [1; 2]%nat pair_mode pair_X pair_peaks [0%nat] pair_one eq_refl pair_guess), (betas_all 2 1 2 1 [1; 2]%nat pair_mode pair_X pair_peaks [0%nat] pair_one eq_refl pair_guess). cbn [nth_error bind]. apply pair_runs.
    assert (exists ws, cssm_values 2 1 2 1 [1; 2]%nat pair_mode pair_X pair_peaks pair_inv pair_eigh 1 (repeat [0%nat] 2) = Some ws) as [ws HW].
    { unfold cssm_values, coherent_sum. rewrite (kept_bins_all 2 1 2 1 [1; 2]%nat pair_mode pair_X pair_peaks [0%nat] pair_one eq_refl pair_guess). change (repeat [0%nat] 2) with (repeat [0%nat] (length [1; 2]%nat)). destruct (pair_foci 1) as [Ts ->]. eexists. reflexivity. }
    exists ws. split; [exact HW|]. refine (cssm_found 2 1 2 1 [1; 2]%nat pair_mode pair_X pair_peaks pair_inv pair_eigh [0%nat] pair_one eq_refl pair_guess pair_inv_ok 1 ws _ _ _ _ HW); [discriminate|intros; apply pair_from|apply pair_unambiguous; now left|apply pair_eigen]. }
  destruct R as [vs R]. exists vs. split; [exact R|]. refine (C146_cssm 2 1 2 [1; 2]%nat pair_mode pair_X pair_peaks (fun _ => 0%nat) pair_inv pair_eigh [0%nat] 5 vs pair_one _ pair_inv_ok pair_guess pair_found _ pair_eigen R); [lia|]. intros k Hk. split; [apply pair_from|now apply pair_unambiguous].
Qed.
Example C146_waves_case : exists vs, waves 2 1 2 1 [1; 2]%nat pair_mode pair_X pair_peaks (fun _ => 1%nat) pair_inv pair_eigh pair_svd 5 = Some vs /\ found 2 [0%nat] vs.
Proof.
  assert (R : exists vs, waves 2 1 2 1 [1; 2]%nat pair_mode pair_X pair_peaks (fun _ => 1%nat) pair_inv pair_eigh pair_svd 5 = Some vs).
  { unfold waves, process, reference. rewrite (kept_bins_all 2 1 2 1 [1; 2]%nat pair_mode pair_X pair_peaks [0%nat] pair_one eq_refl pair_guess), (betas_all 2 1 2 1 [1; 2]%nat pair_mode pair_X pair_peaks [0%nat] pair_one eq_refl pair_guess). cbn [nth_error bind]. apply pair_runs.
    assert (exists ws, waves_values 2 1 2 1 [1; 2]%nat pair_mode pair_X pair_peaks pair_inv pair_eigh pair_svd 2 (repeat [0%nat] 2) = Some ws) as [ws HW].
    { unfold waves_values, waves_matrix. rewrite (kept_bins_all 2 1 2 1 [1; 2]%nat pair_mode pair_X pair_peaks [0%nat] pair_one eq_refl pair_guess). change (repeat [0%nat] 2) with (repeat [0%nat] (length [1; 2]%nat)). destruct (pair_foci 2) as [Ts ->]. eexists. reflexivity. }
    exists ws. split; [exact HW|]. refine (waves_found 2 1 2 1 [1; 2]%nat pair_mode pair_X pair_peaks pair_inv pair_eigh pair_svd [0%nat] pair_one eq_refl pair_guess pair_inv_ok 2 0 ws _ _ _ _ _ pair_eigen_bin (pair_singular 2) HW); [discriminate|lia|lra| |apply pair_unambiguous; right; now left].
    intros k Hk. split; [apply pair_from|]. exact (proj1 (pair_unambiguous k Hk)). }
  destruct R as [vs R]. exists vs. split; [exact R|]. refine (C146_waves 2 1 2 [1; 2]%nat pair_mode pair_X pair_peaks (fun _ => 1%nat) pair_inv pair_eigh pair_svd [0%nat] 0 5 vs _ _ pair_inv_ok _ pair_guess pair_found _ pair_eigen_bin pair_singular R); [cbn; lia|lia|lra|]. intros k Hk. split; [apply pair_from|now apply pair_unambiguous].
Qed.

(** ** A bin without peaks *)
Definition late_X (i k s : nat) : C := if (k =? 1)%nat then C0 else pair_X i k s.
Lemma late_kept : kept 2 1 2 1 [1; 2]%nat pair_mode late_X pair_peaks = [(2, [0])]%nat.
Proof.
  unfold kept. cbn [length seq flat_map]. assert (P1 : pair_peaks (first_guess 2 1 2 [1; 2]%nat pair_mode late_X 1) = [0%nat]) by exact (pair_guess 1 ltac:(lia)). rewrite P1. cbv zeta. cbn [length Nat.ltb Nat.leb nth].
  unfold first_guess at 1 2. rewrite (spectrum_two _ _ 0 0) by (try lra; intros n d [[-> ->]|[-> ->]]; rewrite !csum_S, !csum_0; unfold C_hat, covariance, late_X; cbn [nth Nat.eqb]; rewrite !csum_S, !csum_0; apply C_eq; cbn; ring).
  destruct (Req_EM_T 0 0); [|lra]. cbn [map pair_peaks above]. destruct (Rlt_dec 0 0); [lra|]. reflexivity.
Qed.
Lemma late_values f0 beta : beta = [0%nat] \/ beta = [] -> cssm_values 2 1 2 1 [1; 2]%nat pair_mode late_X pair_peaks pair_inv pair_eigh f0 [beta] = Some [Some 1; Some 1].
Proof.
  intros Hb. unfold cssm_values, coherent_sum, kept_bins. rewrite late_kept. cbn [map fst length seq nth mapM].
  assert (HT : exists T, focusing 2 pair_mode pair_inv 2 f0 beta = Some T).
  { destruct Hb as [->| ->]; [apply pair_focusing|]. unfold focusing. cbn [length Nat.ltb Nat.leb]. unfold pair_inv. cbv zeta. match goal with |- context [C_eq_dec ?d C0] => replace d with C1 end; [destruct (C_eq_dec C1 C0) as [Q|Q]; [injection Q; lra|]; cbn [bind]; eexists; reflexivity|]. unfold with_identity. cbn [length Nat.ltb Nat.leb nth Nat.eqb]. ring. }
  destruct HT as [T HT]. rewrite HT. cbn [bind].
  match goal with |- context [pair_eigh ?R] => set (A := R) end.
  assert (A0 : (A 0 0)%nat = C0). { unfold A. rewrite csum_S, csum_0. unfold sandwich. rewrite csum_zero_ext; [ring|]. intros p _. apply csum_zero_ext. intros q _. unfold C_hat, covariance, late_X. cbn [nth Nat.eqb]. rewrite csum_S, csum_0. apply C_eq; cbn; ring. }
  unfold pair_eigh. cbv zeta. rewrite A0. cbn [C0 fst]. destruct (Req_EM_T 0 0) as [_|]; [|lra]. cbn [snd]. change (n_noise 2 1) with 1%nat.
  rewrite (spectrum_two _ _ 1 1) by (try lra; intros n d [[-> ->]|[-> ->]]; rewrite !csum_S, !csum_0; cbn [Nat.eqb]; unfold pair_mode; apply C_eq; cbn; ring).
  destruct (Req_EM_T 1 0); [lra|]. now rewrite Rinv_1.
Qed.
Lemma late_iterate n : forall last beta, beta = [0%nat] \/ beta = [] -> iterate 2 1 2 1 [1; 2]%nat pair_mode late_X pair_peaks (cssm_values 2 1 2 1 [1; 2]%nat pair_mode late_X pair_peaks pair_inv pair_eigh) (S n) 2 [beta] last = Some [Some 1; Some 1].
Proof.
  induction n as [|n IH]; intros last beta Hb; rewrite iterate_S, late_values by exact Hb; [reflexivity|]. cbn [bind]. unfold kept_bins. rewrite late_kept. cbn [map length repeat]. apply IH. right. unfold pair_peaks, above. destruct (Rlt_dec 1 1); [lra|reflexivity].
Qed.
(** After a bin is dropped the covariances are taken at the wrong positions: here the first of two bins is silent and dropped, the second
    holds a single source without noise, found by the initial search, but CSSM uses the covariance of the silent bin and returns the same
    value for every direction. *)
Theorem C146_dropped_refuted : exists M S N bins mode X peaks argmax inv eigh ds k, inv_ok M inv /\ (forall R, (forall i j, R i j = C0) -> is_eigh M R (fst (eigh R)) (snd (eigh R))) /\
  kept M S N (length ds) bins mode X peaks = [(k, ds)] /\ from_sources M S mode X ds k 0 /\ unambiguous M N mode ds k /\
  forall n, cssm M S N (length ds) bins mode X peaks argmax inv eigh (Datatypes.S n) = Some (repeat (Some 1) N).
Proof.
  exists 2%nat, 1%nat, 2%nat, [1; 2]%nat, pair_mode, late_X, pair_peaks, (fun _ => 0%nat), pair_inv, pair_eigh, [0%nat], 2%nat. split; [exact pair_inv_ok|split; [|split; [exact late_kept|split; [exact (pair_from 2)|split; [apply pair_unambiguous; right; now left|]]]]].
  - intros R H. unfold pair_eigh. cbv zeta. rewrite H. cbn [C0 fst]. destruct (Req_EM_T 0 0); [|lra]. cbn [fst snd]. split; [|split; [|split]].
    + intros p q Hp Hq. unfold cip, delta. rewrite !csum_S, csum_0. destruct p as [|[|p]]; [| |lia]; (destruct q as [|[|q]]; [| |lia]); cbn [Nat.eqb]; apply C_eq; cbn; ring.
    + intros p q Hp Hq. unfold delta. rewrite !csum_S, csum_0. destruct p as [|[|p]]; [| |lia]; (destruct q as [|[|q]]; [| |lia]); cbn [Nat.eqb]; apply C_eq; cbn; ring.
    + intros i q _ _. rewrite !csum_S, csum_0, !H. change (RtoC 0) with C0. ring.
    + intros; lra.
  - intros n. unfold cssm, process, reference, kept_bins. cbn [length]. rewrite late_kept. cbn [map fst snd nth_error bind repeat]. apply late_iterate. now left.
Qed.
Print Assumptions C146_dropped_refuted.
Example C146_focus_case : exists T, focusing 2 pair_mode pair_inv 1 2 [0%nat] = Some T /\ Cadd (T 1 0)%nat (Cmul (T 1 1)%nat (0, -1)) = (-1, 0) /\ T 0%nat 1%nat = C0 /\ T 1%nat 1%nat = C1.
Proof.
  destruct (pair_focusing 1 2) as [T HT]. exists T. destruct (C146_focus 2 pair_mode pair_inv 1 2 [0%nat] T pair_inv_ok HT) as (_ & F & U). split; [exact HT|]. specialize (F 1%nat 0%nat ltac:(lia) ltac:(cbn; lia)). rewrite !csum_S, csum_0 in F. cbn [nth pair_mode late] in F. pose proof (U 0%nat 1%nat ltac:(lia) ltac:(cbn; lia) ltac:(lia)) as U0. pose proof (U 1%nat 1%nat ltac:(lia) ltac:(cbn; lia) ltac:(lia)) as U1. split; [rewrite <- F; ring|split; [exact U0|exact U1]].
Qed.
