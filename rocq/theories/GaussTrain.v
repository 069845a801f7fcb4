(** Training with full covariance matrices: likelihood of one iteration. *)
From Coq Require Import List ZArith Lia Reals Lra Bool.
From Verif Require Import Base Vec Sum StftProofs DenoiseModel WienerProofs HmmModel HmmSpec BaseProofs HmmProofs HmmEm HmmFit HmmTrain GaussModel GaussSpec GaussProofs.
Import ListNotations.
Local Open Scope R_scope.
Section Full.
Variable eigh : nat -> (nat -> nat -> R) -> (nat -> R) * (nat -> nat -> R).
Notation dens := (densities_gaussian eigh).
Lemma prob_full : forall e examples, solved eigh e -> forall pss, prob_gaussian eigh e examples = Some pss <-> proper_gaussian e /\ (forall X, In X examples -> shaped_gaussian e X) /\ pss = map (dens e) examples.
Proof.
  intros e examples SO pss. split.
  - intros H. unfold prob_gaussian in H. destruct (forallb _ (seq 0 (ga_K e))) eqn:F1; [|discriminate]. destruct (forallb _ examples) eqn:F2; [|discriminate]. apply some_inj in H. subst pss. split; [|split; [|reflexivity]].
    + intros k Hk. apply (positive_definite _ _ _ (SO k Hk)). intros i Hi. rewrite forallb_forall in F1. specialize (F1 k ltac:(apply in_seq; lia)). rewrite forallb_forall in F1. specialize (F1 i ltac:(apply in_seq; lia)). destruct (Rlt_dec 0 _); [assumption|discriminate].
    + intros X HX x Hx. rewrite forallb_forall in F2. specialize (F2 X HX). rewrite forallb_forall in F2. specialize (F2 x Hx). now apply Nat.eqb_eq.
  - intros (P & L & ->). unfold prob_gaussian. replace (forallb _ (seq 0 (ga_K e))) with true.
    + replace (forallb _ examples) with true; [reflexivity|]. symmetry. apply forallb_forall. intros X HX. apply forallb_forall. intros x Hx. apply Nat.eqb_eq. now apply (L X).
    + symmetry. apply forallb_forall. intros k Hk. apply forallb_forall. intros d Hd. apply in_seq in Hk, Hd. destruct (Rlt_dec 0 _) as [|N]; [reflexivity|]. exfalso. apply N. apply (positive_definite _ _ _ (SO k ltac:(lia))); [apply P; lia|lia].
Qed.
Lemma dens_length : forall e X, length (dens e X) = length X.
Proof. intros. unfold densities_gaussian. apply map_length. Qed.
Lemma dens_nth : forall e X n k, (n < length X)%nat -> nth n (dens e X) (fun _ => 0) k = gauss_pdf (ga_O e) (ga_mu e k) (eigh (ga_O e) (ga_S e k)) (nth n X []).
Proof. intros e X n k Hn. unfold densities_gaussian. set (F := fun (x : vec) (k : nat) => gauss_pdf (ga_O e) (ga_mu e k) (eigh (ga_O e) (ga_S e k)) x). rewrite (nth_indep _ (fun _ => 0) (F [])) by (rewrite map_length; auto). now rewrite (map_nth F). Qed.
Lemma dens_nonneg : forall e X K, nonneg_all K (dens e X).
Proof. intros e X K n k Hn _. rewrite dens_length in Hn. rewrite dens_nth by auto. left. apply pdf_pos. Qed.
Lemma nth_dens : forall e examples t, nth t (map (dens e) examples) [] = dens e (nth t examples []).
Proof. intros e examples t. change (@nil (nat -> R)) with (dens e []) at 1. apply map_nth. Qed.
Lemma update_shape : forall e examples g e', update_gaussian e examples g = Some e' -> ga_K e' = ga_K e /\ ga_O e' = ga_O e /\ (length examples <> 0)%nat.
Proof. intros e examples g e' U. unfold update_gaussian in U. destruct (Nat.eqb_spec (length examples) 0); [discriminate|]. destruct (forallb _ _); [|discriminate]. apply some_inj in U. subst e'. auto. Qed.
(** The new parameters as sums over all frames. *)
Lemma update_sums : forall e examples g e', update_gaussian e examples g = Some e' -> length (concat examples) = length (concat g) -> let N := length (concat examples) in let x n := nth n (concat examples) [] in let w n k := nth n (concat g) (fun _ => 0) k in
  forall k, (k < ga_K e)%nat -> let Z := bsum N (fun n => w n k) in Z <> 0 /\ (forall d, ga_mu e' k d = bsum N (fun n => nth d (x n) 0 * w n k) / Z) /\
    forall a b, ga_S e' k a b = bsum N (fun n => ((nth a (x n) 0 - ga_mu e' k a) * w n k) * ((nth b (x n) 0 - ga_mu e' k b) / Z)).
Proof.
  intros e examples g e' U L N x w k Hk Z. unfold update_gaussian in U. destruct (Nat.eqb _ 0); [discriminate|]. destruct (forallb _ (seq 0 (ga_K e))) eqn:FZ; [|discriminate]. apply some_inj in U. set (mu' := fun k d => Rsum (map2 (fun x r => nth d x 0 * r k) (concat examples) (concat g)) / Rsum (map (fun r => r k) (concat g))) in U.
  assert (EZ : Rsum (map (fun r => r k) (concat g)) = Z) by (rewrite (Rsum_nth _ _ (fun _ => 0)), <- L; reflexivity). assert (Emu : forall d, ga_mu e' k d = mu' k d) by (intros; rewrite <- U; reflexivity).
  split; [|split].
  - rewrite forallb_forall in FZ. specialize (FZ k ltac:(apply in_seq; lia)). rewrite EZ in FZ. destruct (Req_EM_T _ 0); [discriminate|assumption].
  - intros d. rewrite Emu. unfold mu'. rewrite EZ. f_equal. apply (map2_bsum (fun x r => nth d x 0 * r k) [] (fun _ => 0)). exact L.
  - intros a b. rewrite !Emu. transitivity (Rsum (map2 (fun (x : vec) (r : nat -> R) => ((nth a x 0 - mu' k a) * r k) * ((nth b x 0 - mu' k b) / Rsum (map (fun r : nat -> R => r k) (concat g)))) (concat examples) (concat g))); [rewrite <- U; reflexivity|]. rewrite EZ. exact (map2_bsum (fun (x : vec) (r : nat -> R) => (nth a x 0 - mu' k a) * r k * ((nth b x 0 - mu' k b) / Z)) [] (fun _ => 0) _ _ L).
Qed.

Section Step.
Variables m m' : hmm.
Variables e e' : gaussian.
Variable examples : list (list vec).
Variable es : list posterior.
Notation K := (hm_K m).
Hypothesis HK : ga_K e = K.
Hypothesis SP : subprobs K (hm_A m) (hm_pi m).
Hypothesis PE : proper_gaussian e.
Hypothesis SE : solved eigh e.
Hypothesis ES : mapM (e_step m) (map (dens e) examples) = Some es.
Hypothesis UE : update_gaussian e examples (map po_gamma es) = Some e'.
Hypothesis PE' : proper_gaussian e'.
Hypothesis SE' : solved eigh e'.
Notation M := (length examples).

Lemma LM : length (map (dens e) examples) = M.
Proof. apply map_length. Qed.
Lemma g_len : forall t, (t < M)%nat -> length (po_gamma (nth t es no_post)) = length (nth t examples []).
Proof. intros t Ht. pose proof (es_nth m _ es ES t ltac:(rewrite LM; exact Ht)) as E. destruct (e_step_spec _ _ _ E) as (_ & _ & L & _). rewrite L, nth_dens. apply dens_length. Qed.
Lemma es_M : length es = M.
Proof. rewrite (es_len m _ es ES). apply LM. Qed.
Lemma gam_nth : forall t, nth t (map po_gamma es) [] = po_gamma (nth t es no_post).
Proof. intros t. change (@nil (nat -> R)) with (po_gamma no_post) at 1. apply map_nth. Qed.
Lemma same_len : M = length (map po_gamma es) /\ forall t, (t < M)%nat -> length (nth t examples []) = length (nth t (map po_gamma es) []).
Proof. split; [now rewrite map_length, es_M|]. intros t Ht. rewrite gam_nth. symmetry. now apply g_len. Qed.
Lemma concat_len : length (concat examples) = length (concat (map po_gamma es)).
Proof.
  destruct same_len as [L H]. clear - L H. revert H L. generalize (map po_gamma es). induction examples as [|x X IH]; intros g H L; destruct g as [|y g]; try discriminate; [reflexivity|]. cbn [concat]. rewrite !app_length. f_equal; [apply (H 0%nat); cbn; lia|]. apply IH; [intros t Ht; apply (H (S t)); cbn; lia|cbn in L; lia].
Qed.
Definition gx (u k : nat) : R := nth u (concat (map po_gamma es)) (fun _ => 0) k.
Notation NN := (length (concat examples)).
Lemma flat_sum : forall F : vec -> (nat -> R) -> R, bsum M (fun t => bsum (length (nth t examples [])) (fun n => F (nth n (nth t examples []) []) (nth n (po_gamma (nth t es no_post)) (fun _ => 0)))) = bsum NN (fun u => F (nth u (concat examples) []) (nth u (concat (map po_gamma es)) (fun _ => 0))).
Proof.
  intros F. destruct same_len as [L H]. rewrite <- (map2_bsum F [] (fun _ => 0) (concat examples) _ concat_len). rewrite (flat2 F [] (fun _ => 0) examples (map po_gamma es) L H). apply bsum_ext. intros t Ht. apply bsum_ext. intros n Hn. now rewrite gam_nth.
Qed.
Lemma gx_nonneg : forall u k, (u < NN)%nat -> (k < K)%nat -> 0 <= gx u k.
Proof.
  intros u k Hu Hk. unfold gx. rewrite concat_len in Hu. pose proof (nth_In (concat (map po_gamma es)) (fun _ => 0) Hu) as I. apply in_concat in I. destruct I as (l & Hl & Hx). apply in_map_iff in Hl. destruct Hl as (p & <- & Hp). apply In_nth with (d := no_post) in Hp. destruct Hp as (t & Ht & <-). rewrite es_M in Ht. apply In_nth with (d := fun _ => 0) in Hx. destruct Hx as (n & Hn & <-). rewrite g_len in Hn by auto.
  apply (g_pos m (map (dens e) examples) es SP ES) with (t := t) (n := n); auto; rewrite ?LM, ?nth_dens, ?dens_length; auto.
  intros q Hq. rewrite nth_dens. apply dens_nonneg.
Qed.
Lemma emission_gain : 0 <= bsum M (fun t => bsum (length (nth t examples [])) (fun n => bsum K (fun k => g_at (nth t es no_post) n k * (ln (nth n (dens e' (nth t examples [])) (fun _ => 0) k) - ln (nth n (dens e (nth t examples [])) (fun _ => 0) k))))).
Proof.
  destruct (update_shape _ _ _ _ UE) as (EK & EO & _). pose proof (update_sums _ _ _ _ UE concat_len) as U. cbv zeta in U.
  set (F := fun (x : vec) (r : nat -> R) => bsum K (fun k => r k * (ln (gauss_pdf (ga_O e') (ga_mu e' k) (eigh (ga_O e') (ga_S e' k)) x) - ln (gauss_pdf (ga_O e) (ga_mu e k) (eigh (ga_O e) (ga_S e k)) x)))).
  rewrite (bsum_ext M _ (fun t => bsum (length (nth t examples [])) (fun n => F (nth n (nth t examples []) []) (nth n (po_gamma (nth t es no_post)) (fun _ => 0))))).
  2: { intros t _. apply bsum_ext. intros n Hn. apply bsum_ext. intros k _. rewrite !dens_nth by auto. reflexivity. }
  rewrite (flat_sum F). unfold F. rewrite bsum_swap. apply bsum_nonneg. intros k Hk. destruct (U k ltac:(lia)) as (Zn & Em & Es).
  pose proof (gauss_gain NN (ga_O e) (fun n => nth n (concat examples) []) (fun n => gx n k) (ga_mu e k) (eigh (ga_O e) (ga_S e k)) (ga_S e k) (eigh (ga_O e') (ga_S e' k)) (ga_mu e' k) (ga_S e' k) ltac:(intros n Hn; now apply gx_nonneg) Zn ltac:(intros d _; apply Em) ltac:(intros a b _ _; apply Es) (SE k ltac:(lia))) as G.
  rewrite EO in G |- *. specialize (G ltac:(rewrite <- EO; apply SE'; lia)). rewrite (bsum_ext NN _ (fun u => gx u k * ln (gauss_pdf (ga_O e) (ga_mu e' k) (eigh (ga_O e) (ga_S e' k)) (nth u (concat examples) [])) - gx u k * ln (gauss_pdf (ga_O e) (ga_mu e k) (eigh (ga_O e) (ga_S e k)) (nth u (concat examples) [])))) by (intros; unfold gx; ring). rewrite bsum_minus.
  assert (G' := G (proj1 (positive_definite _ _ _ (SE k ltac:(lia))) (PE k ltac:(lia)))). assert (P2 : forall i, (i < ga_O e)%nat -> 0 < fst (eigh (ga_O e) (ga_S e' k)) i). { intros i Hi. rewrite <- EO. apply (proj1 (positive_definite _ _ _ (SE' k ltac:(lia)))); [apply PE'; lia|lia]. } specialize (G' P2). lra.
Qed.
Lemma visits_Xs : forall i, (i < K)%nat -> bsum K (Xs es i) = Rsum (map (fun X => visits K (hm_A m) (hm_pi m) (dens e X) i) examples).
Proof.
  intros i Hi. rewrite (Rsum_nth _ examples []). unfold Xs. rewrite es_M, bsum_swap. apply bsum_ext. intros t Ht. rewrite bsum_swap. pose proof (es_nth m _ es ES t ltac:(rewrite LM; exact Ht)) as E. rewrite nth_dens in E. destruct (e_step_spec _ _ _ E) as (_ & Hev & _ & LX & _ & X & _). unfold visits. replace (length (po_xi (nth t es no_post))) with (length (dens e (nth t examples [])) - 1)%nat by lia. apply bsum_ext. intros n Hn.
  rewrite (bsum_ext K _ (fun j => evidence_and K (hm_A m) (hm_pi m) (dens e (nth t examples [])) (fun z => at_time n i z && at_time (n + 1) j z) * / evidence K (hm_A m) (hm_pi m) (dens e (nth t examples [])))) by (intros j Hj; unfold x_at; apply X; auto; lia). rewrite bsum_scal_r. unfold Rdiv. f_equal. rewrite evidence_and_ssum.
  rewrite (bsum_ext K _ (fun j => ssum K (length (dens e (nth t examples []))) (fun z => joint (hm_A m) (hm_pi m) (dens e (nth t examples [])) z * ind (at_time n i z && at_time (n + 1) j z)))) by (intros; apply evidence_and_ssum). rewrite <- ssum_bsum. apply ssum_ext. intros z Lz Fz. rewrite bsum_scal. f_equal.
  transitivity (bsum K (fun j => ind (at_time (n + 1) j z) * ind (at_time n i z))); [apply bsum_ext; intros j _; destruct (at_time n i z), (at_time (n + 1) j z); cbn [andb ind]; ring|]. exact (eq_sym (at_value K (n + 1) z (fun _ => ind (at_time n i z)) ltac:(lia) Fz)).
Qed.
Hypothesis UC : update_chain m es = Some m'.
Hypothesis NT : forall i, (i < K)%nat -> let v := Rsum (map (fun X => visits K (hm_A m) (hm_pi m) (dens e X) i) examples) in v = 0 \/ tiny <= v.
Lemma step_gain : bsum M (fun t => ln (evidence K (hm_A m) (hm_pi m) (dens e (nth t examples [])))) <= bsum M (fun t => ln (evidence K (hm_A m') (hm_pi m') (dens e' (nth t examples [])))) /\
  forall t, (t < M)%nat -> 0 < evidence K (hm_A m') (hm_pi m') (dens e' (nth t examples [])).
Proof.
  pose proof (total_gain m m' (map (dens e) examples) (map (dens e') examples) es SP ES UC) as T. rewrite !map_length in T.
  assert (T' : bsum M (fun t => ln (evidence K (hm_A m) (hm_pi m) (nth t (map (dens e) examples) []))) <= bsum M (fun t => ln (evidence K (hm_A m') (hm_pi m') (nth t (map (dens e') examples) []))) /\ forall t, (t < M)%nat -> 0 < evidence K (hm_A m') (hm_pi m') (nth t (map (dens e') examples) [])).
  { apply T; clear T; [reflexivity| | | | | |].
    - intros t Ht. rewrite !nth_dens, !dens_length. reflexivity.
    - intros t Ht. rewrite nth_dens. apply dens_nonneg.
    - intros t Ht. rewrite nth_dens. apply dens_nonneg.
    - intros i Hi. rewrite visits_Xs by auto. now apply NT.
    - intros t n k Ht Hn Hk _. rewrite nth_dens in *. rewrite dens_length in Hn. rewrite dens_nth by auto. apply pdf_pos.
    - rewrite (bsum_ext M _ (fun t => bsum (length (nth t examples [])) (fun n => bsum K (fun k => g_at (nth t es no_post) n k * (ln (nth n (dens e' (nth t examples [])) (fun _ => 0) k) - ln (nth n (dens e (nth t examples [])) (fun _ => 0) k)))))) by (intros t _; rewrite !nth_dens, dens_length; reflexivity). apply emission_gain. }
  rewrite (bsum_ext M (fun t => ln (evidence K (hm_A m) (hm_pi m) (nth t (map (dens e) examples) []))) (fun t => ln (evidence K (hm_A m) (hm_pi m) (dens e (nth t examples []))))) in T' by (intros; now rewrite nth_dens). rewrite (bsum_ext M (fun t => ln (evidence K (hm_A m') (hm_pi m') (nth t (map (dens e') examples) []))) (fun t => ln (evidence K (hm_A m') (hm_pi m') (dens e' (nth t examples []))))) in T' by (intros; now rewrite nth_dens).
  split; [apply T'|]. intros t Ht. rewrite <- nth_dens. now apply T'.
Qed.
End Step.

Lemma loglikelihood_full : forall m e X L, nonneg_hmm m -> solved eigh e -> (loglikelihood_gaussian eigh m e X = Some L <-> proper_gaussian e /\ shaped_gaussian e X /\ X <> [] /\ 0 < evidence (hm_K m) (hm_A m) (hm_pi m) (dens e X) /\ L = ln (evidence (hm_K m) (hm_A m) (hm_pi m) (dens e X))).
Proof.
  intros m e X L NN SO. split.
  - intros E. unfold loglikelihood_gaussian in E. destruct (prob_gaussian eigh e [X]) as [pss|] eqn:P; [|discriminate]. cbn [bind] in E. apply (prob_full e [X] SO) in P. destruct P as (P & Sh & ->). cbn [map] in E. destruct (forward m (dens e X)) as [[al cs]|] eqn:F; [|discriminate]. cbn [bind fst snd] in E. apply some_inj in E. destruct (forward_ll m _ al cs NN (dens_nonneg e X _) F) as (E1 & E2 & _). split; [exact P|]. split; [apply Sh; now left|]. split; [intros ->; discriminate|]. split; [exact E1|congruence].
  - intros (P & Sh & Ne & Ev & ->). unfold loglikelihood_gaussian. rewrite (proj2 (prob_full e [X] SO (map (dens e) [X]))) by (split; [exact P|split; [intros X' [<-|[]]; exact Sh|reflexivity]]). cbn [bind map]. destruct (forward_some m (dens e X) NN (dens_nonneg e X _)) as [[al cs] F]; [unfold densities_gaussian; now destruct X|lra|]. rewrite F. cbn [bind fst snd]. destruct (forward_ll m _ al cs NN (dens_nonneg e X _) F) as (_ & E2 & _). now rewrite E2.
Qed.
Lemma total_full : forall m e examples, nonneg_hmm m -> solved eigh e -> proper_gaussian e -> (forall X, In X examples -> shaped_gaussian e X /\ X <> [] /\ 0 < evidence (hm_K m) (hm_A m) (hm_pi m) (dens e X)) ->
  total_ll_gaussian eigh m e examples = Some (bsum (length examples) (fun t => ln (evidence (hm_K m) (hm_A m) (hm_pi m) (dens e (nth t examples []))))).
Proof.
  intros m e examples NN SO P H. unfold total_ll_gaussian.
  rewrite (mapM_is (loglikelihood_gaussian eigh m e) (fun X => ln (evidence (hm_K m) (hm_A m) (hm_pi m) (dens e X)))). { cbn [bind]. f_equal. exact (Rsum_nth (fun X => ln (evidence (hm_K m) (hm_A m) (hm_pi m) (dens e X))) examples []). }
  intros X HX. destruct (H X HX) as (S1 & N & E). apply loglikelihood_full; auto.
Qed.
Lemma step_inv : forall m e examples m' e' ll, solved eigh e -> fit_step_gaussian eigh m e examples = Some (m', e', ll) -> exists es, proper_gaussian e /\ (forall X, In X examples -> shaped_gaussian e X) /\ mapM (e_step m) (map (dens e) examples) = Some es /\ update_chain m es = Some m' /\ update_gaussian e examples (map po_gamma es) = Some e' /\ ll = Rsum (map po_ll es).
Proof.
  intros m e examples m' e' ll SO E. unfold fit_step_gaussian in E. destruct (prob_gaussian eigh e examples) as [pss|] eqn:P; [|discriminate]. cbn [bind] in E. apply (prob_full e examples SO) in P. destruct P as (P & Sh & ->). destruct (mapM (e_step m) _) as [es|] eqn:ES; [|discriminate]. cbn [bind] in E. destruct (update_chain m es) as [mm|] eqn:UC; [|discriminate]. cbn [bind] in E. destruct (update_gaussian e examples _) as [ee|] eqn:UE; [|discriminate]. cbn [bind] in E. apply some_inj in E. apply pair_equal_spec in E. destruct E as [E <-]. apply pair_equal_spec in E. destruct E as [<- <-]. exists es. repeat split; auto.
Qed.
Lemma step_chain : forall m e examples m' e' ll, solved eigh e -> subprobs (hm_K m) (hm_A m) (hm_pi m) -> fit_step_gaussian eigh m e examples = Some (m', e', ll) -> hm_K m' = hm_K m /\ subprobs (hm_K m') (hm_A m') (hm_pi m') /\ ga_K e' = ga_K e /\ ga_O e' = ga_O e.
Proof.
  intros m e examples m' e' ll SO SP E. destruct (step_inv _ _ _ _ _ _ SO E) as (es & _ & _ & ES & UC & UE & _). destruct (update_chain_spec _ _ _ UC) as (K & _). split; [exact K|]. destruct (update_shape _ _ _ _ UE) as (K1 & O1 & _). split; [|auto].
  assert (N0 : forall t, (t < length (map (dens e) examples))%nat -> nonneg_all (hm_K m) (nth t (map (dens e) examples) [])) by (intros t Ht; rewrite nth_dens; apply dens_nonneg).
  destruct (new_nonneg m m' _ (map (dens e) examples) es SP ES UC eq_refl N0) as [N1 N2]. destruct (new_sums m m' es UC) as [S1 S2]. rewrite K. split; [split; [exact N1|]|].
  - destruct (hm_K m); [cbn; lra|rewrite S1; [lra|lia]].
  - intros i Hi. split; [intros; now apply N2|]. rewrite S2. destruct (Rlt_dec _ _); lra.
Qed.
Lemma step_full : forall m e examples m' e' ll, ga_K e = hm_K m -> subprobs (hm_K m) (hm_A m) (hm_pi m) -> solved eigh e -> fit_step_gaussian eigh m e examples = Some (m', e', ll) -> total_ll_gaussian eigh m e examples = Some ll /\
  (not_rare_gaussian eigh m e examples -> proper_gaussian e' -> solved eigh e' -> exists ll', total_ll_gaussian eigh m' e' examples = Some ll' /\ ll <= ll').
Proof.
  intros m e examples m' e' ll HK SP SO E. destruct (step_inv _ _ _ _ _ _ SO E) as (es & PE & Sh & ES & UC & UE & Ell). pose proof (subprobs_nonneg m SP) as NN.
  assert (Pos : forall X, In X examples -> X <> [] /\ 0 < evidence (hm_K m) (hm_A m) (hm_pi m) (dens e X)). { intros X HX. apply In_nth with (d := []) in HX. destruct HX as (t & Ht & <-). pose proof (es_nth m _ es ES t ltac:(rewrite map_length; exact Ht)) as Et. rewrite nth_dens in Et. destruct (e_step_spec _ _ _ Et) as (Ne & _ & _ & _ & _ & _ & al & cs & F & _). split; [intros Z; rewrite Z in Ne; now apply Ne|]. exact (proj1 (forward_ll m _ al cs NN (dens_nonneg e _ _) F)). }
  assert (T : total_ll_gaussian eigh m e examples = Some (bsum (length examples) (fun t => ln (evidence (hm_K m) (hm_A m) (hm_pi m) (dens e (nth t examples [])))))) by (apply total_full; auto).
  assert (L : ll = bsum (length examples) (fun t => ln (evidence (hm_K m) (hm_A m) (hm_pi m) (dens e (nth t examples []))))). { rewrite Ell, (Rsum_nth _ es no_post), (es_len m _ es ES), map_length. apply bsum_ext. intros t Ht. pose proof (es_nth m _ es ES t ltac:(rewrite map_length; exact Ht)) as Et. rewrite nth_dens in Et. destruct (e_step_spec _ _ _ Et) as (Ne & _ & _ & _ & _ & _ & al & cs & F & ->). apply (forward_ll m _ al cs NN (dens_nonneg e _ _) F). }
  split; [now rewrite T, L|]. intros NR PE' SO'. destruct (step_gain m m' e e' examples es HK SP PE SO ES UE PE' SO' UC NR) as [G1 G2]. destruct (step_chain _ _ _ _ _ _ SO SP E) as (K & SP' & K1 & O1). eexists. split.
  - apply total_full; [now apply subprobs_nonneg|exact SO'|exact PE'|]. intros X HX. split; [intros x Hx; rewrite O1; now apply (Sh X)|]. split; [now apply Pos|]. apply In_nth with (d := []) in HX. destruct HX as (t & Ht & <-). rewrite K. now apply G2.
  - rewrite L, K. exact G1.
Qed.
End Full.
