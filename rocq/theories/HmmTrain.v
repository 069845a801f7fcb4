(** Structure of trained chains and the training loop. *)
From Coq Require Import List ZArith Lia Reals Lra Bool.
From Verif Require Import Base Vec Sum StftProofs DenoiseModel WienerProofs HmmModel HmmSpec BaseProofs HmmProofs HmmEm HmmFit.
Import ListNotations.
Local Open Scope R_scope.

Lemma mapM_is : forall {A B} (f : A -> option B) (g : A -> B) l, (forall a, In a l -> f a = Some (g a)) -> mapM f l = Some (map g l).
Proof. intros A B f g l H. rewrite (mapM_ext_in f (fun a => Some (g a))) by exact H. apply mapM_total. Qed.
Lemma subprobs_nonneg : forall m, subprobs (hm_K m) (hm_A m) (hm_pi m) -> nonneg_hmm m.
Proof. intros m [[H1 _] H2]. split; [|exact H1]. intros i j Hi Hj. destruct (H2 i Hi) as [H _]. now apply H. Qed.
Lemma loglikelihood_spec : forall m e X L, nonneg_hmm m -> em_K e = hm_K m -> (loglikelihood m e X = Some L <-> proper e /\ shaped e X /\ X <> [] /\ 0 < evidence (hm_K m) (hm_A m) (hm_pi m) (densities e X) /\ L = ln (evidence (hm_K m) (hm_A m) (hm_pi m) (densities e X))).
Proof.
  intros m e X L NN HK. split.
  - intros E. unfold loglikelihood in E. destruct (prob_x_given_state e [X]) as [pss|] eqn:P; [|discriminate]. cbn [bind] in E. apply prob_spec in P. destruct P as (P & Sh & ->). cbn [map] in E. destruct (forward m (densities e X)) as [[al cs]|] eqn:F; [|discriminate]. cbn [bind fst snd] in E. apply some_inj in E. destruct (forward_ll m _ al cs NN (densities_nonneg e X _ P HK) F) as (E1 & E2 & _). split; [exact P|]. split; [intros x Hx; apply (Sh X); [now left|exact Hx]|]. split; [intros ->; discriminate|]. split; [exact E1|congruence].
  - intros (P & Sh & Ne & Ev & ->). unfold loglikelihood. rewrite (prob_some e [X] P) by (intros X' x [<-|[]] Hx; now apply Sh). cbn [bind map]. destruct (forward_some m (densities e X) NN (densities_nonneg e X _ P HK)) as [[al cs] F]; [unfold densities; now destruct X|lra|]. rewrite F. cbn [bind fst snd]. destruct (forward_ll m _ al cs NN (densities_nonneg e X _ P HK) F) as (_ & E2 & _). now rewrite E2.
Qed.
Lemma total_some : forall m e examples, nonneg_hmm m -> em_K e = hm_K m -> proper e -> (forall X, In X examples -> shaped e X /\ X <> [] /\ 0 < evidence (hm_K m) (hm_A m) (hm_pi m) (densities e X)) ->
  total_ll m e examples = Some (bsum (length examples) (fun t => ln (evidence (hm_K m) (hm_A m) (hm_pi m) (densities e (nth t examples []))))).
Proof.
  intros m e examples NN HK P H. unfold total_ll.
  rewrite (mapM_is (loglikelihood m e) (fun X => ln (evidence (hm_K m) (hm_A m) (hm_pi m) (densities e X)))). { cbn [bind]. f_equal. exact (Rsum_nth (fun X => ln (evidence (hm_K m) (hm_A m) (hm_pi m) (densities e X))) examples []). }
  intros X HX. destruct (H X HX) as (S & N & E). apply loglikelihood_spec; auto.
Qed.

Lemma fit_step_inv : forall m e examples m' e' ll, fit_step m e examples = Some (m', e', ll) -> exists es, proper e /\ (forall X, In X examples -> shaped e X) /\ mapM (e_step m) (map (densities e) examples) = Some es /\ update_chain m es = Some m' /\ update_emission e examples (map po_gamma es) = Some e' /\ ll = Rsum (map po_ll es).
Proof.
  intros m e examples m' e' ll E. unfold fit_step in E. destruct (prob_x_given_state e examples) as [pss|] eqn:P; [|discriminate]. cbn [bind] in E. apply prob_spec in P. destruct P as (P & Sh & ->). destruct (mapM (e_step m) _) as [es|] eqn:ES; [|discriminate]. cbn [bind] in E. destruct (update_chain m es) as [mm|] eqn:UC; [|discriminate]. cbn [bind] in E. destruct (update_emission e examples _) as [ee|] eqn:UE; [|discriminate]. cbn [bind] in E. apply some_inj in E. apply pair_equal_spec in E. destruct E as [E <-]. apply pair_equal_spec in E. destruct E as [<- <-]. exists es. repeat split; auto. intros X HX x Hx. now apply (Sh X).
Qed.
Lemma update_emission_shape : forall e examples g e', update_emission e examples g = Some e' -> em_K e' = em_K e /\ em_O e' = em_O e /\ (length examples <> 0)%nat.
Proof. intros e examples g e' U. unfold update_emission in U. destruct (Nat.eqb_spec (length examples) 0); [discriminate|]. destruct (forallb _ _); [|discriminate]. apply some_inj in U. subst e'. auto. Qed.

(** The new chain: probabilities, rows that are zero, entries that stay zero. *)
Lemma zero_joint : forall A pi ps z i j, A i j = 0 -> forall n, at_time n i z && at_time (n + 1) j z = true -> joint A pi ps z = 0.
Proof.
  intros A pi ps z i j HA. assert (C : forall n k ps z, at_time n i (k :: z) && at_time (n + 1) j (k :: z) = true -> chain A k ps z = 0).
  { induction n as [|n IH]; intros k qs y H; apply andb_prop in H; destruct H as [H1 H2]; unfold at_time in H1, H2; cbn [nth_error Nat.add] in H1, H2.
    - destruct y as [|q y]; [discriminate|]. cbn [nth_error] in H2. apply Nat.eqb_eq in H1, H2. subst. destruct qs; cbn [chain]; [reflexivity|]. rewrite HA. ring.
    - destruct y as [|q y]; [now rewrite Nat.add_1_r in H2; destruct n|]. destruct qs as [|p qs]; [reflexivity|]. cbn [chain]. rewrite (IH q qs y); [ring|]. unfold at_time. now rewrite H1, H2. }
  intros n H. destruct z as [|k z]; [now destruct ps|]. destruct ps as [|p ps]; [reflexivity|]. cbn [joint]. rewrite (C n k ps z H). ring.
Qed.
Lemma zero_pi : forall A pi ps z k, pi k = 0 -> at_time 0 k z = true -> joint A pi ps z = 0.
Proof. intros A pi ps z k Hp H. destruct z as [|q z]; [discriminate|]. destruct ps as [|p ps]; [reflexivity|]. unfold at_time in H. cbn [nth_error] in H. apply Nat.eqb_eq in H. subst. cbn [joint]. rewrite Hp. ring. Qed.
Lemma evidence_and_zero : forall K A pi ps ev, (forall z, ev z = true -> joint A pi ps z = 0) -> evidence_and K A pi ps ev = 0.
Proof. intros K A pi ps ev H. rewrite evidence_and_ssum. rewrite (ssum_ext _ _ _ (fun _ => 0)); [apply ssum_zero|]. intros z _ _. destruct (ev z) eqn:E; cbn [ind]; [rewrite (H z E); ring|ring]. Qed.

Section Zeros.
Variables m m' : hmm.
Variable pss : list (list (nat -> R)).
Variable es : list posterior.
Hypothesis ES : mapM (e_step m) pss = Some es.
Hypothesis UC : update_chain m es = Some m'.
Lemma Xs_zero : forall i j, (i < hm_K m)%nat -> (j < hm_K m)%nat -> hm_A m i j = 0 -> Xs es i j = 0.
Proof.
  intros i j Hi Hj HA. unfold Xs. apply bsum_zero_ext. intros t Ht. apply bsum_zero_ext. intros n Hn. rewrite (es_len m pss es ES) in Ht. pose proof (es_nth m pss es ES t Ht) as E. destruct (e_step_spec _ _ _ E) as (_ & _ & _ & LX & _ & X & _). unfold x_at. rewrite X by (auto; lia). rewrite evidence_and_zero; [unfold Rdiv; ring|]. intros z Hz. now apply (zero_joint _ _ _ _ i j HA n).
Qed.
Lemma Gs_zero : forall k, (k < hm_K m)%nat -> hm_pi m k = 0 -> Gs es k = 0.
Proof.
  intros k Hk Hp. unfold Gs. apply bsum_zero_ext. intros t Ht. rewrite (es_len m pss es ES) in Ht. pose proof (es_nth m pss es ES t Ht) as E. destruct (e_step_spec _ _ _ E) as (Ne & _ & _ & _ & G & _). unfold g_at. rewrite G; auto; [|destruct (nth t pss []); [congruence|cbn; lia]]. rewrite evidence_and_zero; [unfold Rdiv; ring|]. intros z Hz. now apply (zero_pi _ _ _ _ k).
Qed.
Lemma zeros_kept : (forall i j, (i < hm_K m)%nat -> (j < hm_K m)%nat -> hm_A m i j = 0 -> hm_A m' i j = 0) /\ forall k, (k < hm_K m)%nat -> hm_pi m k = 0 -> hm_pi m' k = 0.
Proof.
  destruct (update_chain_spec _ _ _ UC) as (_ & _ & U1 & U2). split.
  - intros i j Hi Hj HA. rewrite U2, (Xs_zero i j Hi Hj HA). destruct (Rlt_dec _ _); [reflexivity|unfold Rdiv; ring].
  - intros k Hk Hp. destruct (U1 k Hk) as [_ ->]. rewrite (Gs_zero k Hk Hp). unfold Rdiv. ring.
Qed.
End Zeros.

(** Same model, shapes and zeros. *)
Lemma refines_refl : forall m, refines m m.
Proof. intros m. repeat split; auto. Qed.
Lemma refines_trans : forall a b c, refines a b -> refines b c -> refines a c.
Proof. intros a b c (K1 & A1 & P1) (K2 & A2 & P2). rewrite K1 in *. repeat split; auto. Qed.
Lemma fit_step_refines : forall m e examples m' e' ll, fit_step m e examples = Some (m', e', ll) -> refines m m' /\ em_K e' = em_K e /\ em_O e' = em_O e.
Proof.
  intros m e examples m' e' ll E. destruct (fit_step_inv _ _ _ _ _ _ E) as (es & _ & _ & ES & UC & UE & _). destruct (update_emission_shape _ _ _ _ UE) as (S1 & S2 & _). split; [|auto]. destruct (zeros_kept m m' _ es ES UC) as [Z1 Z2]. destruct (update_chain_spec _ _ _ UC) as (K & _). repeat split; auto.
Qed.
Lemma normalized_rows_spec : forall K A B, normalized_rows K A = Some B -> forall i, (i < K)%nat -> normalized K (A i) = Some (B i).
Proof. intros K A B E i Hi. unfold normalized_rows in E. destruct (tabulate K _) as [rows|] eqn:T; [|discriminate]. cbn [bind] in E. apply some_inj in E. subst B. destruct (tabulate_spec _ _ _ T) as [_ H]. apply (H i (fun _ => 0) Hi). Qed.
Lemma renormalized_spec : forall m m', renormalized m = Some m' -> hm_K m' = hm_K m /\ (forall i j, (i < hm_K m)%nat -> (j < hm_K m)%nat -> bsum (hm_K m) (hm_A m i) <> 0 /\ hm_A m' i j = hm_A m i j / bsum (hm_K m) (hm_A m i)) /\ forall k, (k < hm_K m)%nat -> bsum (hm_K m) (hm_pi m) <> 0 /\ hm_pi m' k = hm_pi m k / bsum (hm_K m) (hm_pi m).
Proof.
  intros m m' E. unfold renormalized in E. destruct (normalized_rows _ _) as [A|] eqn:NA; [|discriminate]. cbn [bind] in E. destruct (normalized _ _) as [p|] eqn:NP; [|discriminate]. cbn [bind] in E. apply some_inj in E. subst m'. cbn [hm_K hm_A hm_pi]. split; [reflexivity|]. split.
  - intros i j Hi Hj. apply (normalized_spec _ _ _ (normalized_rows_spec _ _ _ NA i Hi) j Hj).
  - intros k Hk. apply (normalized_spec _ _ _ NP k Hk).
Qed.
Lemma renormalized_refines : forall m m', renormalized m = Some m' -> refines m m'.
Proof. intros m m' E. destruct (renormalized_spec _ _ E) as (K & A & P). repeat split; auto; [intros i j Hi Hj Z; rewrite (proj2 (A i j Hi Hj)), Z|intros k Hk Z; rewrite (proj2 (P k Hk)), Z]; unfold Rdiv; ring. Qed.
Lemma normalized_prob : forall K v, (forall k, (k < K)%nat -> 0 <= v k) -> forall p, (forall k, (k < K)%nat -> bsum K v <> 0 /\ p k = v k / bsum K v) -> subprob K p /\ ((0 < K)%nat -> bsum K p = 1).
Proof.
  intros K v Hv p Hp. pose proof (bsum_nonneg K v Hv) as Sv. assert (One : (0 < K)%nat -> bsum K p = 1). { intros H0. destruct (Hp 0%nat H0) as [Hz _]. rewrite (bsum_ext K p (fun k => v k * / bsum K v)) by (intros k Hk; apply (Hp k Hk)). rewrite bsum_scal_r. field. exact Hz. }
  split; [|exact One]. split.
  - intros k Hk. destruct (Hp k Hk) as [Hz ->]. apply Rmult_le_pos; [auto|]. left. apply Rinv_0_lt_compat. lra.
  - destruct K; [cbn; lra|]. rewrite One by lia. lra.
Qed.
Lemma renormalized_subprobs : forall m m', nonneg_hmm m -> renormalized m = Some m' -> subprobs (hm_K m') (hm_A m') (hm_pi m').
Proof.
  intros m m' [NA NP] E. destruct (renormalized_spec _ _ E) as (K & A & P). rewrite K. split; [apply (normalized_prob _ (hm_pi m) NP _ P)|]. intros i Hi. apply (normalized_prob (hm_K m) (hm_A m i) (fun j Hj => NA i j Hi Hj) _ (fun j Hj => A i j Hi Hj)).
Qed.
Lemma step_subprobs : forall m e examples m' e' ll, em_K e = hm_K m -> subprobs (hm_K m) (hm_A m) (hm_pi m) -> fit_step m e examples = Some (m', e', ll) ->
  subprobs (hm_K m') (hm_A m') (hm_pi m') /\ ((0 < hm_K m)%nat -> bsum (hm_K m) (hm_pi m') = 1) /\
  forall i, (i < hm_K m)%nat -> let v := Rsum (map (fun X => visits (hm_K m) (hm_A m) (hm_pi m) (densities e X) i) examples) in bsum (hm_K m) (hm_A m' i) = if Rlt_dec v tiny then 0 else 1.
Proof.
  intros m e examples m' e' ll HK SP E. destruct (fit_step_inv _ _ _ _ _ _ E) as (es & PE & _ & ES & UC & UE & _). destruct (update_chain_spec _ _ _ UC) as (K & _).
  assert (N0 : forall t, (t < length (map (densities e) examples))%nat -> nonneg_all (hm_K m) (nth t (map (densities e) examples) [])) by (intros t Ht; rewrite nth_densities; now apply densities_nonneg).
  destruct (new_nonneg m m' _ (map (densities e) examples) es SP ES UC eq_refl N0) as [N1 N2]. destruct (new_sums m m' es UC) as [S1 S2]. split; [|split; [exact S1|]].
  - rewrite K. split; [split; [exact N1|]|].
    + destruct (hm_K m); [cbn; lra|rewrite S1; [lra|lia]].
    + intros i Hi. split; [intros; now apply N2|]. rewrite S2. destruct (Rlt_dec _ _); lra.
  - intros i Hi. cbv zeta. rewrite S2. now rewrite (visits_Xs m e examples es HK ES i Hi).
Qed.
Lemma renormalized_some : forall m, (0 < hm_K m)%nat -> (renormalized m = None <-> bsum (hm_K m) (hm_pi m) = 0 \/ exists i, (i < hm_K m)%nat /\ bsum (hm_K m) (hm_A m i) = 0).
Proof.
  intros m HK. assert (N : forall v, bsum (hm_K m) v <> 0 -> exists p, normalized (hm_K m) v = Some p). { intros v Hv. unfold normalized, tabulate. rewrite (mapM_is _ (fun k => v k / bsum (hm_K m) v)); [cbn [bind]; eexists; reflexivity|]. intros k _. unfold rdiv. destruct (Req_EM_T _ 0); [contradiction|reflexivity]. }
  split.
  - intros E. destruct (Req_dec (bsum (hm_K m) (hm_pi m)) 0) as [|Hp]; [now left|]. right. destruct (Classical_Prop.classic (exists i, (i < hm_K m)%nat /\ bsum (hm_K m) (hm_A m i) = 0)) as [|No]; [assumption|]. exfalso. destruct (N _ Hp) as [p Ep]. unfold renormalized in E.
    assert (exists A, normalized_rows (hm_K m) (hm_A m) = Some A) as [A EA]. { unfold normalized_rows, tabulate. destruct (mapM_Some (fun i => normalized (hm_K m) (hm_A m i)) (seq 0 (hm_K m))) as (rows & -> & _); [|cbn [bind]; eexists; reflexivity]. intros i Hi. apply in_seq in Hi. apply N. intros Z. apply No. exists i. split; [lia|exact Z]. }
    rewrite EA in E. cbn [bind] in E. rewrite Ep in E. discriminate.
  - intros H. destruct (renormalized m) as [m'|] eqn:E; [|reflexivity]. exfalso. destruct (renormalized_spec _ _ E) as (_ & A & P). destruct H as [H|(i & Hi & H)]; [now apply (P 0%nat HK)|]. now apply (A i 0%nat Hi HK).
Qed.

(** ** One iteration never loses likelihood *)
Lemma step_ll : forall m e examples m' e' ll, em_K e = hm_K m -> subprobs (hm_K m) (hm_A m) (hm_pi m) -> fit_step m e examples = Some (m', e', ll) -> total_ll m e examples = Some ll /\
  (not_rare m e examples -> proper e' -> exists ll', total_ll m' e' examples = Some ll' /\ ll <= ll').
Proof.
  intros m e examples m' e' ll HK SP E. destruct (fit_step_inv _ _ _ _ _ _ E) as (es & PE & Sh & ES & UC & UE & Ell). pose proof (subprobs_nonneg m SP) as NN.
  assert (Pos : forall X, In X examples -> X <> [] /\ 0 < evidence (hm_K m) (hm_A m) (hm_pi m) (densities e X)). { intros X HX. apply In_nth with (d := []) in HX. destruct HX as (t & Ht & <-). pose proof (es_nth m _ es ES t ltac:(rewrite map_length; exact Ht)) as Et. rewrite nth_densities in Et. destruct (e_step_spec _ _ _ Et) as (Ne & _ & _ & _ & _ & _ & al & cs & F & _). split; [intros Z; rewrite Z in Ne; now apply Ne|]. exact (proj1 (forward_ll m _ al cs NN (densities_nonneg e _ _ PE HK) F)). }
  assert (T : total_ll m e examples = Some (bsum (length examples) (fun t => ln (evidence (hm_K m) (hm_A m) (hm_pi m) (densities e (nth t examples [])))))) by (apply total_some; auto).
  assert (L : ll = bsum (length examples) (fun t => ln (evidence (hm_K m) (hm_A m) (hm_pi m) (densities e (nth t examples []))))). { rewrite Ell, (Rsum_nth _ es no_post), (es_len m _ es ES), map_length. apply bsum_ext. intros t Ht. pose proof (es_nth m _ es ES t ltac:(rewrite map_length; exact Ht)) as Et. rewrite nth_densities in Et. destruct (e_step_spec _ _ _ Et) as (Ne & _ & _ & _ & _ & _ & al & cs & F & ->). apply (forward_ll m _ al cs NN (densities_nonneg e _ _ PE HK) F). }
  split; [now rewrite T, L|]. intros NR PE'. destruct (step_gain m m' e e' examples es HK SP PE ES UE PE' UC NR) as [G1 G2]. destruct (fit_step_refines _ _ _ _ _ _ E) as ((K & _) & K1 & O1). destruct (step_subprobs _ _ _ _ _ _ HK SP E) as [SP' _]. eexists. split.
  - apply total_some; [now apply subprobs_nonneg|congruence|exact PE'|]. intros X HX. split; [intros x Hx; rewrite O1; now apply (Sh X)|]. split; [now apply Pos|]. apply In_nth with (d := []) in HX. destruct HX as (t & Ht & <-). rewrite K. now apply G2.
  - rewrite L, K. exact G1.
Qed.

(** ** The loop *)
Lemma train_step : forall n m e examples m' e' m1 e1 ll, train n m e examples = Some (m', e') -> fit_step m' e' examples = Some (m1, e1, ll) -> train (S n) m e examples = Some (m1, e1).
Proof. intros n m e examples m' e' m1 e1 ll T F. cbn [train]. rewrite T. cbn [bind fst snd]. now rewrite F. Qed.
Lemma train_inv : forall n m e examples m1 e1, train (S n) m e examples = Some (m1, e1) -> exists m' e' ll, train n m e examples = Some (m', e') /\ fit_step m' e' examples = Some (m1, e1, ll).
Proof. intros n m e examples m1 e1 T. cbn [train] in T. destruct (train n m e examples) as [[m' e']|]; [|discriminate]. cbn [bind fst snd] in T. destruct (fit_step m' e' examples) as [[[m2 e2] ll]|] eqn:F; [|discriminate]. cbn [bind fst] in T. apply some_inj in T. apply pair_equal_spec in T. destruct T as [-> ->]. eauto 6. Qed.
Lemma train_refines : forall n m e examples m1 e1, train n m e examples = Some (m1, e1) -> refines m m1 /\ em_K e1 = em_K e /\ em_O e1 = em_O e.
Proof.
  induction n as [|n IH]; intros m e examples m1 e1 T.
  - cbn [train] in T. apply some_inj in T. apply pair_equal_spec in T. destruct T as [<- <-]. split; [apply refines_refl|auto].
  - destruct (train_inv _ _ _ _ _ _ T) as (m' & e' & ll & T' & F). destruct (IH _ _ _ _ _ T') as (R & K1 & O1). destruct (fit_step_refines _ _ _ _ _ _ F) as (R' & K2 & O2). split; [now apply (refines_trans _ m')|split; congruence].
Qed.
Lemma train_subprobs : forall n m e examples m1 e1, em_K e = hm_K m -> subprobs (hm_K m) (hm_A m) (hm_pi m) -> train n m e examples = Some (m1, e1) -> subprobs (hm_K m1) (hm_A m1) (hm_pi m1).
Proof.
  induction n as [|n IH]; intros m e examples m1 e1 HK SP T.
  - cbn [train] in T. apply some_inj in T. apply pair_equal_spec in T. destruct T as [<- <-]. exact SP.
  - destruct (train_inv _ _ _ _ _ _ T) as (m' & e' & ll & T' & F). destruct (train_refines _ _ _ _ _ _ T') as ((K & _) & K1 & _). apply (step_subprobs m' e' examples m1 e1 ll); [congruence|now apply (IH _ _ _ _ _ HK SP T')|exact F].
Qed.
Lemma train_mono : forall n m e examples m1 e1 ll, em_K e = hm_K m -> subprobs (hm_K m) (hm_A m) (hm_pi m) -> total_ll m e examples = Some ll ->
  train n m e examples = Some (m1, e1) -> proper e1 -> (forall t m' e', (t < n)%nat -> train t m e examples = Some (m', e') -> not_rare m' e' examples) ->
  exists ll1, total_ll m1 e1 examples = Some ll1 /\ ll <= ll1.
Proof.
  induction n as [|n IH]; intros m e examples m1 e1 ll HK SP E0 T P NR.
  - cbn [train] in T. apply some_inj in T. apply pair_equal_spec in T. destruct T as [<- <-]. exists ll. split; [exact E0|lra].
  - destruct (train_inv _ _ _ _ _ _ T) as (m' & e' & l & T' & F). destruct (train_refines _ _ _ _ _ _ T') as ((K & _) & K1 & _). destruct (fit_step_inv _ _ _ _ _ _ F) as (_ & P' & _).
    destruct (IH m e examples m' e' ll HK SP E0 T' P') as (l1 & E1 & L1); [intros; apply (NR t); auto; lia|]. destruct (step_ll m' e' examples m1 e1 l ltac:(congruence) (train_subprobs _ _ _ _ _ _ HK SP T') F) as [S1 S2]. destruct (S2 (NR n m' e' ltac:(lia) T') P) as (l2 & E2 & L2). exists l2. split; [exact E2|]. assert (l1 = l) by congruence. lra.
Qed.
Lemma loop_spec : forall fuel m0 e0 m e examples tol max_iter n old m1 e1 k, em_K e0 = hm_K m0 -> subprobs (hm_K m0) (hm_A m0) (hm_pi m0) -> train n m0 e0 examples = Some (m, e) ->
  match old with None => n = 0%nat | Some o => exists n' mo eo, n = S n' /\ train n' m0 e0 examples = Some (mo, eo) /\ total_ll mo eo examples = Some o end ->
  fit_loop fuel m e examples tol max_iter n old = Done m1 e1 k ->
  (n < k)%nat /\ ((n < max_iter)%nat -> (k <= max_iter)%nat) /\ train k m0 e0 examples = Some (m1, e1) /\
  (k <> max_iter -> exists k' ma ea mb eb a b, k = S (S k') /\ train k' m0 e0 examples = Some (ma, ea) /\ train (S k') m0 e0 examples = Some (mb, eb) /\ total_ll ma ea examples = Some a /\ total_ll mb eb examples = Some b /\ b - a < tol).
Proof.
  induction fuel as [|fuel IH]; intros m0 e0 m e examples tol max_iter n old m1 e1 k HK SP T Old E; [discriminate|]. cbn [fit_loop] in E. destruct (fit_step m e examples) as [[[m' e'] ll]|] eqn:F; [|discriminate].
  pose proof (train_step _ _ _ _ _ _ _ _ _ T F) as T1. destruct (train_refines _ _ _ _ _ _ T) as ((K & _) & K1 & _). destruct (step_ll m e examples m' e' ll ltac:(congruence) (train_subprobs _ _ _ _ _ _ HK SP T) F) as [Ell _].
  destruct (_ || (n + 1 =? max_iter)%nat) eqn:B.
  - inversion E; subst m1 e1 k. rewrite Nat.add_1_r in *. split; [lia|]. split; [lia|]. split; [exact T1|]. intros Nm. apply orb_prop in B. destruct B as [B|B]; [|apply Nat.eqb_eq in B; congruence]. destruct old as [o|]; [|discriminate]. destruct (Rlt_dec (ll - o) tol) as [Lt|]; [|discriminate]. destruct Old as (n' & mo & eo & -> & To & Eo). exists n', mo, eo, m, e, o, ll. auto 8.
  - apply orb_false_iff in B. destruct B as [_ B]. apply Nat.eqb_neq in B. rewrite Nat.add_1_r in *. destruct (IH m0 e0 m' e' examples tol max_iter (S n) (Some ll) m1 e1 k HK SP T1) as (R1 & R2 & R3 & R4); [exists n, m, e; auto|exact E|]. split; [lia|]. split; [intros; apply R2; lia|]. split; [exact R3|exact R4].
Qed.
Lemma loop_runs : forall fuel m e examples tol max_iter n old, (n < max_iter)%nat -> (max_iter <= n + fuel)%nat -> fit_loop fuel m e examples tol max_iter n old <> Running.
Proof.
  induction fuel as [|fuel IH]; intros m e examples tol max_iter n old H1 H2; [lia|]. cbn [fit_loop]. destruct (fit_step m e examples) as [[[m' e'] ll]|]; [|discriminate]. destruct (_ || (n + 1 =? max_iter)%nat) eqn:B; [discriminate|]. apply orb_false_iff in B. destruct B as [_ B]. apply Nat.eqb_neq in B. apply IH; lia.
Qed.
