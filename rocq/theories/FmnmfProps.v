(** C113, C114: FastMNMF. *)
From Coq Require Import List ZArith Lia Reals Lra Bool.
From Verif Require Import Base Vec Sum Cpx BackModel AuxivaModel AuxivaSpec BaseProofs AuxivaProofs AuxivaProps DetProofs FmnmfModel FmnmfSpec FmnmfProofs.
Import ListNotations.
Local Open Scope R_scope.

(** ** C113: the images *)
(** fastmnmf, when it returns finite numbers and has not warned about singular matrices: the
    images of the sources at a microphone add up to the signal of that microphone. *)
Theorem C113_sum : forall solve inv pinv F M N K T eps g_eps X acc n_iter Q0 W0 H0 mi y W0', is_inv inv ->
  fastmnmf solve inv pinv F M N K T eps g_eps X acc n_iter Q0 W0 H0 mi = Some (y, false, W0') ->
  match y with
  | ImagesAll g => mi = All /\ forall i t f, (i < M)%nat -> (t < T)%nat -> (f < F)%nat -> csum N (fun n => g i t f n) = X f t i
  | ImagesOne g => exists i, (i < M)%nat /\ (mi = Mic (Z.of_nat i) \/ mi = Mic (Z.of_nat i - Z.of_nat M)) /\
      forall t f, (t < T)%nat -> (f < F)%nat -> csum N (fun n => g t f n) = X f t i
  end.
Proof.
  intros solve inv pinv F M N K T eps g_eps X acc n_iter Q0 W0 H0 mi y W0' Hi H. unfold fastmnmf in H. destruct (init1 _ _ _ _ _ _ _ _ _) as [s0|]; [|discriminate]. cbn [bind] in H.
  destruct (epochs1 _ _ _ _ _ _ _ _ _ _ _ _) as [[s b]|]; [|discriminate]. cbn [bind fst snd] in H. unfold separate1 in H. destruct (invs _ _ _ _) as [Qi|] eqn:E.
  - destruct (images_of _ _ _ _ _ _ _ _) as [y'|] eqn:Ey; [|discriminate]. cbn [bind fst snd] in H. injection H as <- _ _. apply (images_add F M N T X s Qi mi y'); auto. apply (invs_left F M inv); auto.
  - destruct (images_of _ _ _ _ _ _ _ _) as [y'|] eqn:Ey; [|discriminate]. cbn [bind fst snd] in H. rewrite orb_true_r in H. discriminate.
Qed.
Print Assumptions C113_sum.
(** fastmnmf2, whenever it returns finite numbers. *)
Theorem C113_sum2 : forall solve inv F M N K T eps g_eps X acc n_iter Q0 W0 H0 mi y W0', is_inv inv ->
  fastmnmf2 solve inv F M N K T eps g_eps X acc n_iter Q0 W0 H0 mi = Some (y, W0') ->
  match y with
  | ImagesAll g => mi = All /\ forall i t f, (i < M)%nat -> (t < T)%nat -> (f < F)%nat -> csum N (fun n => g i t f n) = X f t i
  | ImagesOne g => exists i, (i < M)%nat /\ (mi = Mic (Z.of_nat i) \/ mi = Mic (Z.of_nat i - Z.of_nat M)) /\
      forall t f, (t < T)%nat -> (f < F)%nat -> csum N (fun n => g t f n) = X f t i
  end.
Proof.
  intros solve inv F M N K T eps g_eps X acc n_iter Q0 W0 H0 mi y W0' Hi H. unfold fastmnmf2 in H. destruct (init2 _ _ _ _ _ _ _ _) as [s0|]; [|discriminate]. cbn [bind] in H.
  destruct (epochs2 _ _ _ _ _ _ _ _ _ _ _) as [s|]; [|discriminate]. cbn [bind] in H. unfold separate2 in H. destruct (invs _ _ _ _) as [Qi|] eqn:E; [|discriminate]. cbn [bind] in H.
  destruct (images_of _ _ _ _ _ _ _ _) as [y'|] eqn:Ey; [|discriminate]. cbn [bind] in H. injection H as <- _. apply (images_add F M N T X s Qi mi y'); auto. apply (invs_left F M inv); auto.
Qed.
Print Assumptions C113_sum2.

(** A microphone index, from either end, gives that microphone's part of what 'all' gives;
    other indices and types raise. *)
Lemma images_slice : forall F M N T X st Qi h, images_of F M N T X st Qi All = Some h -> exists g, h = ImagesAll g /\
  (forall i, (i < M)%nat -> images_of F M N T X st Qi (Mic (Z.of_nat i)) = Some (ImagesOne (g i)) /\ images_of F M N T X st Qi (Mic (Z.of_nat i - Z.of_nat M)) = Some (ImagesOne (g i))).
Proof.
  intros F M N T X st Qi h H. unfold images_of in *. cbv zeta in *. apply guard_Some in H. destruct H as [Nz H]. injection H as <-. eexists; split; [reflexivity|]. intros i Hi. rewrite Nz. cbn [guard]. split.
  - destruct (Z.ltb_spec (Z.of_nat i) 0); [lia|]. destruct (Z.leb_spec 0 (Z.of_nat i)); [|lia]. destruct (Z.ltb_spec (Z.of_nat i) (Z.of_nat M)); [|lia]. cbn [andb]. now rewrite Nat2Z.id.
  - destruct (Z.ltb_spec (Z.of_nat i - Z.of_nat M) 0); [|lia]. replace (Z.of_nat i - Z.of_nat M + Z.of_nat M)%Z with (Z.of_nat i) by lia.
    destruct (Z.leb_spec 0 (Z.of_nat i)); [|lia]. destruct (Z.ltb_spec (Z.of_nat i) (Z.of_nat M)); [|lia]. cbn [andb]. now rewrite Nat2Z.id.
Qed.
Lemma images_raise : forall F M N T X st Qi mi, match mi with All => False | Mic z => (z < - Z.of_nat M \/ Z.of_nat M <= z)%Z | OtherMic => True end -> images_of F M N T X st Qi mi = None.
Proof.
  intros F M N T X st Qi [|z|] H; [destruct H| |]; unfold images_of; cbv zeta; destruct (all_nz3 _ _ _ _); cbn [guard]; auto.
  destruct (Z.ltb_spec z 0); [destruct (Z.leb_spec 0 (z + Z.of_nat M)); [lia|reflexivity]|]. destruct (Z.ltb_spec z (Z.of_nat M)); [lia|]. now rewrite andb_false_r.
Qed.
Theorem C113_mic : forall solve inv pinv F M N K T eps g_eps X acc n_iter Q0 W0 H0,
  (forall y w W', fastmnmf solve inv pinv F M N K T eps g_eps X acc n_iter Q0 W0 H0 All = Some (y, w, W') -> exists g, y = ImagesAll g /\
     forall i, (i < M)%nat -> fastmnmf solve inv pinv F M N K T eps g_eps X acc n_iter Q0 W0 H0 (Mic (Z.of_nat i)) = Some (ImagesOne (g i), w, W') /\
       fastmnmf solve inv pinv F M N K T eps g_eps X acc n_iter Q0 W0 H0 (Mic (Z.of_nat i - Z.of_nat M)) = Some (ImagesOne (g i), w, W')) /\
  (forall mi, match mi with All => False | Mic z => (z < - Z.of_nat M \/ Z.of_nat M <= z)%Z | OtherMic => True end ->
     fastmnmf solve inv pinv F M N K T eps g_eps X acc n_iter Q0 W0 H0 mi = None).
Proof.
  intros solve inv pinv F M N K T eps g_eps X acc n_iter Q0 W0 H0. unfold fastmnmf. destruct (init1 _ _ _ _ _ _ _ _ _) as [s0|]; cbn [bind]; [|split; [discriminate|auto]].
  destruct (epochs1 _ _ _ _ _ _ _ _ _ _ _ _) as [[s b]|]; cbn [bind fst snd]; [|split; [discriminate|auto]]. unfold separate1. split.
  - intros y w W' H. destruct (invs _ _ _ _) as [Qi|].
    all: destruct (images_of _ _ _ _ _ _ _ All) as [y'|] eqn:E; [|discriminate]; cbn [bind fst snd] in H; injection H as <- <- <-;
      destruct (images_slice _ _ _ _ _ _ _ _ E) as (g & -> & Hg); exists g; (split; [reflexivity|]); intros i Hi; destruct (Hg i Hi) as [G1 G2]; rewrite G1, G2; split; reflexivity.
  - intros mi Hm. destruct (invs _ _ _ _); rewrite images_raise by exact Hm; reflexivity.
Qed.
Print Assumptions C113_mic.
Theorem C113_mic2 : forall solve inv F M N K T eps g_eps X acc n_iter Q0 W0 H0,
  (forall y W', fastmnmf2 solve inv F M N K T eps g_eps X acc n_iter Q0 W0 H0 All = Some (y, W') -> exists g, y = ImagesAll g /\
     forall i, (i < M)%nat -> fastmnmf2 solve inv F M N K T eps g_eps X acc n_iter Q0 W0 H0 (Mic (Z.of_nat i)) = Some (ImagesOne (g i), W') /\
       fastmnmf2 solve inv F M N K T eps g_eps X acc n_iter Q0 W0 H0 (Mic (Z.of_nat i - Z.of_nat M)) = Some (ImagesOne (g i), W')) /\
  (forall mi, match mi with All => False | Mic z => (z < - Z.of_nat M \/ Z.of_nat M <= z)%Z | OtherMic => True end ->
     fastmnmf2 solve inv F M N K T eps g_eps X acc n_iter Q0 W0 H0 mi = None).
Proof.
  intros solve inv F M N K T eps g_eps X acc n_iter Q0 W0 H0. unfold fastmnmf2. destruct (init2 _ _ _ _ _ _ _ _) as [s0|]; cbn [bind]; [|split; [discriminate|auto]].
  destruct (epochs2 _ _ _ _ _ _ _ _ _ _ _) as [s|]; cbn [bind fst snd]; [|split; [discriminate|auto]]. unfold separate2. destruct (invs _ _ _ _) as [Qi|]; cbn [bind]; [|split; [discriminate|auto]]. split.
  - intros y W' H. destruct (images_of _ _ _ _ _ _ _ All) as [y'|] eqn:E; [|discriminate]; cbn [bind] in H; injection H as <- <-.
    destruct (images_slice _ _ _ _ _ _ _ _ E) as (g & -> & Hg). exists g. split; [reflexivity|]. intros i Hi. destruct (Hg i Hi) as [G1 G2]. rewrite G1, G2. split; reflexivity.
  - intros mi Hm. rewrite images_raise by exact Hm. reflexivity.
Qed.
Print Assumptions C113_mic2.

(** In the coordinates of the returned diagonaliser, every image is a share between 0 and 1 of
    the mixture, and the shares add up to one.  (fastmnmf leaves the diagonaliser in the array
    passed as W0.) *)
Theorem C113_shares : forall solve inv pinv F M N K T eps g_eps X acc n_iter Q0 W0 H0 g Q, is_inv inv -> 0 <= eps -> 0 <= g_eps ->
  (forall n f k, 0 <= W0 n f k) -> (forall n k t, 0 <= H0 n k t) ->
  fastmnmf solve inv pinv F M N K T eps g_eps X acc n_iter Q0 W0 H0 All = Some (ImagesAll g, false, Some Q) ->
  exists a : nat -> nat -> nat -> nat -> R, forall f t m, (f < F)%nat -> (t < T)%nat -> (m < M)%nat ->
    bsum N (fun n => a n f t m) = 1 /\ forall n, (n < N)%nat -> 0 <= a n f t m <= 1 /\
    csum M (fun i => (Q f m i * g i t f n)%C) = Cscal (a n f t m) (csum M (fun i => (Q f m i * X f t i)%C)).
Proof.
  intros solve inv pinv F M N K T eps g_eps X acc n_iter Q0 W0 H0 g Q Hi He Hg PW PH H. unfold fastmnmf in H. destruct (init1 _ _ _ _ _ _ _ _ _) as [s0|] eqn:E0; [|discriminate]. cbn [bind] in H.
  destruct (epochs1 _ _ _ _ _ _ _ _ _ _ _ _) as [[s b]|] eqn:E1; [|discriminate]. cbn [bind fst snd] in H.
  assert (Fi : fine1 F M N K T eps s). { apply (epochs1_fine _ _ _ _ _ _ _ _ _ _ _ _ _ E1). cbn. apply (init1_fine F M N K T eps g_eps Hg Q0 W0 H0); auto; intros ? ? ? _ _ _; auto. }
  unfold separate1 in H. destruct (invs _ _ _ _) as [Qi|] eqn:E.
  - destruct (images_of _ _ _ _ _ _ _ _) as [y'|] eqn:Ey; [|discriminate]. cbn [bind fst snd] in H. injection H as -> _ EQ. assert (EQ' : Q = sQ s) by (destruct Q0; congruence). rewrite EQ'.
    destruct Fi as (Sg & EL & _). apply (images_shares F M N T X s Qi g); [now apply (invs_right F M inv)| |apply Sg|exact Ey]. intros n f t Hn Hf Ht. now apply (L_nonneg F M N K T eps s He Sg EL).
  - destruct (images_of _ _ _ _ _ _ _ _) as [y'|] eqn:Ey; [|discriminate]. cbn [bind fst snd] in H. rewrite orb_true_r in H. discriminate.
Qed.
Print Assumptions C113_shares.
Theorem C113_shares2 : forall solve inv F M N K T eps g_eps X acc n_iter Q0 W0 H0 g Q, is_inv inv -> 0 <= eps -> 0 <= g_eps -> (0 < F)%nat ->
  (forall n f k, 0 <= W0 n f k) -> (forall n k t, 0 <= H0 n k t) ->
  fastmnmf2 solve inv F M N K T eps g_eps X acc n_iter Q0 W0 H0 All = Some (ImagesAll g, Some Q) ->
  exists a : nat -> nat -> nat -> nat -> R, forall f t m, (f < F)%nat -> (t < T)%nat -> (m < M)%nat ->
    bsum N (fun n => a n f t m) = 1 /\ forall n, (n < N)%nat -> 0 <= a n f t m <= 1 /\
    csum M (fun i => (Q f m i * g i t f n)%C) = Cscal (a n f t m) (csum M (fun i => (Q f m i * X f t i)%C)).
Proof.
  intros solve inv F M N K T eps g_eps X acc n_iter Q0 W0 H0 g Q Hi He Hg HF PW PH H. unfold fastmnmf2 in H. destruct (init2 _ _ _ _ _ _ _ _) as [s0|] eqn:E0; [|discriminate]. cbn [bind] in H.
  destruct (epochs2 _ _ _ _ _ _ _ _ _ _ _) as [s|] eqn:E1; [|discriminate]. cbn [bind] in H.
  pose proof (init2_fine F M N K T g_eps Hg Q0 W0 H0 s0 ltac:(intros ? ? ? _ _ _; auto) ltac:(intros ? ? ? _ _ _; auto) E0) as F0.
  unfold separate2 in H. destruct (invs _ _ _ _) as [Qi|] eqn:E; [|discriminate]. cbn [bind] in H.
  destruct (images_of _ _ _ _ _ _ _ _) as [y'|] eqn:Ey; [|discriminate]. cbn [bind fst snd] in H. injection H as -> EQ. assert (EQ' : Q = sQ s) by (destruct Q0; congruence). rewrite EQ'.
  assert (Fi : signs F M N K T s /\ nonneg3 N F T (sL s)).
  { destruct n_iter as [|n]; [cbn in E1; injection E1 as <-; split; [apply F0|destruct F0 as (Sg & _ & EL & _); apply (L_nonneg F M N K T 0); [lra|exact Sg|exact EL]]|].
    unfold epochs2 in E1. cbn [seq foldM] in E1. destruct (epoch2 _ _ _ _ _ _ _ _ _ _ _) as [s1|] eqn:Es; [|discriminate]. cbn [bind] in E1.
    assert (F1 : fine2 F M N K T eps eps s1) by (eapply epoch2_fine; eauto).
    assert (Ind : forall l a b, foldM (epoch2 solve F M N K T eps X acc) l a = Some b -> fine2 F M N K T eps eps a -> fine2 F M N K T eps eps b).
    { induction l as [|k l IH]; intros a b Hf Fa; cbn [foldM] in Hf; [now injection Hf as <-|]. destruct (epoch2 solve F M N K T eps X acc a k) as [c|] eqn:Ec; [|discriminate]. cbn [bind] in Hf. apply (IH _ _ Hf). eapply epoch2_fine; eauto. }
    destruct (Ind _ _ _ E1 F1) as (Sg & _ & EL & _). split; [auto|]. exact (L_nonneg F M N K T eps s He Sg EL). }
  apply (images_shares F M N T X s Qi g); [now apply (invs_right F M inv)|apply Fi|apply Fi|exact Ey].
Qed.
Print Assumptions C113_shares2.

(** ** C114: the updates *)
(** The penalised cost of fastmnmf: the constants added to the denominators of the updates
    are a penalty on the sums of the entries. *)
Definition cost1 (F M N K T : nat) (eps : R) (X : nat -> nat -> nat -> C) (st : state) : R :=
  nll F M N K T eps 0 X (sQ st) (sW st) (sH st) (sG st) + eps * (total3 N F K (sW st) + total3 N K T (sH st) + total3 N F M (sG st)).
Lemma cost1_eq : forall F M N K T eps X st, sL st = lambda K eps (sW st) (sH st) -> sY st = model N 0 (sL st) (sG st) ->
  cost1 F M N K T eps X st = fitsum F M T X st - INR T * bsum F (fun f => ln (Cabs2 (det M (sQ st f)))) + eps * (total3 N F K (sW st) + total3 N K T (sH st) + total3 N F M (sG st)).
Proof. intros F M N K T eps X st EL EY. unfold cost1, nll, fitsum. rewrite EY, EL. reflexivity. Qed.

(** fastmnmf, at any iteration: updating the bases, the activations and the gains in turn
    (accelerate=False) never increases the penalised cost. *)
Theorem C114_fit : forall solve pinv F M N K T eps g_eps X acc n_iter Q0 W0 H0 st0 st b s1 s2 s3, 0 <= eps -> 0 <= g_eps -> (0 < M)%nat -> (0 < K)%nat ->
  (forall n f k, 0 <= W0 n f k) -> (forall n k t, 0 <= H0 n k t) ->
  init1 F M N K eps g_eps Q0 W0 H0 = Some st0 -> epochs1 solve pinv F M N K T eps X acc n_iter st0 = Some (st, b) ->
  update_WH1 F M N K T eps X false st = Some s1 -> update_G1 F M N T eps X s1 = Some s2 -> foldM (update_Q1 solve pinv F M T eps X) (seq 0 M) (s2, b) = Some s3 ->
  sQ s2 = sQ st /\ cost1 F M N K T eps X s2 <= cost1 F M N K T eps X s1 <= cost1 F M N K T eps X st.
Proof.
  intros solve pinv F M N K T eps g_eps X acc n_iter Q0 W0 H0 st0 st b s1 s2 s3 He Hg HM HK PW PH E0 E1 EW EG E3.
  assert (Fi : fine1 F M N K T eps st). { apply (epochs1_fine _ _ _ _ _ _ _ _ _ _ _ _ _ E1). cbn. apply (init1_fine F M N K T eps g_eps Hg Q0 W0 H0); auto; intros ? ? ? _ _ _; auto. }
  destruct (WH1_fine _ _ _ _ _ _ _ _ _ _ Fi EW) as (F1 & Q1 & _).
  assert (Nz2 : all_nz3 F T M (sY s2) = true). { apply all_nz3_intro. intros f t m Hf Ht Hm. apply (Q1_nz _ _ _ _ _ _ _ _ _ _ E3 m); [apply in_seq; lia|auto|auto]. }
  destruct (G_step1 F M N K T eps X He s1 s2 F1 EG Nz2) as (Q2 & W2 & H2 & F2 & D2). split; [now rewrite Q2|]. split.
  - rewrite !cost1_eq; try apply F2; try apply F1. rewrite Q2, W2, H2. lra.
  - rewrite !cost1_eq; try apply F1; try apply Fi. rewrite Q1.
    unfold update_WH1 in EW. apply guard_Some in EW. destruct EW as [Nz EW]. destruct (step_W _ _ _ _ _ _ _ _) as [a1|] eqn:Ea; [|discriminate]. cbn [bind] in EW. apply guard_Some in EW. destruct EW as [Nz1 EW].
    destruct (step_H _ _ _ _ _ _ _ _) as [a3|] eqn:Eb; [|discriminate]. cbn [bind] in EW. injection EW as EW.
    destruct Fi as (Sg & EL & EY). destruct (W_step F M N K T X HM HK eps 0 eps st a1 He (Rle_refl 0) He Sg EL EY Nz Ea Nz1) as (Qa & Ha & Ga & Sa & Da).
    assert (NzG : all_nz3 F T M (sY s1) = true). { unfold update_G1 in EG. apply guard_Some in EG. apply EG. }
    destruct (H_step F M N K T X HM HK eps 0 eps (refresh1 N K eps a1) a3 He (Rle_refl 0) He Sa eq_refl eq_refl Nz1 Eb) as (Qb & Wb & Gb & Sb & Db); [rewrite <- EW in NzG; exact NzG|].
    assert (A1 : fitsum F M T X (refresh1 N K eps a1) + eps * total3 N F K (sW a1) <= fitsum F M T X st + eps * total3 N F K (sW st)) by (unfold fitsum at 1; cbn [refresh1 sQ sY]; rewrite Qa; exact Da).
    assert (A3 : fitsum F M T X (refresh1 N K eps a3) + eps * total3 N K T (sH a3) <= fitsum F M T X (refresh1 N K eps a1) + eps * total3 N K T (sH a1)) by (unfold fitsum at 1; cbn [refresh1 sQ sY]; rewrite Qb; exact Db).
    rewrite <- EW. cbn [refresh1 sW sH sG sQ sL sY] in *. rewrite Wb, Gb, Ga. rewrite Ha in A3. lra.
Qed.
Print Assumptions C114_fit.

(** fastmnmf2, at any iteration, started with nonsingular matrices: updating the gains and then
    the rows of the diagonaliser never increases the cost; the matrices stay nonsingular. *)
Theorem C114_fit2 : forall solve F M N K T eps g_eps X acc n_iter Q0 W0 H0 st0 st s1 s2 s3, is_solve solve -> 0 <= eps -> 0 <= g_eps -> (0 < F)%nat -> (0 < M)%nat -> (0 < K)%nat -> (0 < T)%nat ->
  (forall n f k, 0 <= W0 n f k) -> (forall n k t, 0 <= H0 n k t) -> (forall q f, Q0 = Some q -> (f < F)%nat -> det M (q f) <> C0) ->
  init2 F M N K g_eps Q0 W0 H0 = Some st0 -> epochs2 solve F M N K T eps X acc n_iter st0 = Some st ->
  update_WH2 F M N K T eps X acc st = Some s1 -> update_G2 F M N T eps X s1 = Some s2 -> foldM (update_Q2 solve F M T X) (seq 0 M) s2 = Some s3 ->
  let J s := nll F M N K T eps eps X (sQ s) (sW s) (sH s) (sG s) in
  J s3 <= J s2 <= J s1 /\ (forall f, (f < F)%nat -> det M (sQ st f) <> C0 /\ det M (sQ s3 f) <> C0).
Proof.
  intros solve F M N K T eps g_eps X acc n_iter Q0 W0 H0 st0 st s1 s2 s3 Hs He Hg HF HM HK HT PW PH HD E0 E1 EW EG E3 J.
  pose proof (init2_fine F M N K T g_eps Hg Q0 W0 H0 st0 ltac:(intros ? ? ? _ _ _; auto) ltac:(intros ? ? ? _ _ _; auto) E0) as F0.
  assert (D0 : dets F M (sQ st0)). { unfold init2 in E0. destruct (Q_init F M Q0) as [Qn|] eqn:Eq; [|discriminate]. cbn [bind] in E0. injection E0 as <-. cbn [sQ]. now apply (Q_init_dets _ _ _ _ Eq). }
  assert (Ds : dets F M (sQ st)) by (eapply (epochs2_dets solve F M N K T eps X Hs He HF HM HK HT); eauto).
  destruct (epochs2_fine solve F M N K T eps X acc _ st0 st HF E1 (ex_intro _ 0 (ex_intro _ 0 F0))) as (e1 & e2 & Fi).
  destruct (WH2_fine _ _ _ _ _ _ _ _ _ _ _ _ Fi EW) as (F1 & Q1 & _). destruct (G2_fine _ _ _ _ _ _ _ _ _ F1 EG) as (F2 & Q2).
  destruct (Q2_fine _ _ _ _ _ _ _ _ _ _ _ E3 F2) as (F3 & Nz).
  assert (Nz2 : all_nz3 F T M (sY s2) = true). { apply all_nz3_intro. intros f t m Hf Ht Hm. apply Nz; auto. apply in_seq. lia. }
  assert (EJ : forall s, fine2 F M N K T eps eps s -> J s = total F M T X s). { intros s (_ & _ & EL & EY). unfold J, nll, total, fitsum. rewrite EY, EL. reflexivity. }
  destruct (G_step2 F M N K T eps X He HM HK HT s1 s2 F1 EG Nz2) as (_ & _ & _ & _ & DG).
  destruct (Q_steps2 solve F M T X Hs HT (seq 0 M) s2 s3) as (D3 & _ & _ & _ & _ & _ & DQ); auto; [intros m Hm; apply in_seq in Hm; lia|now apply (Y_pos2 F M N K T eps)|now rewrite Q2, Q1|].
  rewrite !EJ by auto. split; [split; [exact DQ|unfold total; rewrite Q2; lra]|]. intros f Hf. split; auto.
Qed.
Print Assumptions C114_fit2.

(** fastmnmf2 ignores the option [accelerate]: the result is the same with and without. *)
Lemma WH2_same : forall F M N K T eps X a b st, update_WH2 F M N K T eps X a st = update_WH2 F M N K T eps X b st.
Proof.
  assert (S : forall F M N K T eps X st, update_WH2 F M N K T eps X true st = update_WH2 F M N K T eps X false st).
  { intros. unfold update_WH2. destruct (all_nz3 _ _ _ _); [|reflexivity]. cbn [guard]. unfold step_W. destruct (all_nz3 N F K _); [|reflexivity]. cbn [guard bind]. unfold step_H, refresh2, tmp1, tmp2, power, proj. cbn [sQ sG sW sH sL sY]. destruct (all_nz3 N K T _); reflexivity. }
  intros F M N K T eps X [] [] st; auto.
Qed.
Theorem C114_accelerate : forall solve inv F M N K T eps g_eps X n_iter Q0 W0 H0 mi,
  fastmnmf2 solve inv F M N K T eps g_eps X true n_iter Q0 W0 H0 mi = fastmnmf2 solve inv F M N K T eps g_eps X false n_iter Q0 W0 H0 mi.
Proof.
  intros. unfold fastmnmf2, epochs2. destruct (init2 _ _ _ _ _ _ _ _) as [s0|]; [|reflexivity]. cbn [bind].
  assert (E : forall l s, foldM (epoch2 solve F M N K T eps X true) l s = foldM (epoch2 solve F M N K T eps X false) l s).
  { induction l as [|n l IH]; intros s; [reflexivity|]. cbn [foldM]. unfold epoch2 at 1 3. rewrite (WH2_same F M N K T eps X true false). destruct (bind (update_WH2 _ _ _ _ _ _ _ _ _) _) as [s1|]; [|reflexivity]. cbn [bind]. apply IH. }
  now rewrite E.
Qed.
Print Assumptions C114_accelerate.

(** ** Cases *)
Definition inv2 (n : nat) (A : mat) : option mat :=
  if Nat.eqb n 2 then
    let d := (A 0 0 * A 1 1 - A 0 1 * A 1 0)%C%nat in
    if C_eq_dec d C0 then None
    else Some (fun i j => match i, j with O, O => Cdiv (A 1 1)%nat d | O, _ => Cdiv (Copp (A 0 1)%nat) d | _, O => Cdiv (Copp (A 1 0)%nat) d | _, _ => Cdiv (A 0 0)%nat d end)
  else if Nat.eqb n 1 then if C_eq_dec (A 0%nat 0%nat) C0 then None else Some (fun _ _ => Cdiv C1 (A 0%nat 0%nat))
  else None.
Lemma Cdiv_inv : forall a b, b <> C0 -> Cdiv a b = (a * Cdiv C1 b)%C.
Proof. intros a b H. unfold Cdiv. apply C_eq; cbn; ring. Qed.
Lemma Cdiv_one : forall b, b <> C0 -> (b * Cdiv C1 b)%C = C1.
Proof. intros b H. assert (P : Cabs2 b <> 0) by (pose proof (Cabs2_pos b H); lra). unfold Cdiv. apply C_eq; unfold Cabs2 in *; cbn; field; auto. Qed.
Lemma inv2_ok : is_inv inv2.
Proof.
  intros n A B H i j Hi Hj. unfold inv2 in H. destruct (Nat.eqb_spec n 2) as [->|]; [|destruct (Nat.eqb_spec n 1) as [->|]; [|discriminate]].
  - destruct (C_eq_dec _ C0) as [|Nd]; [discriminate|]. injection H as <-. set (d := (A 0 0 * A 1 1 - A 0 1 * A 1 0)%C%nat) in *. pose proof (Cdiv_one d Nd) as E1. set (e := Cdiv C1 d) in *.
    unfold mulmat. rewrite !csum_S, !csum_0. assert (Dd : forall a, Cdiv a d = (a * e)%C) by (intros; now apply Cdiv_inv).
    destruct i as [|[|]]; destruct j as [|[|]]; try lia; cbn [unit_vec Nat.eqb]; unfold unit_vec; cbn [Nat.eqb]; rewrite !Dd; split; (ring || (rewrite <- E1; unfold d; ring)).
  - destruct (C_eq_dec _ C0) as [|Nd]; [discriminate|]. injection H as <-. assert (i = 0%nat) as -> by lia. assert (j = 0%nat) as -> by lia. unfold mulmat. rewrite !csum_S, !csum_0. unfold unit_vec. cbn [Nat.eqb].
    pose proof (Cdiv_one _ Nd) as E1. split; rewrite <- E1 at 2; ring.
Qed.
Definition one3 (_ _ _ : nat) : R := 1.
Definition none_solve (n : nat) (A : mat) (b : nat -> C) : option (nat -> C) := None.
(** two sources, one microphone, no iterations *)
Example C113_case : exists g, fastmnmf none_solve inv2 (fun _ A => A) 1 1 2 1 1 1 (1/2) (fun _ _ _ => RtoC 3) true 0 None one3 one3 (Mic (-1)) = Some (ImagesOne g, false, None) /\
  g 0%nat 0%nat 0%nat = RtoC 2 /\ g 0%nat 0%nat 1%nat = RtoC 1.
Proof.
  assert (Ei : exists s, init1 1 1 2 1 1 (1/2) None one3 one3 = Some s /\ sQ s 0%nat 0%nat 0%nat = C1 /\ (forall n, sL s n 0%nat 0%nat = 2) /\ sG s 0%nat 0%nat 0%nat = 1 /\ sG s 1%nat 0%nat 0%nat = 1/2).
  { unfold init1, Q_init. cbv zeta. rewrite all_nz2_intro.
    - cbn [guard bind]. eexists. split; [reflexivity|]. cbn [refresh1 sQ sL sG]. split; [|split; [|split]].
      + match goal with |- context [sqrt ?x] => replace x with 1 by (cbn; ring) end. rewrite sqrt_1. apply C_eq; cbn; field.
      + intros n. unfold lambda, one3. cbn. lra.
      + reflexivity.
      + reflexivity.
    - intros i j Hi Hj. assert (i = 0%nat) as -> by lia. assert (j = 0%nat) as -> by lia. cbn. lra. }
  destruct Ei as (s & Es & EQ & EL & EG0 & EG1). unfold fastmnmf. rewrite Es. cbn [bind epochs1 seq foldM fst snd]. unfold separate1, invs, for_all_f. cbn [seq mapM]. unfold inv2. cbn [Nat.eqb].
  rewrite EQ. destruct (C_eq_dec C1 C0) as [Z|_]; [apply (f_equal fst) in Z; cbn in Z; lra|]. cbn [bind mapM nth]. unfold images_of. cbv zeta. rewrite all_nz3_intro.
  - cbn [guard Z.ltb Z.compare Z.add Z.of_nat Z.pos_sub Pos.of_succ_nat Z.leb andb Z.to_nat bind fst snd orb]. eexists. split; [reflexivity|]. cbn [nth]. unfold proj. rewrite !csum_S, !csum_0, EQ. cbn [bsum]. rewrite !EL, EG0, EG1.
    split; unfold Cdiv; apply C_eq; unfold Cabs2; cbn; field.
  - intros i j k Hi Hj Hk. assert (i = 0%nat) as -> by lia. assert (j = 0%nat) as -> by lia. assert (k = 0%nat) as -> by lia. cbn. rewrite !EL, EG0, EG1. lra.
Qed.
(** The array passed as W0 is overwritten: here 2 becomes 1 without a single iteration. *)
Theorem C113_W0_refuted : exists inv X q y w q', is_inv inv /\
  fastmnmf none_solve inv (fun _ A => A) 1 1 1 1 1 1 (1/2) X true 0 (Some q) one3 one3 All = Some (y, w, Some q') /\ q' 0%nat 0%nat 0%nat <> q 0%nat 0%nat 0%nat.
Proof.
  set (q := (fun _ => (fun _ _ => RtoC 2) : mat) : nat -> mat). exists inv2, (fun _ _ _ => RtoC 3), q.
  assert (Ei : exists s, init1 1 1 1 1 1 (1/2) (Some q) one3 one3 = Some s /\ sQ s 0%nat 0%nat 0%nat = C1 /\ (forall n, sL s n 0%nat 0%nat = 2) /\ sG s 0%nat 0%nat 0%nat = 1).
  { unfold init1, Q_init. cbv zeta. rewrite all_nz2_intro.
    - cbn [guard bind]. eexists. split; [reflexivity|]. cbn [refresh1 sQ sL sG]. split; [|split].
      + match goal with |- context [sqrt ?x] => replace x with (2 * 2) by (cbn; ring) end. rewrite sqrt_square by lra. apply C_eq; cbn; field.
      + intros n. unfold lambda, one3. cbn. lra.
      + reflexivity.
    - intros i j Hi Hj. assert (i = 0%nat) as -> by lia. assert (j = 0%nat) as -> by lia. cbn. lra. }
  destruct Ei as (s & Es & EQ & EL & EG0). unfold fastmnmf. rewrite Es. cbn [bind epochs1 seq foldM fst snd]. unfold separate1, invs, for_all_f. cbn [seq mapM]. unfold inv2 at 2. cbn [Nat.eqb].
  rewrite EQ. destruct (C_eq_dec C1 C0) as [Z|_]; [apply (f_equal fst) in Z; cbn in Z; lra|]. cbn [bind mapM nth]. unfold images_of. cbv zeta. rewrite all_nz3_intro.
  - cbn [guard bind fst snd orb]. do 3 eexists. split; [exact inv2_ok|]. split; [reflexivity|]. rewrite EQ. intros Z. apply (f_equal fst) in Z. cbn in Z. lra.
  - intros i j k Hi Hj Hk. assert (i = 0%nat) as -> by lia. assert (j = 0%nat) as -> by lia. assert (k = 0%nat) as -> by lia. cbn. rewrite !EL, EG0. lra.
Qed.
Print Assumptions C113_W0_refuted.
(** With a singular diagonaliser fastmnmf warns and uses the pseudo-inverse; the images then do
    not add up to the recording. *)
Theorem C113_singular_refuted : exists inv pinv X q A P g q', is_inv inv /\
  (forall i j, (i < 2)%nat -> (j < 2)%nat -> mulmat 2 A (mulmat 2 P A) i j = A i j /\ mulmat 2 P (mulmat 2 A P) i j = P i j /\
     Conj (mulmat 2 A P i j) = mulmat 2 A P j i /\ Conj (mulmat 2 P A i j) = mulmat 2 P A j i) /\
  fastmnmf none_solve inv pinv 1 2 1 1 1 1 (1/2) X true 0 (Some q) one3 one3 All = Some (ImagesAll g, true, Some q') /\
  (forall i j, (i < 2)%nat -> (j < 2)%nat -> q' 0%nat i j = A i j) /\ pinv 2%nat (q' 0%nat) = P /\ csum 1 (fun n => g 1%nat 0%nat 0%nat n) <> X 0%nat 0%nat 1%nat.
Proof.
  set (A := (fun (i j : nat) => match j with O => C1 | _ => C0 end) : mat). set (P := (fun (i j : nat) => match i with O => RtoC (1/2) | _ => C0 end) : mat).
  set (q := (fun _ => A) : nat -> mat). exists inv2, (fun _ _ => P), (fun _ _ _ => RtoC 3), q, A, P.
  assert (Ei : exists s, init1 1 2 1 1 1 (1/2) (Some q) one3 one3 = Some s /\ (forall i j, sQ s 0%nat i j = A i j) /\ (forall n, sL s n 0%nat 0%nat = 2) /\ (forall m, sG s 0%nat 0%nat m = 1)).
  { unfold init1, Q_init. cbv zeta. rewrite all_nz2_intro.
    - cbn [guard bind]. eexists. split; [reflexivity|]. cbn [refresh1 sQ sL sG]. split; [|split].
      + intros i j. match goal with |- context [sqrt ?x] => replace x with 1 by (cbn; ring) end. rewrite sqrt_1. unfold q, A; destruct j; apply C_eq; cbn; field.
      + intros n. unfold lambda, one3. cbn. lra.
      + intros m. unfold G_init. now rewrite Nat.mod_1_r.
    - intros i j Hi Hj. cbn. lra. }
  destruct Ei as (s & Es & EQ & EL & EG0). unfold fastmnmf. rewrite Es. cbn [bind epochs1 seq foldM fst snd]. unfold separate1, invs, for_all_f. cbn [seq mapM]. unfold inv2 at 2. cbn [Nat.eqb].
  rewrite !EQ. destruct (C_eq_dec _ C0) as [_|N]; [|exfalso; apply N; unfold A; ring]. cbn [bind mapM nth]. unfold images_of. cbv zeta. rewrite all_nz3_intro.
  - cbn [guard bind fst snd orb]. do 2 eexists. split; [exact inv2_ok|]. split; [|split; [reflexivity|split; [intros; apply EQ|split; [reflexivity|]]]].
    + intros i j Hi Hj. unfold mulmat. rewrite !csum_S, !csum_0. destruct i as [|[|]]; destruct j as [|[|]]; try lia; unfold A, P; repeat split; apply C_eq; cbn; field.
    + rewrite !csum_S, !csum_0. unfold P. intros Z. apply (f_equal fst) in Z. cbn in Z. lra.
  - intros i j k Hi Hj Hk. assert (i = 0%nat) as -> by lia. assert (j = 0%nat) as -> by lia. cbn. rewrite EL, EG0. lra.
Qed.
Print Assumptions C113_singular_refuted.

(** ** fastmnmf stays finite *)
Lemma lambda_pos : forall F M N K T eps st, 0 < eps -> signs F M N K T st -> forall n f t, (n < N)%nat -> (f < F)%nat -> (t < T)%nat -> 0 < lambda K eps (sW st) (sH st) n f t.
Proof.
  intros F M N K T eps st He (A & B & _) n f t Hn Hf Ht. unfold lambda. assert (0 <= bsum K (fun k => sW st n f k * sH st n k t)); [|lra]. apply bsum_nonneg. intros k Hk. apply Rmult_le_pos; auto.
Qed.
Lemma bsum_gt : forall n f, (forall i, (i < n)%nat -> 0 <= f i) -> (exists i, (i < n)%nat /\ 0 < f i) -> 0 < bsum n f.
Proof. intros n f H (i & Hi & Pi). pose proof (bsum_term_le n f H i Hi). lra. Qed.
Lemma model_pos : forall F M N K T eps st, 0 < eps -> signs F M N K T st -> (forall f m, (f < F)%nat -> (m < M)%nat -> exists n, (n < N)%nat /\ 0 < sG st n f m) ->
  forall f t m, (f < F)%nat -> (t < T)%nat -> (m < M)%nat -> 0 < model N 0 (lambda K eps (sW st) (sH st)) (sG st) f t m.
Proof.
  intros F M N K T eps st He Sg Hg f t m Hf Ht Hm. unfold model. rewrite Rplus_0_r. destruct (Hg f m Hf Hm) as (n & Hn & Pn). apply bsum_gt.
  - intros k Hk. apply Rmult_le_pos; [left; now apply (lambda_pos F M N K T)|now apply Sg].
  - exists n. split; [auto|]. apply Rmult_lt_0_compat; [now apply (lambda_pos F M N K T)|auto].
Qed.
Lemma Q_row_ok : forall M eps V x, 0 < eps -> exists row, Q_row M eps V x = Some row.
Proof.
  intros M eps V x He. unfold Q_row. cbv zeta. set (d := (csqrt _ + RtoC eps)%C). assert (P : 0 < fst d) by (unfold d, csqrt; cbn; pose proof (sqrt_pos ((Cabs (csum M (fun i => csum M (fun j => (Conj (x i) * V i j * x j)%C))) + fst (csum M (fun i => csum M (fun j => (Conj (x i) * V i j * x j)%C)))) / 2)); cbn in *; lra).
  unfold nzb. destruct (Req_EM_T (Cabs2 d) 0) as [Z|_]; [exfalso; unfold Cabs2 in Z; nra|]. cbn [guard]. eauto.
Qed.
Lemma for_all_f_total : forall F g, (forall f, (f < F)%nat -> exists w, g f = Some w) -> exists W, for_all_f F g = Some W.
Proof.
  intros F g H. unfold for_all_f. assert (E : exists l, mapM g (seq 0 F) = Some l); [|destruct E as (l & ->); cbn [bind]; eauto].
  assert (G : forall n a, (forall f, (a <= f < a + n)%nat -> exists w, g f = Some w) -> exists l, mapM g (seq a n) = Some l).
  { induction n as [|n IH]; intros a Ha; cbn [seq mapM]; [eauto|]. destruct (Ha a ltac:(lia)) as (w & ->). cbn [bind]. destruct (IH (S a)) as (l & ->); [intros; apply Ha; lia|]. cbn [bind]. eauto. }
  apply G. intros; apply H; lia.
Qed.
Lemma Q1_total : forall solve pinv F M T eps X l st b, 0 < eps -> (forall f t m, (f < F)%nat -> (t < T)%nat -> In m l -> sY st f t m <> 0) ->
  exists s, foldM (update_Q1 solve pinv F M T eps X) l (st, b) = Some s.
Proof.
  induction l as [|m l IH]; intros st b He Nz; cbn [foldM]; [eauto|]. unfold update_Q1 at 1. rewrite all_nz2_intro by (intros f t Hf Ht; apply Nz; auto; now left). cbn [guard]. cbv zeta.
  match goal with |- context [match ?e with Some _ => b | None => true end] => destruct e as [x|] end;
    (match goal with |- context [bind (for_all_f F ?G) _] => destruct (for_all_f_total F G) as (Q & EQ) end;
     [intros f Hf; match goal with |- context [Q_row M eps ?V ?x] => destruct (Q_row_ok M eps V x He) as (row & ->) end; cbn [bind]; eauto|];
     rewrite EQ; cbn [bind]; apply IH; auto; intros f t k Hf Ht Hk; cbn [sY]; apply Nz; auto; now right).
Qed.
(** fastmnmf: as long as every channel has a source with positive gain, the updates of the
    bases, activations and gains give finite numbers; if no projected channel is silent
    throughout, so do the updates of the diagonaliser, and the gains stay positive. *)
Theorem C114_finite : forall solve pinv F M N K T eps g_eps X acc n_iter Q0 W0 H0 st0 st b, 0 < eps -> 0 <= g_eps ->
  (forall n f k, 0 <= W0 n f k) -> (forall n k t, 0 <= H0 n k t) ->
  init1 F M N K eps g_eps Q0 W0 H0 = Some st0 -> epochs1 solve pinv F M N K T eps X acc n_iter st0 = Some (st, b) ->
  (forall f m, (f < F)%nat -> (m < M)%nat -> exists n, (n < N)%nat /\ 0 < sG st n f m) ->
  exists s1 s2, update_WH1 F M N K T eps X acc st = Some s1 /\ update_G1 F M N T eps X s1 = Some s2 /\
    ((forall f m, (f < F)%nat -> (m < M)%nat -> exists t, (t < T)%nat /\ csum M (fun j => (sQ st f m j * X f t j)%C) <> C0) ->
     exists s3, foldM (update_Q1 solve pinv F M T eps X) (seq 0 M) (s2, b) = Some s3 /\
       forall f m, (f < F)%nat -> (m < M)%nat -> exists n, (n < N)%nat /\ 0 < sG (fst s3) n f m).
Proof.
  intros solve pinv F M N K T eps g_eps X acc n_iter Q0 W0 H0 st0 st b He Hg PW PH E0 E1 Gp.
  assert (Fi : fine1 F M N K T eps st). { apply (epochs1_fine _ _ _ _ _ _ _ _ _ _ _ _ _ E1). cbn. apply (init1_fine F M N K T eps g_eps Hg Q0 W0 H0); auto; intros ? ? ? _ _ _; auto. }
  assert (Yp : forall s, fine1 F M N K T eps s -> (forall f m, (f < F)%nat -> (m < M)%nat -> exists n, (n < N)%nat /\ 0 < sG s n f m) -> forall f t m, (f < F)%nat -> (t < T)%nat -> (m < M)%nat -> 0 < sY s f t m).
  { intros s (Sg & EL & EY) Gs f t m Hf Ht Hm. rewrite EY, EL. now apply (model_pos F M N K T). }
  assert (Ynz : forall s, fine1 F M N K T eps s -> (forall f m, (f < F)%nat -> (m < M)%nat -> exists n, (n < N)%nat /\ 0 < sG s n f m) -> all_nz3 F T M (sY s) = true).
  { intros s Fs Gs. apply all_nz3_intro. intros f t m Hf Ht Hm. pose proof (Yp s Fs Gs f t m Hf Ht Hm). lra. }
  assert (T2 : forall s, fine1 F M N K T eps s -> (forall f m, (f < F)%nat -> (m < M)%nat -> exists n, (n < N)%nat /\ 0 < sG s n f m) -> forall n f t, (n < N)%nat -> (f < F)%nat -> (t < T)%nat -> 0 <= tmp2 M s n f t).
  { intros s Fs Gs n f t Hn Hf Ht. unfold tmp2. apply bsum_nonneg. intros m Hm. apply Rmult_le_pos; [now apply Fs|]. apply frac_nonneg; [lra|now apply Yp]. }
  assert (WH : exists s1, update_WH1 F M N K T eps X acc st = Some s1).
  { unfold update_WH1. rewrite Ynz by auto. cbn [guard]. unfold step_W. rewrite all_nz3_intro.
    2:{ intros n f k Hn Hf Hk. assert (0 <= bsum T (fun t => sH st n k t * tmp2 M st n f t)); [|lra]. apply bsum_nonneg. intros t Ht. apply Rmult_le_pos; [now apply Fi|now apply T2]. }
    cbn [guard bind]. set (a1 := {| sQ := sQ st; sG := sG st |}). assert (S1 : signs F M N K T a1). { destruct Fi as ((A & B & D) & _). split; [|split; auto]. intros n f k Hn Hf Hk. cbn. apply Rmult_le_pos; [now apply A|apply sqrt_pos]. }
    set (a2 := if acc then a1 else refresh1 N K eps a1). assert (Fr : fine1 F M N K T eps (refresh1 N K eps a1)) by now apply refresh1_fine.
    rewrite all_nz3_intro.
    2:{ intros f t m Hf Ht Hm. unfold a2. destruct acc; [change (sY a1) with (sY st); pose proof (Yp st Fi Gp f t m Hf Ht Hm); lra|]. pose proof (Yp (refresh1 N K eps a1) Fr Gp f t m Hf Ht Hm). lra. }
    cbn [guard]. unfold step_H. rewrite all_nz3_intro; [cbn [guard bind]; eauto|].
    intros n k t Hn Hk Ht. assert (0 <= bsum F (fun f => sW a2 n f k * tmp2 M (if acc then st else a2) n f t)); [|lra]. apply bsum_nonneg. intros f Hf.
    apply Rmult_le_pos; [unfold a2; destruct acc; apply S1; auto|]. unfold a2. destruct acc; [now apply T2|]. now apply T2. }
  destruct WH as (s1 & E2). destruct (WH1_fine _ _ _ _ _ _ _ _ _ _ Fi E2) as (F1 & Q1 & G1). assert (Gp1 : forall f m, (f < F)%nat -> (m < M)%nat -> exists n, (n < N)%nat /\ 0 < sG s1 n f m) by (now rewrite G1).
  assert (L1 : forall n f t, (n < N)%nat -> (f < F)%nat -> (t < T)%nat -> 0 < sL s1 n f t). { intros n f t Hn Hf Ht. rewrite (proj1 (proj2 F1)). apply (lambda_pos F M N K T); auto. apply F1. }
  assert (Dp : forall n f m, (n < N)%nat -> (f < F)%nat -> (m < M)%nat -> 0 < bsum T (fun t => sL s1 n f t * (1 / sY s1 f t m)) + eps).
  { intros n f m Hn Hf Hm. assert (0 <= bsum T (fun t => sL s1 n f t * (1 / sY s1 f t m))); [|lra]. apply bsum_nonneg. intros t Ht. apply Rmult_le_pos; [left; auto|]. apply frac_nonneg; [lra|now apply Yp]. }
  assert (EG : exists s2, update_G1 F M N T eps X s1 = Some s2 /\ forall n f m, sG s2 n f m = sG s1 n f m * sqrt (bsum T (fun t => sL s1 n f t * (power M X (sQ s1) f t m / sY s1 f t m ^ 2)) / (bsum T (fun t => sL s1 n f t * (1 / sY s1 f t m)) + eps))).
  { unfold update_G1. rewrite Ynz by auto. cbn [guard]. rewrite all_nz3_intro; [cbn [guard]; eexists; split; [reflexivity|reflexivity]|]. intros n f m Hn Hf Hm. specialize (Dp n f m Hn Hf Hm). lra. }
  destruct EG as (s2 & E3 & G2). exists s1, s2. split; [auto|split; [auto|]]. intros Ns. destruct (G1_fine _ _ _ _ _ _ _ _ _ F1 E3) as (F2 & _).
  assert (Gp2 : forall f m, (f < F)%nat -> (m < M)%nat -> exists n, (n < N)%nat /\ 0 < sG s2 n f m).
  { intros f m Hf Hm. destruct (Gp1 f m Hf Hm) as (n & Hn & Pn). exists n. split; [auto|]. rewrite G2. apply Rmult_lt_0_compat; [auto|]. apply sqrt_lt_R0. apply Rdiv_lt_0_compat; [|now apply Dp].
    apply bsum_gt.
    - intros t Ht. apply Rmult_le_pos; [left; auto|]. apply frac_nonneg; [apply power_nonneg|apply pow_lt; now apply Yp].
    - destruct (Ns f m Hf Hm) as (t & Ht & Nt). exists t. split; [auto|]. apply Rmult_lt_0_compat; [auto|]. apply Rdiv_lt_0_compat; [|apply pow_lt; now apply Yp]. rewrite Q1. now apply Cabs2_pos. }
  destruct (Q1_total solve pinv F M T eps X (seq 0 M) s2 b He) as (s3 & E4).
  { intros f t m Hf Ht Hm. apply in_seq in Hm. pose proof (Yp s2 F2 Gp2 f t m Hf Ht ltac:(lia)). lra. }
  exists s3. split; [auto|]. edestruct Q1_fine as (_ & G3 & _); [exact E4|exact F2|]. cbn [fst] in G3. now rewrite G3.
Qed.
Print Assumptions C114_finite.
(** Two microphones, two sources, one frame: the hypotheses of C114_fit and C114_finite hold
    for the first iteration. *)
Example C114_case : exists st0 s1 s2 s3, let X := fun _ _ m => RtoC (INR m + 1) in
  init1 1 2 2 1 (1/10) (1/20) None one3 one3 = Some st0 /\ update_WH1 1 2 2 1 1 (1/10) X false st0 = Some s1 /\
  update_G1 1 2 2 1 (1/10) X s1 = Some s2 /\ foldM (update_Q1 solve2 (fun _ A => A) 1 2 1 (1/10) X) (seq 0 2) (s2, false) = Some s3.
Proof.
  assert (Ei : exists s, init1 1 2 2 1 (1/10) (1/20) None one3 one3 = Some s /\ (forall m j, (m < 2)%nat -> sQ s 0%nat m j = unit_vec m j) /\ sG s = G_init 2 (1/20)).
  { unfold init1, Q_init. cbv zeta. rewrite all_nz2_intro.
    - cbn [guard bind]. eexists. split; [reflexivity|]. cbn [refresh1 sQ sG]. split; [|reflexivity]. intros m j Hm.
      match goal with |- context [sqrt ?x] => replace x with 1 by (destruct m as [|[|m]]; [| |lia]; cbn; ring) end. rewrite sqrt_1, Rinv_1. apply C_eq; cbn; ring.
    - intros i j Hi Hj. destruct j as [|[|j]]; [| |lia]; cbn; lra. }
  destruct Ei as (st0 & E0 & EQ & EG). exists st0.
  destruct (C114_finite solve2 (fun _ A => A) 1 2 2 1 1 (1/10) (1/20) (fun _ _ m => RtoC (INR m + 1)) false 0 None one3 one3 st0 st0 false) as (s1 & s2 & E1 & E2 & E3); try (intros; unfold one3; lra); auto.
  - intros f m Hf Hm. exists m. split; [lia|]. rewrite EG. unfold G_init. rewrite Nat.mod_small, Nat.eqb_refl by lia. lra.
  - exists s1, s2. destruct E3 as (s3 & E3 & _); [|exists s3; cbv zeta; auto].
    intros f m Hf Hm. exists 0%nat. split; [lia|]. assert (f = 0%nat) as -> by lia. intros Z. rewrite !csum_S, csum_0, !EQ in Z by auto. apply (f_equal fst) in Z. destruct m as [|[|m]]; [| |lia]; cbn in Z; lra.
Qed.
(** One microphone and one source: the hypotheses of C114_fit2 hold for the first iteration. *)
Example C114_case2 : exists st0 s1 s2 s3, let X := fun _ _ _ => RtoC 2 in
  init2 1 1 1 1 (1/20) None one3 one3 = Some st0 /\ update_WH2 1 1 1 1 1 (1/10) X true st0 = Some s1 /\
  update_G2 1 1 1 1 (1/10) X s1 = Some s2 /\ foldM (update_Q2 solve2 1 1 1 X) (seq 0 1) s2 = Some s3.
Proof.
  assert (Z1 : forall k, (k < 1)%nat -> k = 0%nat) by (intros; lia).
  assert (Ei : exists s, init2 1 1 1 1 (1/20) None one3 one3 = Some s /\ sQ s 0%nat 0%nat 0%nat = C1 /\ sG s 0%nat 0%nat 0%nat = 1 /\ sW s = one3 /\ sH s = one3 /\ sL s 0%nat 0%nat 0%nat = 1 /\ sY s 0%nat 0%nat 0%nat = 1).
  { unfold init2, Q_init. cbv zeta. rewrite all_nz2_intro.
    - cbn [guard bind]. eexists. split; [reflexivity|]. cbn [sQ sL sG sW sH sY]. repeat split; auto.
      + match goal with |- context [sqrt ?x] => replace x with 1 by (cbn; ring) end. rewrite sqrt_1, Rinv_1. apply C_eq; cbn; ring.
      + unfold lambda, one3. cbn. lra.
      + unfold model, lambda, one3, G_init. cbn. lra.
    - intros i j Hi Hj. apply Z1 in Hi, Hj. subst. cbn. lra. }
  destruct Ei as (st0 & E0 & EQ & EG & EW & EH & EL & EY). exists st0. cbv zeta.
  assert (P0 : power 1 (fun _ _ _ => RtoC 2) (sQ st0) 0 0 0 = 4). { unfold power, proj. rewrite csum_S, csum_0, EQ. unfold Cabs2. cbn. ring. }
  assert (T1 : tmp1 1 (fun _ _ _ => RtoC 2) st0 0 0 0 = 4). { unfold tmp1. cbn [bsum]. rewrite P0, EG, EY. field. }
  assert (T2 : tmp2 1 st0 0 0 0 = 1). { unfold tmp2. cbn [bsum]. rewrite EG, EY. field. }
  assert (EX1 : exists s1, update_WH2 1 1 1 1 1 (1/10) (fun _ _ _ => RtoC 2) true st0 = Some s1 /\ sQ s1 = sQ st0 /\ sG s1 = sG st0 /\ sL s1 0%nat 0%nat 0%nat = 4 + 1/10 /\ sY s1 0%nat 0%nat 0%nat = 4 + 2/10).
  { unfold update_WH2. rewrite all_nz3_intro by (intros i j k Hi Hj Hk; apply Z1 in Hi, Hj, Hk; subst; rewrite EY; lra). cbn [guard]. unfold step_W. rewrite all_nz3_intro.
    2:{ intros i j k Hi Hj Hk; apply Z1 in Hi, Hj, Hk; subst. cbn [bsum]. rewrite T2, EH. unfold one3. lra. }
    cbn [guard bind]. unfold step_H. cbn [sW]. 
    assert (W1 : forall a, 0 <= a -> sW st0 0%nat 0%nat 0%nat * sqrt (bsum 1 (fun t => sH st0 0%nat 0%nat t * tmp1 1 (fun _ _ _ => RtoC 2) st0 0 0 t) / (bsum 1 (fun t => sH st0 0%nat 0%nat t * tmp2 1 st0 0 0 t) + 0)) = 2).
    { intros _ _. cbn [bsum]. rewrite T1, T2, EH, EW. unfold one3. replace ((0 + 1 * 4) / (0 + 1 * 1 + 0)) with (2 * 2) by field. rewrite sqrt_square; lra. }
    specialize (W1 0 (Rle_refl 0)). rewrite all_nz3_intro.
    2:{ intros i j k Hi Hj Hk; apply Z1 in Hi, Hj, Hk; subst. cbn [bsum] in *. rewrite W1, T2. lra. }
    cbn [guard bind]. eexists. split; [reflexivity|]. cbn [refresh2 sQ sG sL sY]. split; [reflexivity|split; [reflexivity|]].
    assert (L1 : lambda 1 (1/10) (fun n f k => sW st0 n f k * sqrt (bsum 1 (fun t => sH st0 n k t * tmp1 1 (fun _ _ _ => RtoC 2) st0 n f t) / (bsum 1 (fun t => sH st0 n k t * tmp2 1 st0 n f t) + 0)))
      (fun n k t => sH st0 n k t * sqrt (bsum 1 (fun f => sW st0 n f k * sqrt (bsum 1 (fun t => sH st0 n k t * tmp1 1 (fun _ _ _ => RtoC 2) st0 n f t) / (bsum 1 (fun t => sH st0 n k t * tmp2 1 st0 n f t) + 0)) * tmp1 1 (fun _ _ _ => RtoC 2) st0 n f t) /
        (bsum 1 (fun f => sW st0 n f k * sqrt (bsum 1 (fun t => sH st0 n k t * tmp1 1 (fun _ _ _ => RtoC 2) st0 n f t) / (bsum 1 (fun t => sH st0 n k t * tmp2 1 st0 n f t) + 0)) * tmp2 1 st0 n f t) + 0))) 0 0 0 = 4 + 1/10).
    { unfold lambda. cbn [bsum] in *. rewrite W1, T1, T2, EH. unfold one3 at 1. replace ((0 + 2 * 4) / (0 + 2 * 1 + 0)) with (2 * 2) by field. rewrite sqrt_square; lra. }
    split; [exact L1|]. unfold model. cbn [bsum]. rewrite EG. match goal with |- 0 + ?l * 1 + _ = _ => replace l with (4 + 1/10) by (symmetry; exact L1) end. lra. }
  destruct EX1 as (s1 & E1 & Q1 & G1 & L1 & Y1). exists s1.
  assert (EX2 : exists s2, update_G2 1 1 1 1 (1/10) (fun _ _ _ => RtoC 2) s1 = Some s2 /\ sQ s2 = sQ s1 /\ 0 < sY s2 0%nat 0%nat 0%nat).
  { unfold update_G2. rewrite all_nz3_intro by (intros i j k Hi Hj Hk; apply Z1 in Hi, Hj, Hk; subst; rewrite Y1; lra). cbn [guard]. rewrite all_nz2_intro.
    2:{ intros i j Hi Hj; apply Z1 in Hi, Hj; subst. cbn [bsum]. rewrite L1, Y1. lra. }
    cbn [guard]. eexists. split; [reflexivity|]. split; [reflexivity|]. cbn [sY]. unfold model. cbn [bsum]. rewrite L1, G1, EG. match goal with |- context [sqrt ?x] => pose proof (sqrt_pos x) end. lra. }
  destruct EX2 as (s2 & E2 & Q2 & Y2). exists s2. set (y := sY s2 0%nat 0%nat 0%nat) in *.
  cbn [seq foldM]. unfold update_Q2. rewrite all_nz2_intro by (intros i j Hi Hj; apply Z1 in Hi, Hj; subst; fold y; lra). cbn [guard]. unfold for_all_f. cbn [seq mapM].
  assert (V : cov 1 (fun _ _ _ => RtoC 2) (sY s2) 0 0 0%nat 0%nat = RtoC (4 / y)). { unfold cov. rewrite csum_S, csum_0. fold y. apply C_eq; cbn; field; lra. }
  assert (QVe : QV 1 (sQ s2 0%nat) (cov 1 (fun _ _ _ => RtoC 2) (sY s2) 0 0) 0%nat 0%nat = RtoC (4 / y)). { unfold QV. rewrite csum_S, csum_0, V, Q2, Q1, EQ. ring. }
  assert (P4 : 0 < 4 / y) by (apply Rdiv_lt_0_compat; lra).
  unfold solve2. cbn [Nat.eqb]. rewrite QVe. destruct (C_eq_dec (RtoC (4 / y)) C0) as [Z|_]; [apply (f_equal fst) in Z; cbn in Z; lra|]. cbn [bind]. unfold Q_row. cbv zeta.
  rewrite !csum_S, !csum_0, V. rewrite Cdiv_real by lra.
  match goal with |- context [csqrt ?z] => replace z with (RtoC (y / 4)) by (unfold unit_vec; cbn [Nat.eqb]; apply C_eq; cbn; field; lra) end. rewrite csqrt_real by lra.
  assert (P5 : 0 < sqrt (y / 4)) by (apply sqrt_lt_R0; lra). unfold nzb. destruct (Req_EM_T (Cabs2 (RtoC (sqrt (y / 4)) + RtoC 0)%C) 0) as [Z|_]; [exfalso; unfold Cabs2 in Z; cbn in Z; nra|].
  cbn [guard bind mapM nth]. eexists. repeat split; eauto.
Qed.

(** The normalisation every ten iterations changes the scales and nothing else: the matrices,
    the gains of every source and the spectra get unit size, while the projected powers and
    their model are divided by one and the same number per frequency. *)
Lemma phi_scaled : forall M Q f, (0 < M)%nat -> phi M Q f <> 0 ->
  bsum M (fun i => bsum M (fun j => Cabs2 (Cscal (/ sqrt (phi M Q f)) (Q f i j)))) = INR M.
Proof.
  intros M Q f HM Nz. assert (P : 0 < phi M Q f) by (pose proof (phi_nonneg M Q f); lra). assert (PM : 0 < INR M) by now apply lt_0_INR.
  assert (S : 0 < sqrt (phi M Q f)) by now apply sqrt_lt_R0. assert (SS : sqrt (phi M Q f) * sqrt (phi M Q f) = phi M Q f) by (apply sqrt_sqrt; lra).
  assert (E : bsum M (fun i => bsum M (fun j => fst (Q f i j * Conj (Q f i j))%C)) = phi M Q f * INR M) by (unfold phi; field; lra).
  rewrite (bsum_ext M _ (fun i => / phi M Q f * bsum M (fun j => fst (Q f i j * Conj (Q f i j))%C))).
  - rewrite bsum_scal, E. field. lra.
  - intros i Hi. rewrite <- bsum_scal. apply bsum_ext. intros j Hj. rewrite Cscal_RtoC, Cabs2_mul. replace (Cabs2 (RtoC (/ sqrt (phi M Q f)))) with (/ phi M Q f).
    + f_equal. unfold Cabs2. cbn. ring.
    + unfold Cabs2. cbn. rewrite <- SS at 1. field. lra.
Qed.
Lemma power_scaled : forall M (X : nat -> nat -> nat -> C) (Q : nat -> mat) (c : nat -> R) f t m, 0 < c f ->
  Cabs2 (csum M (fun j => (Q f m j * X f t j)%C)) = c f * Cabs2 (csum M (fun j => (Cscal (/ sqrt (c f)) (Q f m j) * X f t j)%C)).
Proof.
  intros M X Q c f t m P. assert (S : 0 < sqrt (c f)) by now apply sqrt_lt_R0. assert (SS : sqrt (c f) * sqrt (c f) = c f) by (apply sqrt_sqrt; lra).
  rewrite (csum_ext M (fun j => (Cscal (/ sqrt (c f)) (Q f m j) * X f t j)%C) (fun j => (RtoC (/ sqrt (c f)) * (Q f m j * X f t j))%C)).
  - rewrite csum_scal, Cabs2_mul. replace (Cabs2 (RtoC (/ sqrt (c f)))) with (/ c f); [field; lra|]. unfold Cabs2. cbn. rewrite <- SS at 1. field. lra.
  - intros j Hj. rewrite Cscal_RtoC. ring.
Qed.
Theorem C114_normalise : forall F M N K eps (X : nat -> nat -> nat -> C) st st', (0 < M)%nat -> normalise1 F M N K eps st = Some st' ->
  (forall f, (f < F)%nat -> bsum M (fun i => bsum M (fun j => Cabs2 (sQ st' f i j))) = INR M) /\
  (forall n f, (n < N)%nat -> (f < F)%nat -> bsum M (fun m => sG st' n f m) = 1) /\
  (forall n k, (n < N)%nat -> (k < K)%nat -> bsum F (fun f => sW st' n f k) = 1) /\
  exists c : nat -> R, forall f, (f < F)%nat -> 0 < c f /\ forall t m, (m < M)%nat ->
    Cabs2 (csum M (fun j => (sQ st f m j * X f t j)%C)) = c f * Cabs2 (csum M (fun j => (sQ st' f m j * X f t j)%C)) /\
    forall n, (n < N)%nat -> bsum K (fun k => sW st n f k * sH st n k t) * sG st n f m = c f * (bsum K (fun k => sW st' n f k * sH st' n k t) * sG st' n f m).
Proof.
  intros F M N K eps X st st' HM H. unfold normalise1 in H. apply guard_Some in H. destruct H as [Np H]. apply guard_Some in H. destruct H as [Nm H]. apply guard_Some in H. destruct H as [Nn H]. injection H as <-. cbn [sQ sG sW sH refresh1].
  pose proof (all_nz_spec _ _ Np) as Zp. pose proof (all_nz2_spec _ _ _ Nm) as Zm. pose proof (all_nz2_spec _ _ _ Nn) as Zn. cbv beta in Zm, Zn.
  split; [intros f Hf; apply phi_scaled; auto|]. split; [|split].
  - intros n f Hn Hf. specialize (Zm n f Hn Hf). set (mu := bsum M _) in *. change (bsum M (fun m => sG st n f m / phi M (sQ st) f * / mu) = 1). rewrite bsum_scal_r. fold mu. field. exact Zm.
  - intros n k Hn Hk. specialize (Zn n k Hn Hk). set (nu := bsum F _) in *. change (bsum F (fun f => sW st n f k * bsum M (fun m => sG st n f m / phi M (sQ st) f) * / nu) = 1). rewrite bsum_scal_r. fold nu. field. exact Zn.
  - exists (phi M (sQ st)). intros f Hf. assert (P : 0 < phi M (sQ st) f) by (pose proof (phi_nonneg M (sQ st) f); pose proof (Zp f Hf); lra). split; [exact P|]. intros t m Hm. split; [apply (power_scaled M X (sQ st) (phi M (sQ st))); exact P|].
    intros n Hn. specialize (Zm n f Hn Hf). set (mu := bsum M (fun m => sG st n f m / phi M (sQ st) f)) in *.
    rewrite (bsum_ext K (fun k => sW st n f k * mu / bsum F (fun f0 => sW st n f0 k * bsum M (fun m0 => sG st n f0 m0 / phi M (sQ st) f0)) * (sH st n k t * bsum F (fun f0 => sW st n f0 k * bsum M (fun m0 => sG st n f0 m0 / phi M (sQ st) f0)))) (fun k => mu * (sW st n f k * sH st n k t))).
    + rewrite bsum_scal. field. repeat split; solve [exact Zm|lra].
    + intros k Hk. field. apply (Zn n k Hn Hk).
Qed.
Theorem C114_normalise2 : forall F M N K eps (X : nat -> nat -> nat -> C) st st', (0 < M)%nat -> normalise2 F M N K eps st = Some st' ->
  (forall f, (f < F)%nat -> bsum M (fun i => bsum M (fun j => Cabs2 (sQ st' f i j))) = INR M) /\
  (forall n, (n < N)%nat -> bsum M (fun m => sG st' n 0%nat m) = 1) /\
  (forall n k, (n < N)%nat -> (k < K)%nat -> bsum F (fun f => sW st' n f k) = 1) /\
  exists c : nat -> R, forall f, (f < F)%nat -> 0 < c f /\ forall t m, (m < M)%nat ->
    Cabs2 (csum M (fun j => (sQ st f m j * X f t j)%C)) = c f * Cabs2 (csum M (fun j => (sQ st' f m j * X f t j)%C)) /\
    forall n, (n < N)%nat -> bsum K (fun k => sW st n f k * sH st n k t) * sG st n f m = c f * (bsum K (fun k => sW st' n f k * sH st' n k t) * sG st' n f m).
Proof.
  intros F M N K eps X st st' HM H. unfold normalise2 in H. apply guard_Some in H. destruct H as [Np H]. apply guard_Some in H. destruct H as [Nm H]. apply guard_Some in H. destruct H as [Nn H]. injection H as <-. cbn [sQ sG sW sH refresh2].
  pose proof (all_nz_spec _ _ Np) as Zp. pose proof (all_nz_spec _ _ Nm) as Zm. pose proof (all_nz2_spec _ _ _ Nn) as Zn. cbv beta in Zm, Zn.
  split; [intros f Hf; apply phi_scaled; auto|]. split; [|split].
  - intros n Hn. specialize (Zm n Hn). set (mu := bsum M _) in *. change (bsum M (fun m => sG st n 0%nat m * / mu) = 1). rewrite bsum_scal_r. change (mu * / mu = 1). field. exact Zm.
  - intros n k Hn Hk. specialize (Zn n k Hn Hk). set (nu := bsum F (fun f => sW st n f k / phi M (sQ st) f * bsum M (fun m => sG st n 0%nat m))) in *. change (bsum F (fun f => sW st n f k / phi M (sQ st) f * bsum M (fun m => sG st n 0%nat m) * / nu) = 1). rewrite bsum_scal_r. fold nu. field. exact Zn.
  - exists (phi M (sQ st)). intros f Hf. assert (P : 0 < phi M (sQ st) f) by (pose proof (phi_nonneg M (sQ st) f); pose proof (Zp f Hf); lra). split; [exact P|]. intros t m Hm. split; [apply (power_scaled M X (sQ st) (phi M (sQ st))); exact P|].
    intros n Hn. specialize (Zm n Hn). set (mu := bsum M (fun m => sG st n 0%nat m)) in *.
    rewrite (bsum_ext K (fun k => sW st n f k / phi M (sQ st) f * mu / bsum F (fun f0 => sW st n f0 k / phi M (sQ st) f0 * mu) * (sH st n k t * bsum F (fun f0 => sW st n f0 k / phi M (sQ st) f0 * mu))) (fun k => mu / phi M (sQ st) f * (sW st n f k * sH st n k t))).
    + rewrite bsum_scal. field. repeat split; solve [exact Zm|lra].
    + intros k Hk. field. repeat split; solve [exact (Zn n k Hn Hk)|lra].
Qed.
Print Assumptions C114_normalise.
Print Assumptions C114_normalise2.
(** Both normalisations succeed on this state. *)
Example C114_normalise_case : exists s1 s2, let st := {| sQ := fun _ => unit_vec; sG := fun _ _ _ => 3; sW := one3; sH := one3; sL := one3; sY := one3 |} in
  normalise1 1 1 1 1 1 st = Some s1 /\ normalise2 1 1 1 1 1 st = Some s2 /\ sW s1 0%nat 0%nat 0%nat = 1 /\ sH s1 0%nat 0%nat 0%nat = 3 /\ sH s2 0%nat 0%nat 0%nat = 3.
Proof.
  cbv zeta. assert (P : phi 1 (fun _ => unit_vec) 0 = 1) by (unfold phi, bsum, unit_vec; cbn; field).
  unfold normalise1, normalise2. cbv zeta. cbn [sQ sG sW sH].
  rewrite (all_nz_intro 1 (phi 1 (fun _ => unit_vec))) by (intros i Hi; replace i with 0%nat by lia; rewrite P; lra). cbn [guard].
  rewrite all_nz2_intro by (intros i j Hi Hj; replace j with 0%nat by lia; unfold bsum; cbn [seq map Rsum fold_right]; rewrite P; lra). cbn [guard].
  rewrite all_nz2_intro by (intros i j Hi Hj; unfold bsum; cbn [seq map Rsum fold_right]; rewrite P; unfold one3; lra). cbn [guard].
  rewrite all_nz_intro by (intros i Hi; unfold bsum; cbn; lra). cbn [guard].
  rewrite all_nz2_intro by (intros i j Hi Hj; unfold bsum; cbn [seq map Rsum fold_right]; rewrite P; unfold one3; lra). cbn [guard].
  do 2 eexists. split; [reflexivity|]. split; [reflexivity|]. cbn [sW sH refresh1 refresh2]. unfold bsum; cbn [seq map Rsum fold_right]; rewrite P. unfold one3. repeat split; lra.
Qed.
