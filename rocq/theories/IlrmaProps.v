(** Independent low-rank matrix analysis (pyroomacoustics.bss.ilrma): C112. *)
From Coq Require Import List ZArith Lia Reals Lra Bool.
From Verif Require Import Base Vec Sum Cpx BackModel BackProps AuxivaModel AuxivaSpec AuxivaProofs DetProofs AuxivaProps IlrmaModel IlrmaSpec IlrmaProofs BaseProofs.
Import ListNotations.
Local Open Scope R_scope.

(** Only as many sources as microphones. *)
Theorem C112_rejects : forall solve F M S N K eps X n W0 T0 V0 b, M <> S -> ilrma solve F M S N K eps X n W0 T0 V0 b = None.
Proof. intros. unfold ilrma. destruct (Nat.eqb_spec M S); [contradiction|reflexivity]. Qed.
(** Without iterations the output is the given filters applied to the input, and they are
    returned.  With back-projection every signal is the one without, times the gain that brings it
    closest to the first microphone. *)
Theorem C112_output : forall solve F M N K eps X n W0 T0 V0,
  (ilrma solve F M M N K eps X 0 (Some W0) T0 V0 false = Some (fun t f s => csum M (fun c => (W0 f s c * X f c t)%C), W0)) /\
  forall w0 Y W, ilrma solve F M M N K eps X n w0 T0 V0 false = Some (Y, W) ->
  exists Y', ilrma solve F M M N K eps X n w0 T0 V0 true = Some (Y', W) /\ forall f s, exists g : C,
    (forall t, Y' t f s = (g * Y t f s)%C) /\
    forall h, bsum N (fun t => Cabs2 (Y' t f s - X f 0%nat t)%C) <= bsum N (fun t => Cabs2 (h * Y t f s - X f 0%nat t)%C).
Proof.
  intros solve F M N K eps X n W0 T0 V0. unfold ilrma. rewrite Nat.eqb_refl. split; [reflexivity|]. intros w0 Y W H.
  destruct (iterations _ _ _ _ _ _ _ _ _ _ _) as [[Yi st]|]; [|discriminate]. cbn [bind fst snd] in *. injection H as <- <-.
  eexists. split; [reflexivity|]. intros f s.
  set (Y := fun t f s => Yi f s t). set (z := projection_back N Y (fun t f => X f 0%nat t) None None f s).
  exists (Conj z). split; [intros t; unfold z; ring|]. intros h.
  pose proof (C109_minimal N Y (fun t f => X f 0%nat t) f s (Conj h)) as Q. fold z in Q. unfold distance2 in Q. rewrite Conj_conj in Q.
  match goal with |- ?a <= ?b => match type of Q with ?c <= ?d => assert (E1 : a = c); [|assert (E2 : b = d); [|rewrite E1, E2; exact Q]] end end.
  - apply bsum_ext. intros t _. fold (Y t f s). unfold Cabs2. fold z. cbn. ring.
  - apply bsum_ext. intros t _. unfold Cabs2, Y. cbn. ring.
Qed.

(** The updates of one source - bases, activations, demixing rows - never increase the
    objective: for a source whose powers and model spectra are up to date, as long as the lower
    limits of bases, activations and spectra are not reached. *)
Theorem C112_source_step : forall solve F M N K eps X st s st', is_solve solve -> 0 < eps -> (0 < F)%nat -> (0 < N)%nat -> (0 < K)%nat -> (s < M)%nat ->
  update_one solve F M N K eps X st s = Some st' ->
  (forall i f k, (i < M)%nat -> (f < F)%nat -> (k < K)%nat -> eps <= sT st i f k) -> (forall i t k, (i < M)%nat -> (t < N)%nat -> (k < K)%nat -> eps <= sV st i t k) ->
  (forall f t, (f < F)%nat -> (t < N)%nat -> sP st s f t = Cabs2 (csum M (fun c => (sW st f s c * X f c t)%C))) ->
  (forall f t, (f < F)%nat -> (t < N)%nat -> siR st s f t = 1 / bsum K (fun k => sT st s f k * sV st s t k)) ->
  (forall f t, (f < F)%nat -> (t < N)%nat -> eps <= bsum K (fun k => sT st' s f k * sV st s t k) /\ eps <= bsum K (fun k => sT st' s f k * sV st' s t k)) ->
  (forall f, (f < F)%nat -> det M (sW st f) <> C0) ->
  (forall f, (f < F)%nat -> det M (sW st' f) <> C0) /\ nll F M N K X (sW st') (sT st') (sV st') <= nll F M N K X (sW st) (sT st) (sV st).
Proof.
  intros solve F M N K eps X st s st' Hso He HF HN HK Hs H HT HV HP HiR HR HD.
  apply (step_decreases solve F M N K eps X Hso He HF HN HK st s st' Hs H); auto.
Qed.

(** The lower limit of the spectra is not reached while the sources of [l] are updated. *)
Fixpoint quiet solve F M N K eps X (l : list nat) (st : state) : Prop :=
  match l with
  | [] => True
  | s :: l => forall st', update_one solve F M N K eps X st s = Some st' ->
      (forall f t, (f < F)%nat -> (t < N)%nat -> eps <= bsum K (fun k => sT st' s f k * sV st s t k) /\ eps <= bsum K (fun k => sT st' s f k * sV st' s t k)) /\
      quiet solve F M N K eps X l st'
  end.
Lemma others : forall solve F M N K eps X st s st', update_one solve F M N K eps X st s = Some st' ->
  (forall i f k, (i < M)%nat -> (f < F)%nat -> (k < K)%nat -> eps <= sT st i f k) -> (forall i t k, (i < M)%nat -> (t < N)%nat -> (k < K)%nat -> eps <= sV st i t k) ->
  (forall i f k, (i < M)%nat -> (f < F)%nat -> (k < K)%nat -> eps <= sT st' i f k) /\ (forall i t k, (i < M)%nat -> (t < N)%nat -> (k < K)%nat -> eps <= sV st' i t k) /\
  (forall f t i, i <> s -> (i < M)%nat -> (f < F)%nat -> (t < N)%nat -> sP st' i f t = sP st i f t /\ siR st' i f t = siR st i f t /\ (forall c, sW st' f i c = sW st f i c) /\
     forall k, (k < K)%nat -> sT st' i f k = sT st i f k /\ sV st' i t k = sV st i t k).
Proof.
  intros solve F M N K eps X st s st' H HT HV. destruct (update_one_parts solve F M N K eps X st s st' H) as (ET & EV & _ & EI & EP & EW). split; [|split].
  - intros. rewrite ET. cbn. apply floor_ge.
  - intros. rewrite EV. cbn. apply floor_ge.
  - intros f t i Ne Hi Hf Ht. split; [now rewrite EP|split; [|split]].
    + rewrite EI. cbn. destruct (Nat.eqb_spec i s); [contradiction|]. reflexivity.
    + intros c. destruct (EW f Hf) as (row & _ & Er). rewrite Er. unfold set_row. destruct (Nat.eqb_spec i s); [contradiction|reflexivity].
    + intros k Hk. rewrite ET, EV. cbn. destruct (Nat.eqb_spec i s); [contradiction|]. split; apply floor_id; auto.
Qed.
(** The first iteration, up to the rescaling at its end: from regular matrices and positive
    random factors, the objective does not increase. *)
Theorem C112_first_iteration : forall solve F M N K eps X W0 T0 V0 st', is_solve solve -> 0 < eps -> (0 < F)%nat -> (0 < N)%nat -> (0 < K)%nat ->
  (forall i f k, eps <= T0 i f k) -> (forall i t k, eps <= V0 i t k) -> (forall f, (f < F)%nat -> det M (W0 f) <> C0) ->
  let st := start M K X (Some W0) T0 V0 in
  quiet solve F M N K eps X (seq 0 M) st -> foldM (update_one solve F M N K eps X) (seq 0 M) st = Some st' ->
  (forall f, (f < F)%nat -> det M (sW st' f) <> C0) /\ nll F M N K X (sW st') (sT st') (sV st') <= nll F M N K X W0 T0 V0.
Proof.
  intros solve F M N K eps X W0 T0 V0 st' Hso He HF HN HK HT HV HD st Hq H.
  assert (G : forall n a st0, (a + n = M)%nat -> quiet solve F M N K eps X (seq a n) st0 -> foldM (update_one solve F M N K eps X) (seq a n) st0 = Some st' ->
    (forall i f k, (i < M)%nat -> (f < F)%nat -> (k < K)%nat -> eps <= sT st0 i f k) -> (forall i t k, (i < M)%nat -> (t < N)%nat -> (k < K)%nat -> eps <= sV st0 i t k) ->
    (forall s f t, (a <= s < M)%nat -> (f < F)%nat -> (t < N)%nat -> sP st0 s f t = Cabs2 (csum M (fun c => (sW st0 f s c * X f c t)%C)) /\ siR st0 s f t = 1 / bsum K (fun k => sT st0 s f k * sV st0 s t k)) ->
    (forall f, (f < F)%nat -> det M (sW st0 f) <> C0) ->
    (forall f, (f < F)%nat -> det M (sW st' f) <> C0) /\ nll F M N K X (sW st') (sT st') (sV st') <= nll F M N K X (sW st0) (sT st0) (sV st0)).
  { clear H Hq. intros n. induction n as [|n IH]; intros a st0 Ha Hq H HT0 HV0 Hc HD0; cbn [seq foldM quiet] in *.
    - injection H as <-. split; [auto|lra].
    - destruct (update_one solve F M N K eps X st0 a) as [st1|] eqn:E; [|discriminate]. cbn [bind] in H. destruct (Hq st1 eq_refl) as [Hf Hq1].
      destruct (C112_source_step solve F M N K eps X st0 a st1 Hso He HF HN HK ltac:(lia) E HT0 HV0) as [N1 L1]; auto; try (intros; apply Hc; auto; lia).
      destruct (others _ _ _ _ _ _ _ _ _ _ E HT0 HV0) as (A & B & D).
      destruct (IH (S a) st1 ltac:(lia) Hq1 H A B) as [N2 L2]; auto; [|split; [auto|lra]].
      intros s f t Hs Hf' Ht. destruct (D f t s ltac:(lia) ltac:(lia) Hf' Ht) as (Ep & Ei & Ew & Etv). destruct (Hc s f t ltac:(lia) Hf' Ht) as [P1 P2]. rewrite Ep, Ei, P1, P2. split.
      + f_equal. apply csum_ext. intros c _. now rewrite Ew.
      + f_equal. apply bsum_ext. intros k Hk. destruct (Etv k Hk) as [Q1 Q2]. now rewrite Q1, Q2. }
  apply (G M 0%nat st); auto.
  intros s f t _ Hf Ht. split; [|reflexivity]. unfold st. cbn [start powers sP sW]. apply Cabs_sq.
Qed.

(** * The returned filters are not those of the output *)
Lemma solve2_gen : forall A b d, (A 0%nat 0%nat * A 1%nat 1%nat - A 0%nat 1%nat * A 1%nat 0%nat)%C = RtoC d -> d <> 0 ->
  exists x, solve2 2 A b = Some x /\ x 0%nat = Cscal (/ d) (A 1%nat 1%nat * b 0%nat - A 0%nat 1%nat * b 1%nat)%C /\ x 1%nat = Cscal (/ d) (A 0%nat 0%nat * b 1%nat - A 1%nat 0%nat * b 0%nat)%C.
Proof.
  intros A b d E N. unfold solve2. cbn [Nat.eqb]. rewrite E. destruct (C_eq_dec (RtoC d) C0) as [Z|_]; [exfalso; apply N; now apply (f_equal fst) in Z|].
  eexists. split; [reflexivity|]. cbn [Nat.eqb]. now rewrite !Cdiv_real.
Qed.
(** A source whose model spectrum equals its power keeps its factors. *)
Lemma fixed_point : forall F N K eps st s, 0 < eps -> (0 < F)%nat -> (0 < N)%nat -> (0 < K)%nat ->
  (forall f k, (f < F)%nat -> (k < K)%nat -> eps <= sT st s f k) -> (forall t k, (t < N)%nat -> (k < K)%nat -> eps <= sV st s t k) ->
  (forall f t, (f < F)%nat -> (t < N)%nat -> siR st s f t = 1 / bsum K (fun k => sT st s f k * sV st s t k) /\ sP st s f t * siR st s f t = 1 /\ eps <= bsum K (fun k => sT st s f k * sV st s t k)) ->
  let st2 := update_R K eps s (update_V F eps s (update_R K eps s (update_T N eps s st))) in
  (forall f k, (f < F)%nat -> (k < K)%nat -> sT st2 s f k = sT st s f k) /\ (forall t k, (t < N)%nat -> (k < K)%nat -> sV st2 s t k = sV st s t k) /\
  (forall f t, (f < F)%nat -> (t < N)%nat -> siR st2 s f t = siR st s f t).
Proof.
  intros F N K eps st s He HF HN HK HT HV HR st2. set (st1 := update_R K eps s (update_T N eps s st)) in *.
  assert (PR : forall f t, (f < F)%nat -> (t < N)%nat -> 0 < siR st s f t).
  { intros f t Hf Ht. destruct (HR f t Hf Ht) as (E & _ & L). rewrite E. apply Rdiv_lt_0_compat; lra. }
  assert (One : forall n eps' t (a b : nat -> R), (0 < n)%nat -> eps' <= t -> (forall i, (i < n)%nat -> a i = b i) -> (forall i, (i < n)%nat -> 0 < b i) -> floor_eps eps' (t * sqrt (bsum n a / bsum n b)) = t).
  { intros n eps' t a b Hn Ht Hab Hb. rewrite (bsum_ext n a b) by auto. pose proof (bsum_pos n b Hn Hb). assert (Q : bsum n b / bsum n b = 1) by (field; lra). rewrite Q. rewrite sqrt_1, Rmult_1_r. now apply floor_id. }
  assert (T1 : forall f k, (f < F)%nat -> (k < K)%nat -> sT st1 s f k = sT st s f k).
  { intros f k Hf Hk. cbn. rewrite Nat.eqb_refl. apply One; auto; intros t Ht; destruct (HR f t Hf Ht) as (E & P & _); pose proof (PR f t Hf Ht); pose proof (HV t k Ht Hk).
    - transitivity (sP st s f t * siR st s f t * (siR st s f t * sV st s t k)); [ring|rewrite P; ring].
    - apply Rmult_lt_0_compat; lra. }
  assert (I1 : forall f t, (f < F)%nat -> (t < N)%nat -> siR st1 s f t = siR st s f t).
  { intros f t Hf Ht. destruct (HR f t Hf Ht) as (E & _ & L). unfold st1. cbn [update_R siR]. rewrite !Nat.eqb_refl. rewrite E. f_equal.
    rewrite (bsum_ext K _ (fun k => sT st s f k * sV st s t k)); [now apply floor_id|]. intros k Hk. f_equal. now apply T1. }
  assert (V1 : forall t k, (t < N)%nat -> (k < K)%nat -> sV st2 s t k = sV st s t k).
  { intros t k Ht Hk. unfold st2. cbn [update_R update_V sV]. rewrite Nat.eqb_refl. change (sV st1) with (sV st). apply One; auto; intros f Hf; destruct (HR f t Hf Ht) as (E & P & _); pose proof (PR f t Hf Ht); pose proof (HT f k Hf Hk).
    - rewrite I1, T1 by auto. change (sP st1) with (sP st). transitivity (sP st s f t * siR st s f t * (siR st s f t * sT st s f k)); [ring|rewrite P; ring].
    - rewrite I1, T1 by auto. apply Rmult_lt_0_compat; lra. }
  split; [exact T1|split; [exact V1|]].
  intros f t Hf Ht. destruct (HR f t Hf Ht) as (E & _ & L). unfold st2. cbn [update_R siR]. rewrite !Nat.eqb_refl. rewrite E. f_equal.
  rewrite (bsum_ext K _ (fun k => sT st s f k * sV st s t k)); [now apply floor_id|]. intros k Hk. f_equal; [now apply T1|]. exact (V1 t k Ht Hk).
Qed.
Definition tau (s : nat) : R := if Nat.eqb s 0 then / 2 else / 3.
Definition X4 (f c t : nat) : C := if Nat.eqb c 0 then RtoC (/ 2) else if Nat.eqb t 0 then RtoC (/ 3) else (0, / 3).
Definition eps0 : R := / 10 ^ 15.
Lemma eps0_pos : 0 < eps0 /\ eps0 <= / 9 /\ eps0 <= / 3.
Proof.
  unfold eps0. assert (P : 9 <= 10 ^ 15) by (simpl; lra). split; [apply Rinv_0_lt_compat; lra|].
  assert (/ 10 ^ 15 <= / 9) by (apply Rinv_le_contravar; lra). split; [auto|]. assert (/ 9 <= / 3) by (apply Rinv_le_contravar; lra). lra.
Qed.
Record inv (st : state) : Prop := {
  inv_T : forall s, (s < 2)%nat -> sT st s 0%nat 0%nat = tau s;
  inv_V : forall s t, (s < 2)%nat -> (t < 2)%nat -> sV st s t 0%nat = tau s;
  inv_I : forall s t, (s < 2)%nat -> (t < 2)%nat -> siR st s 0%nat t = 1 / (tau s * tau s);
  inv_P : forall s t, (s < 2)%nat -> (t < 2)%nat -> sP st s 0%nat t = tau s * tau s }.
Lemma tau_pos : forall s, / 3 <= tau s <= / 2.
Proof. intros s. unfold tau. destruct (s =? 0)%nat; lra. Qed.
Lemma weighted4 : forall rho a, rho 0%nat = a -> rho 1%nat = a ->
  weighted 2 X4 rho 0 0%nat 0%nat = RtoC (a / 4) /\ weighted 2 X4 rho 0 0%nat 1%nat = (a / 12, - (a / 12)) /\ weighted 2 X4 rho 0 1%nat 0%nat = (a / 12, a / 12) /\ weighted 2 X4 rho 0 1%nat 1%nat = RtoC (a / 9).
Proof.
  intros rho a E0 E1. unfold weighted. rewrite !csum_S, !csum_0, E0, E1. unfold X4. cbn [Nat.eqb]. repeat split; apply C_eq; cbn; field.
Qed.
Lemma step4 : forall st s row, inv st -> (s < 2)%nat -> (forall rho, rho 0%nat = 1 / (tau s * tau s) -> rho 1%nat = 1 / (tau s * tau s) -> exists r, new_row solve2 2 (sW st 0%nat) (weighted 2 X4 rho 0) s = Some r /\ forall c, (c < 2)%nat -> r c = row c) ->
  exists st', update_one solve2 1 2 2 1 eps0 X4 st s = Some st' /\ inv st' /\ forall i c, (c < 2)%nat -> sW st' 0%nat i c = if Nat.eqb i s then row c else sW st 0%nat i c.
Proof.
  intros st s row I Hs Hrow. destruct eps0_pos as (He & H9 & H3). pose proof (tau_pos s) as Ts.
  assert (Mx : 0 + tau s * tau s = tau s * tau s) by ring.
  assert (M9 : / 9 <= tau s * tau s) by nra.
  destruct (fixed_point 1 2 1 eps0 st s He ltac:(lia) ltac:(lia) ltac:(lia)) as (F1 & F2 & F3).
  - intros f k Hf Hk. assert (f = 0%nat) as -> by lia. assert (k = 0%nat) as -> by lia. rewrite (inv_T st I) by auto. lra.
  - intros t k Ht Hk. assert (k = 0%nat) as -> by lia. rewrite (inv_V st I) by auto. lra.
  - intros f t Hf Ht. assert (f = 0%nat) as -> by lia. cbn [bsum]. rewrite (inv_T st I), (inv_V st I), (inv_I st I), (inv_P st I), Mx by auto. repeat split; [field; lra|lra].
  - set (st2 := update_R 1 eps0 s (update_V 1 eps0 s (update_R 1 eps0 s (update_T 2 eps0 s st)))) in *.
    destruct (Hrow (siR st2 s 0%nat)) as (r & Er & Rr). 1-2: rewrite F3 by lia; apply (inv_I st I); lia.
    unfold update_one, update_W. fold st2. change (sW st2) with (sW st). unfold for_all_f. cbn [seq mapM]. rewrite Er. cbn [bind]. eexists. split; [reflexivity|]. split.
    + split; cbn [sT sV siR sP].
      * intros i Hi. destruct (Nat.eq_dec i s) as [->|Ne]; [rewrite F1 by lia; apply (inv_T st I); lia|]. unfold st2. cbn. destruct (Nat.eqb_spec i s); [contradiction|]. rewrite (inv_T st I) by auto. apply floor_id. pose proof (tau_pos i). lra.
      * intros i t Hi Ht. destruct (Nat.eq_dec i s) as [->|Ne]; [rewrite F2 by lia; apply (inv_V st I); lia|]. unfold st2. cbn. destruct (Nat.eqb_spec i s); [contradiction|]. rewrite (inv_V st I) by auto. apply floor_id. pose proof (tau_pos i). lra.
      * intros i t Hi Ht. destruct (Nat.eq_dec i s) as [->|Ne]; [rewrite F3 by lia; apply (inv_I st I); lia|]. unfold st2. cbn. destruct (Nat.eqb_spec i s); [contradiction|]. now apply (inv_I st I).
      * intros i t Hi Ht. change (sP st2) with (sP st). now apply (inv_P st I).
    + intros i c Hc. cbn [sW nth]. unfold set_row. destruct (Nat.eqb i s); auto.
Qed.
Definition row0 (c : nat) : C := if Nat.eqb c 0 then RtoC (sqrt 2) else (- (3 / 4 * sqrt 2), 3 / 4 * sqrt 2).
Lemma sqrt2 : 0 < sqrt 2 /\ sqrt 2 * sqrt 2 = 2.
Proof. split; [apply sqrt_lt_R0; lra|apply sqrt_sqrt; lra]. Qed.
Lemma first4 : forall (W : mat) rho, (forall i c, (i < 2)%nat -> (c < 2)%nat -> W i c = if Nat.eqb i c then C1 else C0) -> rho 0%nat = 4 -> rho 1%nat = 4 ->
  exists r, new_row solve2 2 W (weighted 2 X4 rho 0) 0 = Some r /\ forall c, (c < 2)%nat -> r c = row0 c.
Proof.
  intros W rho HW E0 E1. destruct (weighted4 rho 4 E0 E1) as (V00 & V01 & V10 & V11). set (V := weighted 2 X4 rho 0) in *. destruct sqrt2 as [Ps Qs]. unfold new_row.
  set (A := fun i d : nat => csum 2 (fun c => (W i c * V c d)%C)).
  assert (HA : forall i d, (i < 2)%nat -> A i d = V i d). { intros i d Hi. unfold A. rewrite !csum_S, csum_0, !HW by lia. destruct i as [|[|i]]; [| |lia]; cbn [Nat.eqb]; ring. }
  destruct (solve2_gen A (unit_vec 0) (2 / 9)) as (x & Ex & X0 & X1); [rewrite !HA, V00, V01, V10, V11 by lia; apply C_eq; cbn; field|lra|].
  rewrite Ex. cbn [bind]. eexists. split; [reflexivity|]. cbv zeta.
  rewrite !HA, V11, V01 in X0 by lia. rewrite !HA, V00, V10 in X1 by lia. unfold unit_vec in X0, X1. cbn [Nat.eqb] in X0, X1.
  assert (X0' : x 0%nat = RtoC 2) by (rewrite X0; apply C_eq; cbn; field). assert (X1' : x 1%nat = (- (3 / 2), - (3 / 2))) by (rewrite X1; apply C_eq; cbn; field).
  set (den := csum 2 _). assert (Ed : den = RtoC 2). { unfold den. rewrite ?csum_S, ?csum_0, ?csum_S, ?csum_0, V00, V01, V10, V11, X0', X1'. apply C_eq; cbn; field. }
  rewrite Ed, csqrt_real by lra. intros c Hc. rewrite Cdiv_real by lra. assert (Hi : / sqrt 2 = sqrt 2 / 2) by (apply (Rmult_eq_reg_l (sqrt 2)); [rewrite Rinv_r by lra; nra|lra]). rewrite Hi.
  destruct c as [|[|c]]; [| |lia]; rewrite ?X0', ?X1'; unfold row0; cbn [Nat.eqb]; apply C_eq; cbn; field.
Qed.
Lemma second4 : forall (W : mat) rho, (forall c, (c < 2)%nat -> W 0%nat c = row0 c) -> (forall c, (c < 2)%nat -> W 1%nat c = if Nat.eqb c 1 then C1 else C0) -> rho 0%nat = 9 -> rho 1%nat = 9 ->
  exists r, new_row solve2 2 W (weighted 2 X4 rho 0) 1 = Some r /\ forall c, (c < 2)%nat -> r c = if Nat.eqb c 1 then C1 else C0.
Proof.
  intros W rho HW0 HW1 E0 E1. destruct (weighted4 rho 9 E0 E1) as (V00 & V01 & V10 & V11). set (V := weighted 2 X4 rho 0) in *. destruct sqrt2 as [Ps Qs]. unfold new_row.
  set (A := fun i d : nat => csum 2 (fun c => (W i c * V c d)%C)).
  assert (A00 : A 0%nat 0%nat = RtoC (9 / 8 * sqrt 2)) by (unfold A; rewrite !csum_S, csum_0, !HW0, V00, V10 by lia; apply C_eq; cbn; field).
  assert (A01 : A 0%nat 1%nat = C0) by (unfold A; rewrite !csum_S, csum_0, !HW0, V01, V11 by lia; apply C_eq; cbn; field).
  assert (A10 : A 1%nat 0%nat = (3 / 4, 3 / 4)) by (unfold A; rewrite !csum_S, csum_0, !HW1, V00, V10 by lia; apply C_eq; cbn; field).
  assert (A11 : A 1%nat 1%nat = C1) by (unfold A; rewrite !csum_S, csum_0, !HW1, V01, V11 by lia; apply C_eq; cbn; field).
  destruct (solve2_gen A (unit_vec 1) (9 / 8 * sqrt 2)) as (x & Ex & X0 & X1); [rewrite A00, A01, A10, A11; apply C_eq; cbn; field|lra|].
  rewrite Ex. cbn [bind]. eexists. split; [reflexivity|]. cbv zeta.
  rewrite A11, A01 in X0. rewrite A00, A10 in X1. unfold unit_vec in X0, X1. cbn [Nat.eqb] in X0, X1.
  assert (X0' : x 0%nat = C0) by (rewrite X0; apply C_eq; cbn; field; lra). assert (X1' : x 1%nat = C1) by (rewrite X1; apply C_eq; cbn; field; lra).
  set (den := csum 2 _). assert (Ed : den = RtoC 1). { unfold den. rewrite ?csum_S, ?csum_0, ?csum_S, ?csum_0, V00, V01, V10, V11, X0', X1'. apply C_eq; cbn; field. }
  rewrite Ed, csqrt_real, sqrt_1 by lra. intros c Hc. rewrite Cdiv_real by lra.
  destruct c as [|[|c]]; [| |lia]; rewrite ?X0', ?X1'; cbn [Nat.eqb]; apply C_eq; cbn; field.
Qed.
Lemma sqrt_inv_sq : forall a, 0 < a -> 1 / sqrt (/ (a * a)) = a.
Proof.
  intros a Ha. rewrite sqrt_inv. rewrite sqrt_square by lra. field. lra.
Qed.
Definition eye (f s c : nat) : C := if Nat.eqb s c then C1 else C0.
(** The hypotheses of the first-iteration theorem hold for two microphones, two frames. *)
Example C112_case : exists st', let st := start 2 1 X4 (Some eye) (fun s f k => tau s) (fun s t k => tau s) in
  quiet solve2 1 2 2 1 eps0 X4 (seq 0 2) st /\ foldM (update_one solve2 1 2 2 1 eps0 X4) (seq 0 2) st = Some st' /\ sW st' 0%nat 0%nat 0%nat = RtoC (sqrt 2) /\ det 2 (eye 0%nat) <> C0.
Proof.
  destruct eps0_pos as (He & H9 & H3). set (st := start 2 1 X4 (Some eye) _ _).
  assert (I : inv st).
  { split; unfold st; cbn [start powers sT sV siR sP sW]; auto.
    - intros s t Hs Ht. cbn [bsum]. f_equal. ring.
    - intros s t Hs Ht. rewrite Cabs_sq. unfold demixed. rewrite !csum_S, csum_0. destruct s as [|[|s]]; [| |lia]; destruct t as [|[|t]]; try lia; unfold Cabs2, X4, tau, eye; cbn; field. }
  destruct (step4 st 0 row0 I ltac:(lia)) as (st1 & E1 & I1 & W1).
  { intros rho R0 R1. apply first4; [|rewrite R0; unfold tau; cbn [Nat.eqb]; field|rewrite R1; unfold tau; cbn [Nat.eqb]; field]. intros i c Hi Hc. reflexivity. }
  destruct (step4 st1 1 (fun c => if Nat.eqb c 1 then C1 else C0) I1 ltac:(lia)) as (st2 & E2 & I2 & W2).
  { intros rho R0 R1. apply second4; [| |rewrite R0; unfold tau; cbn [Nat.eqb]; field|rewrite R1; unfold tau; cbn [Nat.eqb]; field].
    - intros c Hc. rewrite W1 by auto. reflexivity.
    - intros c Hc. rewrite W1 by auto. cbn [Nat.eqb]. destruct c as [|[|c]]; [| |lia]; reflexivity. }
  assert (Mx : forall s, / 9 <= 0 + tau s * tau s) by (intros s; pose proof (tau_pos s); nra).
  exists st2. cbv zeta. cbn [seq foldM quiet]. rewrite E1. cbn [bind]. rewrite E2. cbn [bind]. split; [|split; [reflexivity|split]].
  - intros st' E. injection E as <-. split.
    + intros f t Hf Ht. assert (f = 0%nat) as -> by lia. cbn [bsum]. rewrite (inv_T st1 I1), (inv_V st I), (inv_V st1 I1) by lia. specialize (Mx 0%nat). lra.
    + intros st' E. rewrite E2 in E. injection E as <-. split; [|auto]. intros f t Hf Ht. assert (f = 0%nat) as -> by lia. cbn [bsum]. rewrite (inv_T st2 I2), (inv_V st1 I1), (inv_V st2 I2) by lia. specialize (Mx 1%nat). lra.
  - rewrite W2, W1 by lia. reflexivity.
  - rewrite (det_ext 2 _ unit_vec), det_one; [|intros; unfold eye, unit_vec; now rewrite Nat.eqb_sym]. intros Z. apply (f_equal fst) in Z. cbn in Z. lra.
Qed.

(** One iteration on two microphones: the filters returned, applied to the input, do not give
    the first separated signal, not even up to a gain. *)
Theorem C112_filters_refuted : exists solve X T0 V0 Y W, is_solve solve /\
  (forall s f k, / 10 <= T0 s f k < 1 /\ / 10 <= V0 s f k < 1) /\
  ilrma solve 1 2 2 2 1 (/ 10 ^ 15) X 1 None T0 V0 false = Some (Y, W) /\
  ~ exists g : C, forall t, (t < 2)%nat -> Y t 0%nat 0%nat = (g * csum 2 (fun c => (W 0%nat 0%nat c * X 0%nat c t)%C))%C.
Proof.
  destruct sqrt2 as [Ps Qs]. set (T0 := fun s f k : nat => tau s). set (st := start 2 1 X4 None T0 T0).
  assert (I : inv st).
  { split; unfold st; cbn [start powers sT sV siR sP sW]; auto.
    - intros s t Hs Ht. cbn [bsum]. unfold T0. f_equal. ring.
    - intros s t Hs Ht. rewrite Cabs_sq. unfold demixed. rewrite !csum_S, csum_0. destruct s as [|[|s]]; [| |lia]; destruct t as [|[|t]]; try lia; unfold Cabs2, X4, tau; cbn; field. }
  destruct (step4 st 0 row0 I ltac:(lia)) as (st1 & E1 & I1 & W1).
  { intros rho R0 R1. apply first4; [|rewrite R0; unfold tau; cbn [Nat.eqb]; field|rewrite R1; unfold tau; cbn [Nat.eqb]; field]. intros i c Hi Hc. reflexivity. }
  destruct (step4 st1 1 (fun c => if Nat.eqb c 1 then C1 else C0) I1 ltac:(lia)) as (st2 & E2 & I2 & W2).
  { intros rho R0 R1. apply second4; [| |rewrite R0; unfold tau; cbn [Nat.eqb]; field|rewrite R1; unfold tau; cbn [Nat.eqb]; field].
    - intros c Hc. rewrite W1 by auto. reflexivity.
    - intros c Hc. rewrite W1 by auto. cbn [Nat.eqb]. destruct c as [|[|c]]; [| |lia]; reflexivity. }
  assert (Ws : forall c, (c < 2)%nat -> sW st2 0%nat 0%nat c = row0 c) by (intros c Hc; rewrite W2, W1 by auto; reflexivity).
  assert (Ws1 : forall c, (c < 2)%nat -> sW st2 0%nat 1%nat c = if Nat.eqb c 1 then C1 else C0) by (intros c Hc; rewrite W2 by auto; reflexivity).
  assert (Y00 : demixed 2 X4 (sW st2) 0 0 0 = (sqrt 2 / 4, sqrt 2 / 4)) by (unfold demixed; rewrite !csum_S, csum_0, !Ws by lia; unfold row0, X4; cbn [Nat.eqb]; apply C_eq; cbn; field).
  assert (Y01 : demixed 2 X4 (sW st2) 0 0 1 = (sqrt 2 / 4, - (sqrt 2 / 4))) by (unfold demixed; rewrite !csum_S, csum_0, !Ws by lia; unfold row0, X4; cbn [Nat.eqb]; apply C_eq; cbn; field).
  assert (Y10 : demixed 2 X4 (sW st2) 0 1 0 = RtoC (/ 3)) by (unfold demixed; rewrite !csum_S, csum_0, !Ws1 by lia; unfold X4; cbn [Nat.eqb]; apply C_eq; cbn; field).
  assert (Y11 : demixed 2 X4 (sW st2) 0 1 1 = (0, / 3)) by (unfold demixed; rewrite !csum_S, csum_0, !Ws1 by lia; unfold X4; cbn [Nat.eqb]; apply C_eq; cbn; field).
  assert (E3 : exists st3, rescale 1 2 (powers 2 X4 st2) 0 = Some st3 /\ (forall t, sP st3 1%nat 0%nat t = Cabs2 (demixed 2 X4 (sW st2) 0 1 t)) /\ forall c, sW st3 0%nat 0%nat c = if Nat.eqb c 0 then Cscal 2 (sW st2 0%nat 0%nat c) else sW st2 0%nat 0%nat c).
  { unfold rescale. cbn [bsum powers sP]. rewrite !Cabs_sq, Y00, Y01. set (mean := _ / _). assert (Em : mean = / (2 * 2)). { unfold mean, Cabs2. cbn. replace (0 + (0 + (sqrt 2 / 4 * (sqrt 2 / 4) + sqrt 2 / 4 * (sqrt 2 / 4)) + (sqrt 2 / 4 * (sqrt 2 / 4) + - (sqrt 2 / 4) * - (sqrt 2 / 4)))) with (sqrt 2 * sqrt 2 / 4) by field. rewrite Qs. field. }
    destruct (Rlt_dec 0 mean) as [_|N]; [|exfalso; lra]. rewrite Em, sqrt_inv_sq by lra. eexists. split; [reflexivity|]. cbn [sP sW Nat.eqb powers]. split; [intros t; apply Cabs_sq|reflexivity]. }
  destruct E3 as (st3 & E3 & P3 & W3).
  assert (E4 : exists st4, rescale 1 2 st3 1 = Some st4 /\ forall c, sW st4 0%nat 0%nat c = if Nat.eqb c 1 then Cscal 3 (sW st3 0%nat 0%nat c) else sW st3 0%nat 0%nat c).
  { unfold rescale. cbn [bsum]. rewrite !P3, Y10, Y11. set (mean := _ / _). assert (Em : mean = / (3 * 3)) by (unfold mean, Cabs2; cbn; field).
    destruct (Rlt_dec 0 mean) as [_|N]; [|exfalso; lra]. rewrite Em, sqrt_inv_sq by lra. eexists. split; [reflexivity|]. cbn [sW]. reflexivity. }
  destruct E4 as (st4 & E4 & W4).
  exists solve2, X4, T0, T0, (fun t f s => demixed 2 X4 (sW st2) f s t), (sW st4). split; [exact solve2_ok|]. split.
  { intros s f k. unfold T0. pose proof (tau_pos s). lra. }
  split.
  { unfold ilrma. cbn [Nat.eqb]. fold st. cbn [iterations]. unfold iteration. cbn [seq foldM]. change (/ 10 ^ 15) with eps0. rewrite E1. cbn [bind]. rewrite E2. cbn [bind]. rewrite E3. cbn [bind]. rewrite E4. reflexivity. }
  intros (g & Hg). pose proof (Hg 0%nat ltac:(lia)) as G0. pose proof (Hg 1%nat ltac:(lia)) as G1. rewrite Y00 in G0. rewrite Y01 in G1.
  rewrite !csum_S, csum_0, !W4, !W3, !Ws in G0, G1 by lia. unfold row0, X4 in G0, G1. cbn [Nat.eqb] in G0, G1. destruct g as [a b].
  apply (f_equal fst) in G0 as A1; apply (f_equal snd) in G0 as A2; apply (f_equal fst) in G1 as A3; apply (f_equal snd) in G1 as A4. cbn in A1, A2, A3, A4.
  assert (B1 : sqrt 2 * (1 - (a - 3 * b)) = 0) by lra. assert (B2 : sqrt 2 * (1 - (3 * a + b)) = 0) by lra. assert (B3 : sqrt 2 * (1 - (a + 3 * b)) = 0) by lra.
  apply Rmult_integral in B1, B2, B3. lra.
Qed.
Print Assumptions C112_rejects. Print Assumptions C112_output. Print Assumptions C112_source_step. Print Assumptions C112_first_iteration. Print Assumptions C112_filters_refuted.
