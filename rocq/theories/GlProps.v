(** Griffin-Lim phase reconstruction. *)
From Coq Require Import List ZArith Lia Reals Lra Bool.
From Verif Require LmsProofs StftProps.
From Verif Require Import Base Vec Sum Cpx BaseProofs DftModel DftProofs StftModel StftSpec StftProofs DenoiseModel BackModel WienerProofs GlModel GlSpec GlProofs GlRun.
Import ListNotations.
Local Open Scope R_scope.

(** * Runs *)
Section Run.
Variables (wa : vec) (hop F : nat) (X : list (list R)) (fft_size : option nat).
Let N := length wa.
Let shift := (N - hop)%nat.
Hypothesis HV : valid_call wa hop F X fft_size.
Lemma size : match fft_size with Some n => n | None => 2 * (length (hd [] X) - 1) end%nat = N.
Proof.
  destruct HV as (_ & HF & _ & (HX & HR) & [-> | [-> He]]); [reflexivity|]. destruct X as [|r X']; [cbn in HX; lia|]. inversion HR as [|? ? [Hr _] _]; subst. cbn [hd]. fold N in Hr. rewrite Hr.
  destruct He as [m Hm]. fold N in Hm. rewrite Hm. replace (2 * m)%nat with (m * 2)%nat by lia. rewrite Nat.div_mul by lia. lia.
Qed.
Definition steps (n : nat) (s : stft * vec) : option (stft * vec) := foldM (fun s (_ : nat) => gl_step shift X s) (seq 0 n) s.
Lemma steps_S : forall n s, steps (S n) s = let* t := steps n s in gl_step shift X t.
Proof.
  intros n s. unfold steps. rewrite seq_S, LmsProofs.foldM_app. destruct (foldM _ (seq 0 n) s) as [t|]; cbn [bind]; [|reflexivity]. cbn [foldM Nat.add]. destruct (gl_step shift X t); reflexivity.
Qed.
Definition started (ini : start) (ws : vec) (P : list (list C)) (s0 : stft * vec) : Prop :=
  initial_phase X ini = Some P /\ compute_synthesis_window wa hop = Some ws /\ exists st, stft_new N (Some hop) (Some wa) (Some ws) true None = Some st /\ gl_init st shift X P = Some s0.
Lemma call_inv : forall n ini y i, griffin_lim X hop wa fft_size n ini = Some (y, i) ->
  exists ws P s0 s, started ini ws P s0 /\ steps n s0 = Some s /\ y = snd s /\ i = match ini with Given _ => Given P | _ => ini end.
Proof.
  intros n ini y i H. unfold griffin_lim in H. cbv zeta in H. rewrite size in H. destruct (initial_phase X ini) as [P|] eqn:EP; [|discriminate]. cbn [bind] in H.
  destruct (compute_synthesis_window wa hop) as [ws|] eqn:EW; [|discriminate]. cbn [bind] in H. destruct (stft_new N (Some hop) (Some wa) (Some ws) true None) as [st|] eqn:ES; [|discriminate]. cbn [bind] in H.
  fold shift in H. destruct (gl_init st shift X P) as [s0|] eqn:EI; [|discriminate]. cbn [bind] in H. fold (steps n s0) in H. destruct (steps n s0) as [s|] eqn:ER; [|discriminate]. cbn [bind] in H.
  apply some_inj in H. apply pair_equal_spec in H. destruct H as [<- <-]. exists ws, P, s0, s. repeat split; auto. exists st. auto.
Qed.
Lemma call_of : forall n ini ws P s0 s, started ini ws P s0 -> steps n s0 = Some s -> griffin_lim X hop wa fft_size n ini = Some (snd s, match ini with Given _ => Given P | _ => ini end).
Proof.
  intros n ini ws P s0 s (EP & EW & st & ES & EI) ER. unfold griffin_lim. cbv zeta. rewrite size, EP. cbn [bind]. rewrite EW. cbn [bind]. rewrite ES. cbn [bind]. fold shift. rewrite EI. cbn [bind].
  fold (steps n s0). rewrite ER. reflexivity.
Qed.
Lemma call_none : forall n ini ws P s0, started ini ws P s0 -> steps n s0 = None -> griffin_lim X hop wa fft_size n ini = None.
Proof.
  intros n ini ws P s0 (EP & EW & st & ES & EI) ER. unfold griffin_lim. cbv zeta. rewrite size, EP. cbn [bind]. rewrite EW. cbn [bind]. rewrite ES. cbn [bind]. fold shift. rewrite EI. cbn [bind].
  fold (steps n s0). rewrite ER. reflexivity.
Qed.
Lemma started_fun : forall ini ws P s0 ws' P' s0', started ini ws P s0 -> started ini ws' P' s0' -> ws' = ws /\ P' = P /\ s0' = s0.
Proof. intros ini ws P s0 ws' P' s0' (E1 & E2 & st & E3 & E4) (F1 & F2 & st' & F3 & F4). rewrite E1 in F1. rewrite E2 in F2. apply some_inj in F1, F2. subst. rewrite E3 in F3. apply some_inj in F3. subst. rewrite E4 in F4. apply some_inj in F4. auto. Qed.

(** the start *)
Definition spectrum_of (Y : list (list C)) (P : list (list C)) : Prop :=
  length Y = F /\ Forall (fun r => length r = (N / 2 + 1)%nat) Y /\ forall k f, (k < F)%nat -> (f <= N / 2)%nat -> nth f (nth k Y []) C0 = Cscal (nth f (nth k X []) 0) (nth f (nth k P []) C0).
Lemma start_inv : forall ini ws P s0, started ini ws P s0 -> exists Y out, spectrum_of Y P /\ engine wa ws hop (repeat 0 shift) (fst s0) /\ length (snd s0) = (F * hop)%nat /\ length out = (F * hop)%nat /\
  (forall t, (shift <= t < F * hop)%nat -> nth t out 0 = ola hop (map (inverse N (Some ws)) Y) t) /\ shifted shift out out = Some (snd s0).
Proof.
  intros ini ws P s0 (EP & EW & st & ES & EI). destruct HV as (Hh & HF & HT & HX & _). fold N in Hh, HT, HX.
  destruct (engine_new wa ws hop F Hh HF HT) as (st' & ES' & He). fold N in ES'. rewrite ES in ES'. apply some_inj in ES'. subst st'.
  unfold gl_init in EI. destruct (entrywise _ X P) as [Y|] eqn:EY; [|discriminate]. cbn [bind] in EI.
  destruct (entrywise_inv _ _ _ _ 0 C0 C0 EY) as (L1 & L2 & L3 & G). pose proof (proj1 HX) as LX. rewrite LX in *.
  assert (RY : Forall (fun r => length r = (N / 2 + 1)%nat) Y).
  { apply Forall_forall. intros r Hr. apply (In_nth _ _ []) in Hr. destruct Hr as (k & Hk & <-). rewrite (proj2 (L3 k ltac:(lia))). apply (rows_X wa hop F X Hh HF HT HX). lia. }
  destruct (synth_ok wa ws hop F Hh EW HF HT _ st Y He L2 RY) as (st2 & out & E2 & He2 & Lo & Go). rewrite E2 in EI. cbn [bind snd fst] in EI.
  destruct (shifted shift out out) as [y|] eqn:Esh; [|discriminate]. cbn [bind] in EI. apply some_inj in EI. subst s0. cbn [fst snd].
  exists Y, out. split; [split; [auto|split; [auto|]]|split; [exact He2|split; [|split; [auto|split; [exact Go|exact Esh]]]]].
  - intros k f Hk Hf. specialize (G k f Hk). rewrite (rows_X wa hop F X Hh HF HT HX) in G by auto. fold N in G. specialize (G ltac:(lia)). apply some_inj in G. now symmetry.
  - destruct (nth_shifted shift out out y) as [L _]; auto; [unfold shift; lia|lia].
Qed.
Lemma run_inv : forall ini ws P s0, started ini ws P s0 -> forall n s, steps n s0 = Some s ->
  engine wa ws hop (before N hop n (snd s)) (fst s) /\ length (snd s) = (F * hop)%nat /\ skipn (F * hop - shift) (snd s) = skipn (F * hop - shift) (snd s0).
Proof.
  intros ini ws P s0 Hst. destruct (start_inv _ _ _ _ Hst) as (Y & out & _ & He0 & L0 & _). pose proof Hst as (_ & EW & _). destruct HV as (Hh & HF & HT & HX & _). fold N in Hh, HT, HX.
  induction n as [|n IH]; intros s H.
  - cbn in H. apply some_inj in H. subst s. cbn [before]. auto.
  - rewrite steps_S in H. destruct (steps n s0) as [[st y]|] eqn:E; [|discriminate]. cbn [bind] in H. destruct (IH _ eq_refl) as (He & Ly & Ty). cbn [fst snd] in *.
    destruct (step_inv wa ws hop F X Hh EW HF HT HX _ st y s He Ly H) as (Y' & _ & L' & _ & He' & Ts). cbn [before]. rewrite L'. unfold shift in Ts, Ty |- *. fold N in Ts. split; [|split; [auto|now rewrite <- Ty, <- Ts]].
    replace (skipn (F * hop - (N - hop)) (snd s)) with (skipn (F * hop) (before N hop n y ++ y)); [exact He'|].
    rewrite skipn_app, (h_length wa ws hop _ _ He). rewrite skipn_all2 by (rewrite (h_length wa ws hop _ _ He); fold N; lia). cbn [app]. now symmetry.
Qed.
Lemma run_next : forall ini ws P s0, started ini ws P s0 -> forall n s, steps n s0 = Some s -> forall s', steps (S n) s0 = Some s' ->
  let h := before N hop n (snd s) in exists Y, target wa hop F X Y (h ++ snd s) /\ length (snd s') = (F * hop)%nat /\ forall i, nth i (h ++ snd s') 0 = updated wa ws hop F Y (h ++ snd s) i.
Proof.
  intros ini ws P s0 Hst n [st y] H s' H' h. destruct (run_inv _ _ _ _ Hst _ _ H) as (He & Ly & _). pose proof Hst as (_ & EW & _). destruct HV as (Hh & HF & HT & HX & _). fold N in Hh, HT, HX.
  rewrite steps_S, H in H'. cbn [bind fst snd] in *. destruct (step_inv wa ws hop F X Hh EW HF HT HX _ st y s' He Ly H') as (Y' & T' & L' & U' & _). eauto.
Qed.
Lemma run_defined : forall ini ws P s0, started ini ws P s0 -> forall n s, steps n s0 = Some s ->
  (steps (S n) s0 <> None <-> forall k f, (k < F)%nat -> (f <= N / 2)%nat -> mag wa hop (before N hop n (snd s) ++ snd s) k f <> 0).
Proof.
  intros ini ws P s0 Hst n [st y] H. destruct (run_inv _ _ _ _ Hst _ _ H) as (He & Ly & _). pose proof Hst as (_ & EW & _). pose proof HV as (Hh & HF & HT & HX & _). fold N in Hh, HT, HX. cbn [fst snd] in *. split.
  - intros Hn k f Hk Hf. destruct (steps (S n) s0) as [s'|] eqn:E; [|congruence]. destruct (run_next _ _ _ _ Hst _ _ H _ E) as (Y & T & _). cbn [snd] in T. apply (proj1 (T k f Hk Hf)).
  - intros Hm. rewrite steps_S, H. cbn [bind]. unfold gl_step. destruct (analysis_ok wa ws hop F Hh HF HT _ st y He Ly) as (st1 & E1 & He1). rewrite E1. cbn [bind fst snd].
    set (e := before N hop n y ++ y) in *. pose proof (proj1 HX) as LX.
    destruct (entrywise_total (fun x a => let* r := rdiv x (Cabs a) in Some (Cscal r a)) X (spectra (length wa) hop 0 0 (Some wa) e F) 0 C0) as [Y EY].
    + unfold spectra. now rewrite map_length, seq_length.
    + intros k Hk. rewrite LX in Hk. rewrite (rows_X wa hop F X Hh HF HT HX) by auto. unfold spectra. rewrite nth_map_seq by auto. rewrite rfft_length, !Nat.add_0_r. reflexivity.
    + intros k j Hk Hj. rewrite LX in Hk. rewrite (rows_X wa hop F X Hh HF HT HX) in Hj by auto. rewrite (nth_spectrum wa hop F) by (auto; lia). unfold rdiv.
      destruct (Req_EM_T _ 0) as [E0|]; [|cbn; congruence]. exfalso. apply (Hm k j Hk); [fold N in Hj; lia|exact E0].
    + fold (enforce X (spectra (length wa) hop 0 0 (Some wa) e F)) in EY. rewrite EY. cbn [bind]. destruct (enforce_inv wa hop F X Hh HF HT HX e Y EY) as (LY & RY & _).
      destruct (synth_ok wa ws hop F Hh EW HF HT _ st1 Y He1 LY RY) as (st2 & out & E2 & _). rewrite E2. cbn [bind fst snd]. destruct (shifted_total shift out y) as [y' ->]; [unfold shift; lia|]. cbn [bind]. congruence.
Qed.
(** spectra of a signal *)
Lemma same_spectrum : forall ws Y e, compute_synthesis_window wa hop = Some ws ->
  (forall k f, (k < F)%nat -> (f <= N / 2)%nat -> nth f (nth k Y []) C0 = dft N (fun n => RtoC (nth n wa 0 * nth (k * hop + n) e 0)) f) -> forall s, updated wa ws hop F Y e s = nth s e 0.
Proof.
  intros ws Y e EW HY s. destruct HV as (Hh & HF & HT & HX & _). fold N in Hh, HT, HX. unfold updated. destruct (Nat.leb_spec (N - hop) s) as [A|A]; fold N; [|destruct (Nat.leb_spec (N - hop) s); [lia|reflexivity]].
  destruct (Nat.leb_spec (N - hop) s); [|lia]. cbn [andb]. destruct (Nat.ltb_spec s (F * hop)) as [B|B]; [|reflexivity].
  transitivity (nth s e 0 * bsum F (fun k => if ((k * hop <=? s) && (s - k * hop <? N))%nat then win (Some wa) (s - k * hop) * win (Some ws) (s - k * hop) else 0)).
  - rewrite <- bsum_scal. apply bsum_ext. intros k Hk. unfold covers. destruct (Nat.leb_spec (k * hop) s) as [P|P]; cbn [andb]; [|ring]. destruct (Nat.ltb_spec (s - k * hop) N) as [Q|Q]; [|ring].
    rewrite (irfft_idft N _ (dft N (fun n => RtoC (nth n wa 0 * nth (k * hop + n) e 0)))); auto.
    + rewrite idft_dft by (auto; lia). cbn [fst RtoC win]. replace (k * hop + (s - k * hop))%nat with s by lia. ring.
    + apply (dft_hermitian N (fun n => nth n wa 0 * nth (k * hop + n) e 0)).
  - rewrite (cover N hop (Some wa) (Some ws)); auto; [ring|lia|]. apply window_partition; auto. fold N. lia.
Qed.
End Run.

(** C120: one more iteration does not increase the distance between the given magnitudes and
    those of the signal. *)
Theorem C120_improves : forall wa hop F X fft_size n ini y i y' i', valid_call wa hop F X fft_size ->
  griffin_lim X hop wa fft_size n ini = Some (y, i) -> griffin_lim X hop wa fft_size (S n) ini = Some (y', i') ->
  let h := before (length wa) hop n y in distance wa hop X (h ++ y') <= distance wa hop X (h ++ y).
Proof.
  intros wa hop F X fs n ini y i y' i' HV H H' h. destruct (call_inv wa hop F X fs HV _ _ _ _ H) as (ws & P & s0 & s & Hst & Es & -> & _). destruct (call_inv wa hop F X fs HV _ _ _ _ H') as (ws' & P' & s0' & s' & Hst' & Es' & -> & _).
  destruct (started_fun wa hop X _ _ _ _ _ _ _ Hst Hst') as (-> & -> & ->). destruct (run_next wa hop F X fs HV _ _ _ _ Hst _ _ Es _ Es') as (Y & T & _ & U). pose proof Hst as (_ & EW & _). destruct HV as (Hh & HF & HT & HX & _).
  apply (improves wa ws hop F X Hh EW HF HT HX (h ++ snd s) Y); auto.
Qed.
(** From the first iteration on it is the same distance that decreases. *)
Theorem C120_monotone : forall wa hop F X fft_size n m ini y i y' i', valid_call wa hop F X fft_size -> (1 <= n <= m)%nat ->
  griffin_lim X hop wa fft_size n ini = Some (y, i) -> griffin_lim X hop wa fft_size m ini = Some (y', i') ->
  exists h, length h = (length wa - hop)%nat /\ skipn (F * hop - length h) y = h /\ skipn (F * hop - length h) y' = h /\ distance wa hop X (h ++ y') <= distance wa hop X (h ++ y).
Proof.
  intros wa hop F X fs n m ini y i y' i' HV [Hn Hm] H H'. destruct (call_inv wa hop F X fs HV _ _ _ _ H) as (ws & P & s0 & s & Hst & Es & -> & _). destruct (call_inv wa hop F X fs HV _ _ _ _ H') as (ws' & P' & s0' & s' & Hst' & Es' & -> & _).
  destruct (started_fun wa hop X _ _ _ _ _ _ _ Hst Hst') as (-> & -> & ->).
  destruct (run_inv wa hop F X fs HV _ _ _ _ Hst _ _ Es) as (_ & Ly & Ty). destruct (run_inv wa hop F X fs HV _ _ _ _ Hst _ _ Es') as (_ & Ly' & Ty'). pose proof HV as (Hh & HF & HT & HX & _).
  set (h := skipn (F * hop - (length wa - hop)) (snd s0)) in *. assert (Lh : length h = (length wa - hop)%nat). { rewrite <- Ty. rewrite skipn_length. lia. }
  exists h. rewrite Lh. split; auto. split; auto. split; auto. clear H H' Hst' Ty Ly. revert s' Es' Ly' Ty'. induction Hm as [|m Hm IH]; intros s' Es' Ly' Ty'.
  - rewrite Es in Es'. apply some_inj in Es'. subst. apply Rle_refl.
  - pose proof Es' as E. rewrite steps_S in E. destruct (steps wa hop X m s0) as [t|] eqn:Et; [|discriminate]. clear E.
    destruct (run_inv wa hop F X fs HV _ _ _ _ Hst _ _ Et) as (_ & Lt & Tt). eapply Rle_trans; [|apply (IH t eq_refl Lt Tt)].
    destruct (run_next wa hop F X fs HV _ _ _ _ Hst _ _ Et _ Es') as (Y & T & _ & U). pose proof Hst as (_ & EW & _).
    replace (before (length wa) hop m (snd t)) with h in *. { apply (improves wa ws hop F X Hh EW HF HT HX (h ++ snd t) Y); auto. }
    destruct m; [lia|]. cbn [before]. rewrite Lt. now symmetry.
Qed.
(** The length of the result; its last samples are those of the start, which repeat the samples
    before them: the iterations never change them. *)
Theorem C120_tail : forall wa hop F X fft_size n ini y i, valid_call wa hop F X fft_size -> griffin_lim X hop wa fft_size n ini = Some (y, i) ->
  length y = (F * hop)%nat /\ exists y0 i0, griffin_lim X hop wa fft_size 0 ini = Some (y0, i0) /\ let d := (length wa - hop)%nat in
    (forall t, (F * hop - d <= t < F * hop)%nat -> nth t y 0 = nth t y0 0 /\ ((d <= t)%nat -> (t - d < F * hop - d)%nat -> nth t y 0 = nth (t - d) y0 0)).
Proof.
  intros wa hop F X fs n ini y i HV H. destruct (call_inv wa hop F X fs HV _ _ _ _ H) as (ws & P & s0 & s & Hst & Es & -> & _).
  destruct (run_inv wa hop F X fs HV _ _ _ _ Hst _ _ Es) as (_ & Ly & Ty). split; auto.
  exists (snd s0), (match ini with Given _ => Given P | _ => ini end). split; [apply (call_of wa hop F X fs HV 0 ini ws P s0 s0 Hst); reflexivity|]. intros d.
  destruct (start_inv wa hop F X fs HV _ _ _ _ Hst) as (Y & out & _ & _ & L0 & Lo & _ & Esh). destruct HV as (Hh & HF & HT & HX & _).
  destruct (nth_shifted (length wa - hop) out out (snd s0)) as [_ G]; auto; [lia|]. rewrite Lo in G. fold d in G, Ty.
  assert (ET : forall t, (F * hop - d <= t)%nat -> nth t (snd s) 0 = nth t (snd s0) 0).
  { intros t Ht. transitivity (nth (t - (F * hop - d)) (skipn (F * hop - d) (snd s)) 0); [rewrite nth_skipn; f_equal; lia|]. rewrite Ty, nth_skipn. f_equal. lia. }
  intros t Ht. split; [apply ET; lia|]. intros H1 H2. rewrite ET by lia. rewrite !G. destruct (Nat.ltb_spec t (F * hop - d)); [lia|]. destruct (Nat.ltb_spec (t - d) (F * hop - d)); [|lia]. f_equal. lia.
Qed.
(** The start is defined for every window that can be inverted and phases of the right shape. *)
Definition good_start (N F : nat) (ini : start) : Prop :=
  match ini with
  | ZeroPhase => True
  | RandomPhase u => length u = F /\ Forall (fun r => length r = (N / 2 + 1)%nat) u
  | Given P => length P = F /\ Forall (fun r => length r = (N / 2 + 1)%nat /\ Forall (fun z => z <> C0) r) P
  end.
Lemma Cabs_nz : forall z, z <> C0 <-> Cabs z <> 0.
Proof.
  intros z. split; intros H E; apply H.
  - apply Cabs2_zero. rewrite <- Cabs_sq, E. ring.
  - subst z. unfold Cabs, Cabs2, C0. cbn. replace (0 * 0 + 0 * 0) with 0 by ring. apply sqrt_0.
Qed.
Lemma initial_shape : forall N F X ini, length X = F -> Forall (fun r => length r = (N / 2 + 1)%nat) X -> good_start N F ini ->
  exists P, initial_phase X ini = Some P /\ length P = F /\ Forall (fun r => length r = (N / 2 + 1)%nat) P.
Proof.
  intros N F X ini LX HX G. destruct ini as [|u|P]; cbn [initial_phase good_start] in *.
  - eexists. split; [reflexivity|]. rewrite map_length. split; auto. rewrite Forall_map. eapply Forall_impl; [|exact HX]. intros r Hr. now rewrite map_length.
  - destruct G as [L R]. eexists. split; [reflexivity|]. rewrite map_length. split; auto. rewrite Forall_map. eapply Forall_impl; [|exact R]. intros r Hr. now rewrite map_length.
  - destruct G as [L R]. destruct (mapM_Some (mapM unit_modulus) P) as (Q & E & _).
    + intros r Hr. rewrite Forall_forall in R. destruct (R r Hr) as [_ Hz]. destruct (mapM_Some unit_modulus r) as (q & E & _); [|eauto]. intros z Hz'. rewrite Forall_forall in Hz. specialize (Hz z Hz'). apply Cabs_nz in Hz.
      unfold unit_modulus, rdiv. destruct (Req_EM_T (Cabs z) 0); [congruence|]. cbn. eauto.
    + exists Q. split; auto. destruct (mapM_nth _ _ _ [] [] E) as [LQ GQ]. split; [congruence|]. apply Forall_forall. intros r Hr. apply (In_nth _ _ []) in Hr. destruct Hr as (k & Hk & <-). rewrite LQ in Hk. specialize (GQ k Hk).
      apply mapM_length in GQ. rewrite GQ. rewrite Forall_forall in R. apply R. now apply nth_In.
Qed.
Theorem C120_start : forall wa hop F X fft_size ini, valid_call wa hop F X fft_size -> (forall i, (i < hop)%nat -> exists k, (i + k * hop < length wa)%nat /\ nth (i + k * hop) wa 0 <> 0) ->
  good_start (length wa) F ini -> exists y i, griffin_lim X hop wa fft_size 0 ini = Some (y, i).
Proof.
  intros wa hop F X fs ini HV HW G. pose proof HV as (Hh & HF & HT & HX & _). destruct HX as [LX RX].
  destruct (initial_shape (length wa) F X ini LX) as (P & EP & LP & RP); auto. { eapply Forall_impl; [|exact RX]. intros r [Hr _]. exact Hr. }
  destruct (proj2 (StftProps.C38_defined wa hop ltac:(lia)) HW) as [ws EW]. destruct (engine_new wa ws hop F Hh HF HT) as (st & ES & He).
  destruct (entrywise_total (fun x p => Some (Cscal x p)) X P 0 C0) as [Y EY]; [congruence| |congruence|].
  { intros k Hk. rewrite Forall_forall in RX, RP. rewrite (RP (nth k P [])) by (apply nth_In; lia). symmetry. apply RX. now apply nth_In. }
  destruct (entrywise_inv _ _ _ _ 0 C0 C0 EY) as (_ & L2 & L3 & _). rewrite LX in *.
  assert (RY : Forall (fun r => length r = (length wa / 2 + 1)%nat) Y).
  { apply Forall_forall. intros r Hr. apply (In_nth _ _ []) in Hr. destruct Hr as (k & Hk & <-). rewrite (proj2 (L3 k ltac:(lia))). rewrite Forall_forall in RX. apply RX. apply nth_In. lia. }
  destruct (synth_ok wa ws hop F Hh EW HF HT _ st Y He L2 RY) as (st2 & out & E2 & _). destruct (shifted_total (length wa - hop) out out) as [y Ey]; [lia|].
  assert (Hst : started wa hop X ini ws P (st2, y)). { split; auto. split; auto. exists st. split; auto. unfold gl_init. rewrite EY. cbn [bind]. rewrite E2. cbn [bind fst snd]. rewrite Ey. reflexivity. }
  eexists. eexists. apply (call_of wa hop F X fs HV 0 ini ws P (st2, y) (st2, y) Hst). reflexivity.
Qed.
(** Another iteration is possible exactly when no bin of the current signal vanishes. *)
Theorem C120_next : forall wa hop F X fft_size n ini y i, valid_call wa hop F X fft_size -> griffin_lim X hop wa fft_size n ini = Some (y, i) ->
  (griffin_lim X hop wa fft_size (S n) ini <> None <-> forall k f, (k < F)%nat -> (f <= length wa / 2)%nat -> mag wa hop (before (length wa) hop n y ++ y) k f <> 0).
Proof.
  intros wa hop F X fs n ini y i HV H. destruct (call_inv wa hop F X fs HV _ _ _ _ H) as (ws & P & s0 & s & Hst & Es & -> & _). rewrite <- (run_defined wa hop F X fs HV _ _ _ _ Hst _ _ Es).
  destruct (steps wa hop X (S n) s0) as [s'|] eqn:E.
  - rewrite (call_of wa hop F X fs HV _ _ _ _ _ _ Hst E). split; congruence.
  - rewrite (call_none wa hop F X fs HV _ _ _ _ _ Hst E). split; congruence.
Qed.
(** A signal that has the given magnitudes is left as it is. *)
Theorem C120_fixed_point : forall wa hop F X fft_size n ini y i y' i', valid_call wa hop F X fft_size ->
  griffin_lim X hop wa fft_size n ini = Some (y, i) -> griffin_lim X hop wa fft_size (S n) ini = Some (y', i') ->
  (forall k f, (k < F)%nat -> (f <= length wa / 2)%nat -> mag wa hop (before (length wa) hop n y ++ y) k f = nth f (nth k X []) 0) -> y' = y.
Proof.
  intros wa hop F X fs n ini y i y' i' HV H H' HM. destruct (call_inv wa hop F X fs HV _ _ _ _ H) as (ws & P & s0 & s & Hst & Es & -> & _). destruct (call_inv wa hop F X fs HV _ _ _ _ H') as (ws' & P' & s0' & s' & Hst' & Es' & -> & _).
  destruct (started_fun wa hop X _ _ _ _ _ _ _ Hst Hst') as (-> & -> & ->). destruct (run_next wa hop F X fs HV _ _ _ _ Hst _ _ Es _ Es') as (Y & T & L' & U). destruct (run_inv wa hop F X fs HV _ _ _ _ Hst _ _ Es) as (He & L & _).
  pose proof Hst as (_ & EW & _). apply list_eq; [congruence|]. intros t Ht. set (h := before (length wa) hop n (snd s)) in *.
  specialize (U (length h + t)%nat). rewrite (same_spectrum wa hop F X fs HV ws Y (h ++ snd s) EW) in U.
  - rewrite !app_nth2 in U by lia. now replace (length h + t - length h)%nat with t in U by lia.
  - intros k f Hk Hf. destruct (T k f Hk Hf) as [Nz E]. rewrite E. rewrite <- (HM k f Hk Hf). change (mag wa hop (h ++ snd s) k f) with (Cabs (dft (length wa) (fun m => RtoC (nth m wa 0 * nth (k * hop + m) (h ++ snd s) 0)) f)).
    unfold Rdiv. rewrite Rinv_r by exact Nz. destruct (dft _ _ f) as [a b]. unfold Cscal. cbn. f_equal; ring.
Qed.
(** With the magnitudes and the phases of the STFT of a signal, the start is that signal, but
    for its last samples. *)
Theorem C120_true_phase : forall wa hop F x fft_size ini y i X, let N := length wa in let S := spectra N hop 0 0 (Some wa) (repeat 0 (N - hop) ++ x) F in
  length x = (F * hop)%nat -> X = map (map Cabs) S -> ini = Given S -> valid_call wa hop F X fft_size ->
  griffin_lim X hop wa fft_size 0 ini = Some (y, i) -> forall t, (t < F * hop - (N - hop))%nat -> nth t y 0 = nth t x 0.
Proof.
  intros wa hop F x fs ini y i X N S Lx EX Ei HV H t Ht. destruct (call_inv wa hop F X fs HV _ _ _ _ H) as (ws & P & s0 & s & Hst & Es & -> & _). cbn in Es. apply some_inj in Es. subst s.
  destruct (start_inv wa hop F X fs HV _ _ _ _ Hst) as (Y & out & (LY & RY & GY) & _ & L0 & Lo & Go & Esh). pose proof HV as (Hh & HF & HT & HX & _). pose proof Hst as (EP & EW & _).
  destruct (nth_shifted (length wa - hop) out out (snd s0)) as [_ G]; auto; [lia|]. rewrite G, Lo. fold N in Go |- *. destruct (Nat.ltb_spec t (F * hop - (N - hop))); [|lia]. rewrite Go by (fold N; lia).
  unfold N. rewrite (ola_covers wa ws hop F Hh HF HT Y) by auto. set (e := repeat 0 (N - hop) ++ x) in *.
  transitivity (updated wa ws hop F Y e (t + (N - hop))).
  - unfold updated. fold N. destruct (Nat.leb_spec (N - hop) (t + (N - hop))); [|lia]. destruct (Nat.ltb_spec (t + (N - hop)) (F * hop)); [|lia]. reflexivity.
  - rewrite (same_spectrum wa hop F X fs HV ws Y e EW).
    + unfold e. rewrite app_nth2 by (rewrite repeat_length; lia). rewrite repeat_length. f_equal. lia.
    + intros k f Hk Hf. rewrite GY by auto. fold N in Hf |- *. rewrite EX.
      assert (LS : length S = F) by (unfold S, spectra; now rewrite map_length, seq_length).
      rewrite (nth_indep _ [] (map Cabs [])) by (rewrite map_length; lia). rewrite map_nth. assert (LK : length (nth k S []) = (N / 2 + 1)%nat). { unfold S, spectra. rewrite nth_map_seq by auto. rewrite rfft_length. now rewrite !Nat.add_0_r. }
      rewrite (nth_indep _ 0 (Cabs C0)) by (rewrite map_length; lia). rewrite map_nth. rewrite Ei in EP. cbn [initial_phase] in EP. destruct (mapM_nth _ _ _ [] [] EP) as [LP GP]. specialize (GP k ltac:(lia)).
      destruct (mapM_nth _ _ _ C0 C0 GP) as [_ GK]. specialize (GK f ltac:(lia)). unfold unit_modulus, rdiv in GK. destruct (Req_EM_T _ 0) as [|Nz]; [discriminate|]. cbn [bind] in GK. apply some_inj in GK. rewrite <- GK.
      transitivity (nth f (nth k S []) C0); [|unfold S; apply (nth_spectrum wa hop F); auto]. revert Nz. generalize (nth f (nth k S []) C0). intros [a b] Nz. set (r := Cabs (a, b)) in *. unfold Cscal. cbn. f_equal; field; exact Nz.
Qed.
(** The argument ini says only the phases: [Q] has the phases that [ini] stands for, with any moduli. *)
Definition phases_of (X : list (list R)) (ini : start) (Q : list (list C)) : Prop :=
  match ini with
  | ZeroPhase => Forall2 (Forall2 (fun (_ : R) q => 0 < fst q /\ snd q = 0)) X Q
  | RandomPhase u => Forall2 (Forall2 (fun t q => exists a, 0 < a /\ q = (a * cos (2 * PI * t), a * sin (2 * PI * t)))) u Q
  | Given P => Forall2 (Forall2 (fun p q => exists a, 0 < a /\ q = (a * fst p, a * snd p))) P Q
  end.
Lemma Cabs_pos_scal a (z : C) : 0 < a -> Cabs (a * fst z, a * snd z) = a * Cabs z.
Proof.
  intros Ha. change (a * fst z, a * snd z) with (Cscal a z). unfold Cabs, Cscal, Cabs2. cbn [fst snd].
  replace (a * fst z * (a * fst z) + a * snd z * (a * snd z)) with (a * a * (fst z * fst z + snd z * snd z)) by ring.
  rewrite sqrt_mult_alt by nra. rewrite sqrt_square by lra. reflexivity.
Qed.
Lemma unit_scal a z : 0 < a -> unit_modulus (a * fst z, a * snd z) = unit_modulus z.
Proof.
  intros Ha. unfold unit_modulus. rewrite Cabs_pos_scal by auto. unfold rdiv.
  destruct (Req_EM_T (Cabs z) 0) as [E|E]; destruct (Req_EM_T (a * Cabs z) 0) as [E'|E']; try (exfalso; nra); [reflexivity|].
  cbn [bind]. f_equal. unfold Cscal. cbn [fst snd]. apply f_equal2; field; split; lra.
Qed.
Lemma mapM_rel {A B D} (Rl : A -> B -> Prop) (f : A -> option D) (g : B -> option D) l m : Forall2 Rl l m -> (forall a b, Rl a b -> f a = g b) -> mapM f l = mapM g m.
Proof. intros H E. induction H as [|a b l m Hab H IH]; [reflexivity|]. cbn [mapM]. rewrite (E _ _ Hab), IH. reflexivity. Qed.
Lemma mapM_pure {A B} (f : A -> B) l : mapM (fun a => Some (f a)) l = Some (map f l).
Proof. induction l as [|a l IH]; [reflexivity|]. cbn [mapM map]. rewrite IH. reflexivity. Qed.
Lemma unit_one : unit_modulus C1 = Some C1.
Proof. unfold unit_modulus. replace (Cabs C1) with 1. 2:{ unfold Cabs, Cabs2, C1. cbn [fst snd]. replace (1 * 1 + 0 * 0) with 1 by ring. now rewrite sqrt_1. } unfold rdiv. destruct (Req_EM_T 1 0); [lra|]. cbn [bind]. f_equal. unfold Cscal, C1. cbn [fst snd]. apply f_equal2; field. Qed.
Lemma unit_cis t : unit_modulus (cis t) = Some (cis t).
Proof.
  unfold unit_modulus. replace (Cabs (cis t)) with 1. 2:{ unfold Cabs, Cabs2, cis. cbn [fst snd]. replace (cos t * cos t + sin t * sin t) with 1 by (pose proof (sin2_cos2 t); unfold Rsqr in *; lra). now rewrite sqrt_1. }
  unfold rdiv. destruct (Req_EM_T 1 0); [lra|]. cbn [bind]. f_equal. unfold Cscal, cis. cbn [fst snd]. apply f_equal2; field.
Qed.
Lemma phases_same X ini Q : phases_of X ini Q -> initial_phase X ini = initial_phase X (Given Q).
Proof.
  intros H. destruct ini as [|u|P]; cbn [phases_of initial_phase] in *.
  - rewrite <- mapM_pure. eapply mapM_rel; [exact H|]. intros r q Hr. cbn beta. rewrite <- mapM_pure. eapply mapM_rel; [exact Hr|]. intros a b [Hb1 Hb2]. cbn beta.
    rewrite <- unit_one, <- (unit_scal (fst b) C1) by auto. f_equal. unfold C1. cbn [fst snd]. destruct b as [b1 b2]. cbn [fst snd] in *. subst b2. apply f_equal2; ring.
  - rewrite <- mapM_pure. eapply mapM_rel; [exact H|]. intros r q Hr. cbn beta. rewrite <- mapM_pure. eapply mapM_rel; [exact Hr|]. intros t b (a & Ha & ->). cbn beta.
    rewrite <- unit_cis. symmetry. apply (unit_scal a (cis (2 * PI * t))). auto.
  - eapply mapM_rel; [exact H|]. intros r q Hr. eapply mapM_rel; [exact Hr|]. intros p b (a & Ha & ->). symmetry. now apply unit_scal.
Qed.
(** None means that all phases are zero, "random" that they are 2 pi rand, and of an array only the phases matter. *)
Theorem C120_phases : forall X hop wa fft_size n ini Q, phases_of X ini Q ->
  option_map fst (griffin_lim X hop wa fft_size n ini) = option_map fst (griffin_lim X hop wa fft_size n (Given Q)).
Proof.
  intros X hop wa fs n ini Q H. unfold griffin_lim. rewrite (phases_same X ini Q H). destruct (initial_phase X (Given Q)) as [P|]; [|reflexivity]. cbn [bind].
  destruct (compute_synthesis_window wa hop) as [ws|]; [|reflexivity]. cbn [bind]. cbv zeta. destruct (stft_new _ _ _ _ _ _) as [st|]; [|reflexivity]. cbn [bind].
  destruct (gl_init _ _ _ _) as [s|]; [|reflexivity]. cbn [bind]. destruct (foldM _ _ s) as [s'|]; reflexivity.
Qed.
Print Assumptions C120_phases.
Example C120_phases_case : phases_of [[2; 3]; [1; 0]] ZeroPhase [[(1, 0); (5, 0)]; [(2, 0); (1, 0)]].
Proof. repeat constructor; cbn; lra. Qed.
(** A single frame is refused. *)
Theorem C120_one_frame : forall wa hop n ini r, (2 <= length wa)%nat -> length r = (length wa / 2 + 1)%nat -> griffin_lim [r] hop wa (Some (length wa)) n ini = None.
Proof.
  intros wa hop n ini r HN Hr. unfold griffin_lim. destruct (initial_phase [r] ini) as [P|]; [|reflexivity]. cbn [bind]. cbv zeta. destruct (compute_synthesis_window wa hop) as [ws|]; [|reflexivity]. cbn [bind].
  destruct (stft_new (length wa) (Some hop) (Some wa) (Some ws) true None) as [st|] eqn:ES; [|reflexivity]. cbn [bind]. unfold gl_init. destruct (entrywise _ [r] P) as [Y|] eqn:EY; [|reflexivity]. cbn [bind].
  destruct (entrywise_inv _ _ _ _ 0 C0 C0 EY) as (_ & L2 & _). cbn [length] in L2. unfold synthesis, check_input. rewrite L2. rewrite (Nat.eqb_refl 1).
  replace (nbin st) with (length wa / 2 + 1)%nat.
  - destruct (Nat.eqb_spec 1 (length wa / 2 + 1)) as [E|]; [|reflexivity]. exfalso. assert (1 <= length wa / 2)%nat by (apply Nat.div_le_lower_bound; lia). lia.
  - unfold stft_new, make_buffers in ES. cbn [s_N s_hop s_nfft] in ES. destruct (_ <? _)%nat in ES; [discriminate|]. apply some_inj in ES. subst st. reflexivity.
Qed.
(** Frames that do not overlap are refused. *)
Theorem C120_no_overlap : forall wa n ini X, (2 <= length wa)%nat -> (1 <= length X)%nat -> Forall (fun r => length r = (length wa / 2 + 1)%nat) X -> griffin_lim X (length wa) wa (Some (length wa)) n ini = None.
Proof.
  intros wa n ini X HN LX RX. destruct (Nat.eq_dec (length X) 1) as [L1|L1]. { destruct X as [|r [|]]; try discriminate. apply C120_one_frame; auto. now inversion RX. }
  unfold griffin_lim. destruct (initial_phase X ini) as [P|]; [|reflexivity]. cbn [bind]. cbv zeta. destruct (compute_synthesis_window wa (length wa)) as [ws|] eqn:EW; [|reflexivity]. cbn [bind].
  assert (LW : length ws = length wa) by (destruct (window_spec wa (length wa) ws) as [L _]; auto; lia).
  destruct (setup_spec (length wa) (length wa) (Some wa) (Some ws) true None 0 0 ltac:(lia)) as (st & E & Hc & Hs & Hf & _ & Hb & Hy & _).
  unfold stft_setup in E. cbn [Nat.ltb Nat.leb] in E. destruct (stft_new (length wa) (Some (length wa)) (Some wa) (Some ws) true None) as [st0|]; [|discriminate]. cbn [bind] in E. apply some_inj in E. subst st0. cbn [bind].
  unfold gl_init. destruct (entrywise _ X P) as [Y|] eqn:EY; [|reflexivity]. cbn [bind]. destruct (entrywise_inv _ _ _ _ 0 C0 C0 EY) as (_ & L2 & L3 & _).
  assert (RY : Forall (fun r => length r = (length wa / 2 + 1)%nat) Y).
  { apply Forall_forall. intros r Hr. apply (In_nth _ _ []) in Hr. destruct Hr as (k & Hk & <-). rewrite (proj2 (L3 k ltac:(lia))). rewrite Forall_forall in RX. apply RX. apply nth_In. lia. }
  assert (En : nbin st = (length wa / 2 + 1)%nat). { unfold nbin. destruct Hc as (_ & _ & _ & _ & -> & _). now rewrite !Nat.add_0_r. }
  erewrite synthesis_many; [|apply (check_input_good st (Many Y)); [rewrite Hf, En; cbn; repeat split; auto; lia|rewrite Hf; congruence]|cbn; lia|cbn; reflexivity].
  cbn [frames_of]. rewrite synth_frames_with. cbn [s_yp with_analysis].
  pose proof (synth_frames_spec (length wa) (length wa) 0 0 (Some wa) (Some ws) st ltac:(lia) ltac:(lia) LW Hc Y (s_yp st)) as E. cbv zeta in E. rewrite !Nat.add_0_r in E.
  rewrite E by (auto; rewrite Hy, zeros_length; lia). cbn [bind snd]. unfold shifted. rewrite Nat.sub_diag. cbn [Nat.eqb].
  match goal with |- context[(?a <=? 1)%nat] => assert (La : (2 <= a)%nat) end. { rewrite map_length, seq_length. rewrite L2. nia. }
  match goal with |- context[(?a <=? 1)%nat] => destruct (Nat.leb_spec a 1); [lia|] end. reflexivity.
Qed.
(** Silence (a start with a vanishing bin) cannot be iterated: the magnitudes are divided by zero. *)
Theorem C120_silence : forall wa hop F X fft_size n ini, valid_call wa hop F X fft_size -> (length wa <= F * hop)%nat -> (forall k f, nth f (nth k X []) 0 = 0) -> griffin_lim X hop wa fft_size (S n) ini = None.
Proof.
  intros wa hop F X fs n ini HV HL H0. destruct (griffin_lim X hop wa fs (S n) ini) as [[y i]|] eqn:E; [exfalso|reflexivity].
  destruct (call_inv wa hop F X fs HV _ _ _ _ E) as (ws & P & s0 & s & Hst & Es & _ & _).
  destruct (start_inv wa hop F X fs HV _ _ _ _ Hst) as (Y & out & (LY & RY & GY) & _ & L0 & Lo & Go & Esh). pose proof HV as (Hh & HF & HT & HX & _).
  assert (E1 : exists s1, steps wa hop X 1 s0 = Some s1). { clear -Es. unfold steps in *. cbn [seq foldM] in *. destruct (gl_step (length wa - hop) X s0) as [s1|]; [|discriminate]. cbn [bind]. eauto. }
  destruct E1 as [s1 E1]. destruct (run_next wa hop F X fs HV _ _ _ _ Hst 0 s0 eq_refl s1 E1) as (Y1 & T & _ & _).
  destruct (T 0%nat 0%nat ltac:(lia) ltac:(lia)) as [Nz _]. apply Nz. cbn [before].
  assert (Z : forall m, (m < length wa)%nat -> nth m (repeat 0 (length wa - hop) ++ snd s0) 0 = 0).
  { intros m Hm. destruct (Nat.lt_ge_cases m (length wa - hop)) as [A|A]; [rewrite app_nth1 by (rewrite repeat_length; lia); apply nth_repeat|]. rewrite app_nth2 by (rewrite repeat_length; lia). rewrite repeat_length.
    destruct (nth_shifted (length wa - hop) out out (snd s0)) as [_ G]; auto; [lia|]. rewrite G, Lo. destruct (Nat.ltb_spec (m - (length wa - hop)) (F * hop - (length wa - hop))); [|lia].
    rewrite Go by lia. rewrite (ola_covers wa ws hop F Hh HF HT Y) by auto. apply bsum_zero_ext. intros k Hk. destruct (covers _ _ _ _) eqn:EC; [|reflexivity].
    unfold covers in EC. apply andb_prop in EC. destruct EC as [C1 C2]. apply Nat.ltb_lt in C2.
    rewrite (irfft_idft (length wa) _ (fun _ => C0)); auto.
    - unfold idft. rewrite csum_zero_ext; [cbn; ring|]. intros j Hj. unfold Cmul, C0. cbn. f_equal; ring.
    - intros j Hj. unfold Conj, C0. cbn. f_equal. ring.
    - intros f Hf. rewrite GY by auto. rewrite H0. unfold Cscal, C0. f_equal; ring. }
  replace (dft _ _ 0) with C0; [unfold Cabs, Cabs2, C0; cbn; replace (0 * 0 + 0 * 0) with 0 by ring; apply sqrt_0|].
  symmetry. unfold dft. apply csum_zero_ext. intros j Hj. cbn [Nat.mul Nat.add]. rewrite Z by auto. rewrite Rmult_0_r. unfold Cmul, RtoC, C0. cbn. f_equal; ring.
Qed.

(** * A case *)
Lemma omega2_0 : omega 2 0 = C1.
Proof. apply omega_0. Qed.
Lemma omega2_1 : omega 2 1 = RtoC (-1).
Proof. unfold omega, cis. replace (2 * PI * IZR 1 / INR 2) with PI by (cbn; field). rewrite cos_PI, sin_PI. reflexivity. Qed.
Lemma omega2_m1 : omega 2 (-1) = RtoC (-1).
Proof. unfold omega, cis. replace (2 * PI * IZR (-1) / INR 2) with (- PI) by (cbn; field). rewrite cos_neg, sin_neg, cos_PI, sin_PI. unfold RtoC. f_equal. ring. Qed.
Lemma dft2 : forall u f, (f <= 1)%nat -> dft 2 (fun n => RtoC (u n)) f = RtoC (u 0%nat + (if Nat.eqb f 0 then 1 else -1) * u 1%nat).
Proof.
  intros u f Hf. unfold dft. rewrite !csum_S, csum_0. destruct f as [|[|]]; [| |lia]; cbn [Nat.mul Nat.add Z.of_nat Pos.of_succ_nat Z.opp Nat.eqb]; rewrite ?omega2_0, ?omega2_m1; unfold Cadd, Cmul, RtoC, C0, C1; cbn; f_equal; ring.
Qed.
Lemma irfft2 : forall Y j, (j <= 1)%nat -> nth j (irfft 2 Y) 0 = (fst (nth 0 Y C0) + (if Nat.eqb j 0 then 1 else -1) * fst (nth 1 Y C0)) / 2.
Proof.
  intros Y j Hj. rewrite nth_irfft by lia. change ((2 - 1) / 2)%nat with 0%nat. change (2 / 2)%nat with 1%nat. change (Nat.even 2) with true. cbn [bsum]. destruct j as [|[|]]; [| |lia]; cbn [Nat.mul Nat.add Z.of_nat Pos.of_succ_nat Nat.eqb]; rewrite ?omega2_0, ?omega2_1; cbn; field.
Qed.
Definition ex_wa : vec := [1; 2].
Definition ex_X : list (list R) := [[2; 2]; [3; 1]; [1; 1]].
Definition ex_x : vec := [1; 1; 0].
Definition ex_S : list (list C) := spectra 2 1 0 0 (Some ex_wa) (repeat 0 1 ++ ex_x) 3.
Lemma ex_spectra : ex_S = map (map RtoC) [[2; -2]; [3; -1]; [1; 1]].
Proof.
  assert (E : forall k f, (k < 3)%nat -> (f <= 1)%nat -> nth f (nth k ex_S []) C0 = RtoC (nth 0 ex_wa 0 * nth (k * 1 + 0) (repeat 0 1 ++ ex_x) 0 + (if Nat.eqb f 0 then 1 else -1) * (nth 1 ex_wa 0 * nth (k * 1 + 1) (repeat 0 1 ++ ex_x) 0))).
  { intros k f Hk Hf. unfold ex_S. change 2%nat with (length ex_wa). rewrite (nth_spectrum ex_wa 1 3) by auto. change (length ex_wa) with 2%nat. rewrite (dft2 (fun n => nth n ex_wa 0 * nth (k * 1 + n) (repeat 0 1 ++ ex_x) 0)) by auto. reflexivity. }
  apply (nth_ext _ _ [] []); [reflexivity|]. intros k Hk. change (length ex_S) with 3%nat in Hk. apply (nth_ext _ _ C0 C0).
  { unfold ex_S, spectra. rewrite nth_map_seq by auto. rewrite rfft_length. destruct k as [|[|[|]]]; [reflexivity|reflexivity|reflexivity|lia]. }
  intros f Hf. assert (Hf' : (f <= 1)%nat). { unfold ex_S, spectra in Hf. rewrite nth_map_seq in Hf by auto. rewrite rfft_length in Hf. cbn in Hf. lia. }
  rewrite E by auto. destruct k as [|[|[|]]]; [| | |lia]; (destruct f as [|[|]]; [| |lia]); cbn; unfold RtoC; f_equal; ring.
Qed.
Lemma Cabs_RtoC : forall r, Cabs (RtoC r) = Rabs r.
Proof. intros r. unfold Cabs, Cabs2, RtoC. cbn. replace (r * r + 0 * 0) with (Rsqr r) by (unfold Rsqr; ring). apply sqrt_Rsqr_abs. Qed.
Lemma ex_mags : ex_X = map (map Cabs) ex_S.
Proof. rewrite ex_spectra. unfold ex_X. cbn [map]. rewrite !Cabs_RtoC. repeat (f_equal; try (unfold Rabs; destruct (Rcase_abs _); lra)). Qed.
Lemma ex_valid : valid_call ex_wa 1 3 ex_X None.
Proof.
  unfold valid_call, magnitudes. cbn [length ex_wa]. split; [lia|]. split; [lia|]. split; [lia|]. split; [|right; split; auto; exists 1%nat; reflexivity].
  split; [reflexivity|]. unfold ex_X. repeat constructor; cbn; lra.
Qed.
Lemma ex_good : good_start 2 3 (Given ex_S).
Proof. rewrite ex_spectra. cbn. split; [reflexivity|]. repeat constructor; unfold RtoC, C0; intros E; apply pair_equal_spec in E; destruct E; lra. Qed.
Lemma ex_start : exists y0 i0, griffin_lim ex_X 1 ex_wa None 0 (Given ex_S) = Some (y0, i0) /\ y0 = [1; 1; 1].
Proof.
  destruct (C120_start ex_wa 1 3 ex_X None (Given ex_S) ex_valid) as (y0 & i0 & E0); [|exact ex_good|].
  { intros i Hi. exists 0%nat. cbn. replace (i + 0)%nat with 0%nat by lia. cbn. split; [lia|lra]. }
  exists y0, i0. split; auto. destruct (C120_tail _ _ _ _ _ _ _ _ _ ex_valid E0) as (L & y1 & i1 & E1 & G). rewrite E0 in E1. apply some_inj in E1. apply pair_equal_spec in E1. destruct E1 as [<- <-].
  pose proof (C120_true_phase ex_wa 1 3 ex_x None (Given ex_S) y0 i0 ex_X eq_refl ex_mags eq_refl ex_valid E0) as T. cbn [length ex_wa] in T, G, L.
  apply list_eq; [exact L|]. intros t Ht. rewrite L in Ht. destruct t as [|[|[|]]]; [| | |lia].
  - rewrite T by lia. reflexivity.
  - rewrite T by lia. reflexivity.
  - destruct (G 2%nat ltac:(lia)) as [_ G2]. rewrite G2 by lia. rewrite T by lia. reflexivity.
Qed.
Lemma ex_frames : forall k f, (k < 3)%nat -> (f <= 1)%nat -> dft 2 (fun n => RtoC (nth n ex_wa 0 * nth (k * 1 + n) [0; 1; 1; 1] 0)) f = RtoC (nth f (nth k [[2; -2]; [3; -1]; [3; -1]] []) 0).
Proof.
  intros k f Hk Hf. rewrite (dft2 (fun n => nth n ex_wa 0 * nth (k * 1 + n) [0; 1; 1; 1] 0)) by auto. destruct k as [|[|[|]]]; [| | |lia]; (destruct f as [|[|]]; [| |lia]); cbn; unfold RtoC; f_equal; ring.
Qed.
Lemma ex_next : exists y1 i1, griffin_lim ex_X 1 ex_wa None 1 (Given ex_S) = Some (y1, i1) /\ nth 1 y1 0 = 4 / 5.
Proof.
  destruct ex_start as (y0 & i0 & E0 & Ey0). destruct (griffin_lim ex_X 1 ex_wa None 1 (Given ex_S)) as [[y1 i1]|] eqn:E1.
  2: { exfalso. apply (proj2 (C120_next _ _ _ _ _ _ _ _ _ ex_valid E0)); [|exact E1]. intros k f Hk Hf. subst y0. change (length ex_wa / 2)%nat with 1%nat in Hf. cbn [before length ex_wa Nat.sub repeat app].
       change (Cabs (dft 2 (fun n => RtoC (nth n ex_wa 0 * nth (k * 1 + n) [0; 1; 1; 1] 0)) f) <> 0). rewrite ex_frames by auto. rewrite Cabs_RtoC. apply Rabs_no_R0. destruct k as [|[|[|]]]; [| | |lia]; (destruct f as [|[|]]; [| |lia]); cbn; lra. }
  exists y1, i1. split; auto. destruct (call_inv _ _ _ _ _ ex_valid _ _ _ _ E0) as (ws & P & s0 & s & Hst & Es & Ey & _). destruct (call_inv _ _ _ _ _ ex_valid _ _ _ _ E1) as (ws' & P' & s0' & s' & Hst' & Es' & -> & _).
  destruct (started_fun _ _ _ _ _ _ _ _ _ _ Hst Hst') as (-> & -> & ->). destruct (run_next _ _ _ _ _ ex_valid _ _ _ _ Hst _ _ Es _ Es') as (Y & T & _ & U). rewrite <- Ey, Ey0 in T, U. cbn [before length ex_wa Nat.sub repeat app] in T, U.
  specialize (U 2%nat). cbn [nth] in U. rewrite U. unfold updated. cbn [length ex_wa Nat.sub Nat.leb Nat.ltb Nat.mul Nat.add andb bsum]. unfold covers. cbn [Nat.leb Nat.ltb Nat.mul Nat.add Nat.sub andb].
  pose proof Hst as (_ & EW & _). destruct (window_spec ex_wa 1 ws) as [_ W]; [lia|cbn; lia|exact EW|]. destruct (W 0%nat ltac:(cbn; lia)) as [_ W0]. destruct (W 1%nat ltac:(cbn; lia)) as [_ W1]. rewrite W0, W1.
  assert (CS : forall i, class_sum ex_wa 1 i = 5). { intros i. unfold class_sum. rewrite Nat.mod_1_r. cbn. lra. } rewrite !CS. rewrite !irfft2 by lia. cbn [Nat.eqb].
  assert (TY : forall k f, (k < 3)%nat -> (f <= 1)%nat -> fst (nth f (nth k Y []) C0) = nth f (nth k ex_X []) 0 / Rabs (nth f (nth k [[2; -2]; [3; -1]; [3; -1]] []) 0) * nth f (nth k [[2; -2]; [3; -1]; [3; -1]] []) 0).
  { intros k f Hk Hf. destruct (T k f Hk Hf) as [_ E]. rewrite E. pose proof (ex_frames k f Hk Hf) as EF. cbn [length ex_wa] in EF |- *. rewrite EF. rewrite Cabs_RtoC. unfold Cscal, RtoC. cbn [fst]. ring. }
  rewrite !TY by lia. cbn [nth ex_wa ex_X]. unfold Rabs. repeat (destruct (Rcase_abs _); try lra). field.
Qed.
(** Given the phases and magnitudes of the STFT of a signal, the iterations move away from it. *)
Theorem C120_true_phase_refuted : exists wa hop F x y0 i0 y1 i1, let N := length wa in let S := spectra N hop 0 0 (Some wa) (repeat 0 (N - hop) ++ x) F in let X := map (map Cabs) S in
  valid_call wa hop F X None /\ length x = (F * hop)%nat /\ griffin_lim X hop wa None 0 (Given S) = Some (y0, i0) /\ nth 1 y0 0 = nth 1 x 0 /\
  griffin_lim X hop wa None 1 (Given S) = Some (y1, i1) /\ nth 1 y1 0 <> nth 1 x 0.
Proof.
  destruct ex_start as (y0 & i0 & E0 & Ey). destruct ex_next as (y1 & i1 & E1 & Ey1). exists ex_wa, 1%nat, 3%nat, ex_x, y0, i0, y1, i1. cbv zeta. change (length ex_wa - 1)%nat with 1%nat. change (length ex_wa) with 2%nat. fold ex_S. rewrite <- ex_mags.
  split; [exact ex_valid|]. split; [reflexivity|]. split; [exact E0|]. split; [rewrite Ey; reflexivity|]. split; [exact E1|]. rewrite Ey1. cbn. lra.
Qed.
(** The array passed as ini is changed by the call. *)
Theorem C120_ini_refuted : exists wa hop X P y P', griffin_lim X hop wa None 0 (Given P) = Some (y, Given P') /\ P' <> P.
Proof.
  destruct ex_start as (y0 & i0 & E0 & Ey). destruct (call_inv _ _ _ _ _ ex_valid _ _ _ _ E0) as (ws & P & s0 & s & (EP & _) & _ & _ & Ei). exists ex_wa, 1%nat, ex_X, ex_S, y0, P. subst i0. split; [exact E0|].
  intros E. subst P. cbn [initial_phase] in EP. destruct (mapM_nth _ _ _ [] [] EP) as [_ G]. specialize (G 0%nat). rewrite ex_spectra in G. cbn [length map nth] in G. specialize (G ltac:(lia)).
  destruct (mapM_nth _ _ _ C0 C0 G) as [_ G']. specialize (G' 0%nat). cbn [length nth] in G'. specialize (G' ltac:(lia)). unfold unit_modulus, rdiv in G'. destruct (Req_EM_T _ 0); [discriminate|]. cbn [bind] in G'. apply some_inj in G'.
  rewrite Cabs_RtoC in G'. unfold Cscal, RtoC in G'. cbn in G'. apply pair_equal_spec in G'. destruct G' as [G' _]. unfold Rabs in G'. destruct (Rcase_abs 2); lra.
Qed.
(** It works where the theorems ask. *)
Example C120_ex : exists y0 i0 y1 i1, griffin_lim ex_X 1 ex_wa None 0 (Given ex_S) = Some (y0, i0) /\ griffin_lim ex_X 1 ex_wa None 1 (Given ex_S) = Some (y1, i1) /\ valid_call ex_wa 1 3 ex_X None /\ good_start 2 3 (Given ex_S).
Proof. destruct ex_start as (y0 & i0 & E0 & _). destruct ex_next as (y1 & i1 & E1 & _). exists y0, i0, y1, i1. repeat split; auto; try apply ex_valid; apply ex_good. Qed.

Print Assumptions C120_improves.
Print Assumptions C120_true_phase_refuted.
