(** One iteration of Griffin-Lim as operations on signals. *)
From Coq Require Import List ZArith Lia Reals Lra Bool.
From Verif Require Import Base Vec Sum Cpx BaseProofs DftModel DftProofs StftModel StftSpec StftProofs DenoiseModel BackModel WienerProofs GlModel GlSpec GlProofs.
Import ListNotations.
Local Open Scope R_scope.

Lemma mapM_nth : forall {A B} (f : A -> option B) l l' d d', mapM f l = Some l' -> length l' = length l /\ forall i, (i < length l)%nat -> f (nth i l d) = Some (nth i l' d').
Proof.
  intros A B f. induction l as [|a l IH]; intros l' d d' H; cbn [mapM] in H; [apply some_inj in H; subst; split; auto; intros i Hi; inversion Hi|].
  destruct (f a) as [b|] eqn:E; [|discriminate]. cbn [bind] in H. destruct (mapM f l) as [t|] eqn:E2; [|discriminate]. cbn [bind] in H. apply some_inj in H. subst l'.
  destruct (IH t d d' eq_refl) as [L G]. split; [cbn; now rewrite L|]. intros [|i] Hi; cbn; auto. apply G. cbn in Hi. lia.
Qed.
Lemma nth_combine : forall {A B} (a : list A) (b : list B) i da db, length a = length b -> nth i (combine a b) (da, db) = (nth i a da, nth i b db).
Proof. intros. now apply combine_nth. Qed.
Lemma entrywise_inv : forall {A B D} (f : A -> B -> option D) X P Y dx dp dy, entrywise f X P = Some Y ->
  length P = length X /\ length Y = length X /\ (forall k, (k < length X)%nat -> length (nth k P []) = length (nth k X []) /\ length (nth k Y []) = length (nth k X [])) /\
  (forall k j, (k < length X)%nat -> (j < length (nth k X []))%nat -> f (nth j (nth k X []) dx) (nth j (nth k P []) dp) = Some (nth j (nth k Y []) dy)).
Proof.
  intros A B D f X P Y dx dp dy H. unfold entrywise in H. destruct (Nat.eqb_spec (length X) (length P)) as [E|]; [|discriminate]. cbn [andb] in H.
  destruct (forallb _ (combine X P)) eqn:EF; [|discriminate]. rewrite forallb_forall in EF.
  assert (LC : length (combine X P) = length X) by (rewrite combine_length; lia).
  assert (ER : forall k, (k < length X)%nat -> length (nth k X []) = length (nth k P [])).
  { intros k Hk. assert (Hin : In (nth k (combine X P) ([], [])) (combine X P)) by (apply nth_In; lia). specialize (EF _ Hin). rewrite nth_combine in EF by auto. cbn [fst snd] in EF. now apply Nat.eqb_eq in EF. }
  destruct (mapM_nth _ _ _ ([], []) [] H) as [LY GY]. rewrite LC in *.
  assert (GR : forall k, (k < length X)%nat -> mapM (fun p => f (fst p) (snd p)) (combine (nth k X []) (nth k P [])) = Some (nth k Y [])).
  { intros k Hk. specialize (GY k Hk). rewrite nth_combine in GY by auto. exact GY. }
  split; auto. split; auto. split.
  - intros k Hk. split; [now rewrite <- ER|]. apply GR in Hk as G. apply mapM_length in G. rewrite G, combine_length. rewrite (ER k Hk). lia.
  - intros k j Hk Hj. destruct (mapM_nth _ _ _ (dx, dp) dy (GR k Hk)) as [_ G]. rewrite combine_length, <- (ER k Hk), Nat.min_id in G. specialize (G j Hj). rewrite nth_combine in G by (now apply ER). exact G.
Qed.
Lemma entrywise_total : forall {A B D} (f : A -> B -> option D) X P dx dp, length P = length X -> (forall k, (k < length X)%nat -> length (nth k P []) = length (nth k X [])) ->
  (forall k j, (k < length X)%nat -> (j < length (nth k X []))%nat -> f (nth j (nth k X []) dx) (nth j (nth k P []) dp) <> None) -> exists Y, entrywise f X P = Some Y.
Proof.
  intros A B D f X P dx dp L R HF. unfold entrywise. rewrite L, Nat.eqb_refl. cbn [andb].
  assert (LC : length (combine X P) = length X) by (rewrite combine_length; lia).
  replace (forallb _ (combine X P)) with true.
  2: { symmetry. apply forallb_forall. intros r Hr. apply (In_nth _ _ ([], [])) in Hr. destruct Hr as (k & Hk & <-). rewrite LC in Hk. rewrite nth_combine by auto. cbn [fst snd]. apply Nat.eqb_eq. symmetry. now apply R. }
  destruct (mapM_Some (fun r => mapM (fun p => f (fst p) (snd p)) (combine (fst r) (snd r))) (combine X P)) as (Y & E & _); [|eauto].
  intros r Hr. apply (In_nth _ _ ([], [])) in Hr. destruct Hr as (k & Hk & <-). rewrite LC in Hk. rewrite nth_combine by auto. cbn [fst snd].
  destruct (mapM_Some (fun p => f (fst p) (snd p)) (combine (nth k X []) (nth k P []))) as (y & Ey & _); [|eauto].
  intros p Hp. apply (In_nth _ _ (dx, dp)) in Hp. destruct Hp as (j & Hj & <-). rewrite combine_length, (R k Hk), Nat.min_id in Hj. rewrite nth_combine by (symmetry; now apply R). cbn [fst snd].
  specialize (HF k j Hk Hj). destruct (f _ _) as [d|]; [eauto|congruence].
Qed.
Lemma nth_shifted : forall shift new y y', (0 < shift <= length y)%nat -> length new = length y -> shifted shift new y = Some y' ->
  length y' = length y /\ forall t, nth t y' 0 = if (t <? length y - shift)%nat then nth (t + shift) new 0 else nth t y 0.
Proof.
  intros shift new y y' Hs Hl H. unfold shifted in H. destruct (Nat.eqb_spec shift 0); [lia|]. apply some_inj in H. subst y'.
  split; [rewrite app_length, !skipn_length; lia|]. intros t. destruct (Nat.ltb_spec t (length y - shift)) as [G|G].
  - rewrite app_nth1 by (rewrite skipn_length; lia). rewrite nth_skipn. f_equal. lia.
  - rewrite app_nth2 by (rewrite skipn_length; lia). rewrite nth_skipn, skipn_length. f_equal. lia.
Qed.
Lemma shifted_total : forall shift new y, (0 < shift)%nat -> exists y', shifted shift new y = Some y'.
Proof. intros shift new y H. unfold shifted. destruct (Nat.eqb_spec shift 0); [lia|eauto]. Qed.

Lemma synthesis_many : forall st Y st1 Xs, check_input st Y = Some st1 -> (0 < s_F st1)%nat -> s_X st1 = Some Xs ->
  synthesis st (Some Y) = let* r := synth_frames st1 Xs (s_yp st1) in let '(out, yp) := r in Some (with_analysis st1 (s_buf st1) yp (s_F st1) (s_X st1), Some out).
Proof. intros st Y st1 Xs H P E. unfold synthesis. rewrite H. cbn [bind]. rewrite E. destruct (s_F st1) eqn:EF; [lia|]. cbn [bind]. reflexivity. Qed.

Section Engine.
Variables (wa ws : vec) (hop F : nat) (X : list (list R)).
Let N := length wa.
Let shift := (N - hop)%nat.
Hypothesis (Hhop : (0 < hop < N)%nat) (Hws : compute_synthesis_window wa hop = Some ws) (HF : (2 <= F)%nat) (HT : (shift <= F * hop)%nat).
Hypothesis HX : magnitudes N F X.

Lemma ws_length : length ws = N.
Proof. destruct (window_spec wa hop ws) as [L _]; auto; fold N; lia. Qed.
(** the state of the STFT object: the previous samples [h] *)
Definition engine (h : vec) (st : stft) : Prop :=
  cfg N hop 0 0 (Some wa) (Some ws) st /\ s_stream st = true /\ s_fixed st = None /\ holds N hop 0 0 h (s_buf st) /\ length (s_yp st) = shift.
Lemma engine_new : exists st, stft_new N (Some hop) (Some wa) (Some ws) true None = Some st /\ engine (zeros shift) st.
Proof.
  destruct (setup_spec N hop (Some wa) (Some ws) true None 0 0 ltac:(lia)) as (st & E & Hc & Hs & Hf & _ & Hb & Hy & _).
  unfold stft_setup in E. cbn [Nat.ltb Nat.leb] in E. destruct (stft_new N (Some hop) (Some wa) (Some ws) true None) as [st0|]; [|discriminate]. cbn [bind] in E. apply some_inj in E. subst st0.
  exists st. split; auto. split; auto. split; auto. split; auto. split; [rewrite Hb; apply holds_fresh; lia|]. rewrite Hy, zeros_length. unfold shift. lia.
Qed.
Lemma synth_ok : forall h st Y, engine h st -> length Y = F -> Forall (fun r => length r = (N / 2 + 1)%nat) Y ->
  exists st' out, synthesis st (Some (Many Y)) = Some (st', Some out) /\ engine h st' /\ length out = (F * hop)%nat /\
    forall t, (shift <= t < F * hop)%nat -> nth t out 0 = ola hop (map (inverse N (Some ws)) Y) t.
Proof.
  intros h st Y (Hc & Hs & Hf & Hb & Hy) HL HY.
  assert (En : nbin st = (N / 2 + 1)%nat). { unfold nbin. destruct Hc as (_ & _ & _ & _ & -> & _). now rewrite !Nat.add_0_r. }
  erewrite synthesis_many; [|apply (check_input_good st (Many Y)); [rewrite Hf, En; cbn; repeat split; auto; lia|rewrite Hf; congruence]|cbn; lia|cbn; reflexivity].
  cbn [frames_of]. rewrite synth_frames_with. cbn [s_yp with_analysis].
  pose proof (synth_frames_spec N hop 0 0 (Some wa) (Some ws) st ltac:(lia) ltac:(lia) ws_length Hc Y (s_yp st)) as E. cbv zeta in E. rewrite !Nat.add_0_r in E.
  rewrite E by (auto; unfold shift in Hy; auto). cbn [bind]. rewrite padded_0, HL.
  eexists. eexists. split; [reflexivity|]. split; [|split].
  - unfold engine. cbn [s_stream s_fixed s_buf s_yp with_analysis]. split; [exact Hc|]. split; auto. split; auto. split; auto. now rewrite map_length, seq_length.
  - now rewrite map_length, seq_length.
  - intros t Ht. rewrite nth_map_seq by lia. rewrite (nth_overflow (s_yp st)) by lia. ring.
Qed.
Lemma analysis_ok : forall h st y, engine h st -> length y = (F * hop)%nat ->
  exists st', analysis st y = Some (st', spectra N hop 0 0 (Some wa) (h ++ y) F) /\ engine (skipn (F * hop) (h ++ y)) st'.
Proof.
  intros h st y (Hc & Hs & Hf & Hb & Hy) HL.
  destruct (analysis_spec N hop 0 0 (Some wa) (Some ws) st h y) as (buf & E & Hb'); auto; try lia; [unfold fits; reflexivity|rewrite Hf; exact I|].
  rewrite HL in *. rewrite ceil_div_mult in * by lia. rewrite Nat.sub_diag in Hb'. cbn [zeros repeat] in Hb'. rewrite app_nil_r in Hb'.
  eexists. split; [exact E|]. split; [exact Hc|]. split; auto.
Qed.
Lemma rows_X : forall k, (k < F)%nat -> length (nth k X []) = (N / 2 + 1)%nat.
Proof. intros k Hk. destruct HX as [L H]. rewrite Forall_forall in H. apply H. apply nth_In. lia. Qed.
Lemma X_nonneg : forall k f, (k < F)%nat -> 0 <= nth f (nth k X []) 0.
Proof.
  intros k f Hk. destruct HX as [L H]. rewrite Forall_forall in H. destruct (H (nth k X [])) as [Lr Hr]; [apply nth_In; lia|]. rewrite Forall_forall in Hr.
  destruct (Nat.lt_ge_cases f (length (nth k X []))) as [G|G]; [apply Hr; now apply nth_In|rewrite nth_overflow by auto; lra].
Qed.
(** signals: the history is put before the samples *)
Lemma h_length : forall h st, engine h st -> length h = shift.
Proof. intros h st (_ & _ & _ & (j & _ & L & _) & _). exact L. Qed.
Lemma nth_spectrum : forall e k f, (k < F)%nat -> (f <= N / 2)%nat -> nth f (nth k (spectra N hop 0 0 (Some wa) e F) []) C0 = dft N (fun n => RtoC (nth n wa 0 * nth (k * hop + n) e 0)) f.
Proof.
  intros e k f Hk Hf. unfold spectra. rewrite nth_map_seq by auto. rewrite !Nat.add_0_r. rewrite nth_rfft by auto. apply dft_ext. intros i Hi. f_equal.
  unfold frame. cbn [repeat app]. rewrite app_nil_r. rewrite nth_map_seq by auto. reflexivity.
Qed.
(** The result of one iteration. *)
Definition updated (Y : list (list C)) (e : vec) (s : nat) : R :=
  if ((shift <=? s) && (s <? F * hop))%nat then bsum F (fun k => if covers N hop k s then nth (s - k * hop) ws 0 * nth (s - k * hop) (irfft N (nth k Y [])) 0 else 0) else nth s e 0.
Lemma ola_covers : forall Y s, length Y = F -> ola hop (map (inverse N (Some ws)) Y) s = bsum F (fun k => if covers N hop k s then nth (s - k * hop) ws 0 * nth (s - k * hop) (irfft N (nth k Y [])) 0 else 0).
Proof.
  intros Y s HL. unfold ola. rewrite map_length, HL. apply bsum_ext. intros k Hk. unfold covers. destruct (Nat.leb_spec (k * hop) s); [|reflexivity]. cbn [andb].
  rewrite (nth_indep _ [] (inverse N (Some ws) [])) by (rewrite map_length; lia). rewrite map_nth. destruct (Nat.ltb_spec (s - k * hop) N) as [G|G].
  - rewrite nth_inverse by auto. reflexivity.
  - apply nth_overflow. now rewrite inverse_length.
Qed.
Lemma put_back : forall Y h y out y', length h = shift -> length y = (F * hop)%nat -> length Y = F -> length out = (F * hop)%nat ->
  (forall t, (shift <= t < F * hop)%nat -> nth t out 0 = ola hop (map (inverse N (Some ws)) Y) t) -> shifted shift out y = Some y' ->
  length y' = (F * hop)%nat /\ (forall s, nth s (h ++ y') 0 = updated Y (h ++ y) s) /\ skipn (F * hop) (h ++ y') = skipn (F * hop) (h ++ y) /\ skipn (F * hop - shift) y' = skipn (F * hop - shift) y.
Proof.
  intros Y h y out y' Hh Hy HY Ho Hout Hs. assert (Hsh : (0 < shift)%nat) by (unfold shift; lia). destruct (nth_shifted shift out y y') as [L G]; auto; [lia|congruence|]. rewrite Hy in *.
  assert (ET : skipn (F * hop - shift) y' = skipn (F * hop - shift) y).
  { apply list_eq; [rewrite !skipn_length; lia|]. intros i Hi. rewrite !nth_skipn, G. destruct (Nat.ltb_spec (F * hop - shift + i) (F * hop - shift)); [lia|reflexivity]. }
  split; auto. split; [|split; [|exact ET]].
  - intros s. unfold updated. destruct (Nat.leb_spec shift s) as [A|A]; cbn [andb].
    + rewrite app_nth2 by lia. rewrite Hh, G. destruct (Nat.ltb_spec s (F * hop)) as [B|B].
      * destruct (Nat.ltb_spec (s - shift) (F * hop - shift)); [|lia]. replace (s - shift + shift)%nat with s by lia. rewrite Hout by lia. now apply ola_covers.
      * destruct (Nat.ltb_spec (s - shift) (F * hop - shift)); [lia|]. rewrite app_nth2 by lia. now rewrite Hh.
    + rewrite !app_nth1 by lia. reflexivity.
  - rewrite !skipn_app, Hh. rewrite !(skipn_all2 h) by lia. cbn [app]. exact ET.
Qed.
Definition target (Y : list (list C)) (e : vec) : Prop :=
  forall k f, (k < F)%nat -> (f <= N / 2)%nat ->
    let U := dft N (fun n => RtoC (nth n wa 0 * nth (k * hop + n) e 0)) f in Cabs U <> 0 /\ nth f (nth k Y []) C0 = Cscal (nth f (nth k X []) 0 / Cabs U) U.
Lemma enforce_inv : forall e Y, enforce X (spectra N hop 0 0 (Some wa) e F) = Some Y -> length Y = F /\ Forall (fun r => length r = (N / 2 + 1)%nat) Y /\ target Y e.
Proof.
  intros e Y H. unfold enforce in H. destruct (entrywise_inv _ _ _ _ 0 C0 C0 H) as (L1 & L2 & L3 & G). destruct HX as [LX _]. rewrite LX in *.
  split; auto. split.
  - apply Forall_forall. intros r Hr. apply (In_nth _ _ []) in Hr. destruct Hr as (k & Hk & <-). rewrite (proj2 (L3 k ltac:(lia))). apply rows_X. lia.
  - intros k f Hk Hf. cbv zeta. specialize (G k f Hk). rewrite rows_X in G by auto. specialize (G ltac:(lia)). rewrite nth_spectrum in G by auto. unfold rdiv in G.
    destruct (Req_EM_T _ 0) as [|Ne]; [discriminate|]. cbn [bind] in G. apply some_inj in G. split; [exact Ne|now symmetry].
Qed.
Lemma step_inv : forall h st y s', engine h st -> length y = (F * hop)%nat -> gl_step shift X (st, y) = Some s' ->
  let e := h ++ y in
  exists Y, target Y e /\ length (snd s') = (F * hop)%nat /\ (forall s, nth s (h ++ snd s') 0 = updated Y e s) /\
    engine (skipn (F * hop) e) (fst s') /\ skipn (F * hop - shift) (snd s') = skipn (F * hop - shift) y.
Proof.
  intros h st y s' He Hy H e. unfold gl_step in H. destruct (analysis_ok h st y He Hy) as (st1 & E1 & He1). rewrite E1 in H. cbn [bind fst snd] in H. fold e in He1, H.
  destruct (enforce X _) as [Y|] eqn:EY; [|discriminate]. cbn [bind] in H. destruct (enforce_inv _ _ EY) as (LY & RY & TY).
  destruct (synth_ok _ st1 Y He1 LY RY) as (st2 & out & E2 & He2 & Lo & Go). rewrite E2 in H. cbn [bind snd fst] in H. destruct (shifted shift out y) as [y'|] eqn:Es; [|discriminate]. cbn [bind] in H. apply some_inj in H. subst s'. cbn [fst snd].
  destruct (put_back Y h y out y' (h_length _ _ He) Hy LY Lo Go Es) as (P1 & P2 & P3 & P4). exists Y. repeat split; auto; try (apply He2).
  - apply TY; auto.
  - apply TY; auto.
Qed.
(** The distance does not increase. *)
Lemma improves : forall e Y e', target Y e -> (forall s, nth s e' 0 = updated Y e s) -> distance wa hop X e' <= distance wa hop X e.
Proof.
  intros e Y e' HY He. unfold distance. destruct HX as [LX _]. rewrite LX. fold N.
  set (v := fun k n => nth n (irfft N (nth k Y [])) 0).
  assert (HN : (0 < N)%nat) by lia.
  assert (B1 : forall k, (k < F)%nat -> bsum N (fun f => (mag wa hop e k f - two_sided N X k f) ^ 2) = INR N * bsum N (fun n => (nth n wa 0 * nth (k * hop + n) e 0 - v k n) ^ 2)).
  { intros k Hk. unfold v. rewrite <- (dist_same N (fun n => nth n wa 0 * nth (k * hop + n) e 0) (fun f => nth f (nth k X []) 0) (nth k Y [])); auto.
    - intros f Hf. apply (HY k f Hk Hf).
    - intros f Hf. apply (HY k f Hk Hf). }
  assert (B2 : forall k, (k < F)%nat -> bsum N (fun f => (mag wa hop e' k f - two_sided N X k f) ^ 2) <= INR N * bsum N (fun n => (nth n wa 0 * nth (k * hop + n) e' 0 - v k n) ^ 2)).
  { intros k Hk. unfold v. apply (dist_other N (fun n => nth n wa 0 * nth (k * hop + n) e 0) (fun f => nth f (nth k X []) 0) (nth k Y [])) with (u' := fun n => nth n wa 0 * nth (k * hop + n) e' 0); auto.
    - intros f Hf. now apply X_nonneg.
    - intros f Hf. apply (HY k f Hk Hf).
    - intros f Hf. apply (HY k f Hk Hf). }
  eapply Rle_trans; [apply bsum_le; exact B2|]. rewrite (bsum_ext F _ _ B1). rewrite !bsum_scal. apply Rmult_le_compat_l; [apply pos_INR|].
  apply (best_samples wa ws hop F v (fun s => nth s e 0) (fun s => nth s e' 0)); auto; try (fold N; lia).
  - intros s Hs. rewrite He. unfold updated. fold N in Hs. destruct (Nat.leb_spec shift s); [|unfold shift in *; lia]. destruct (Nat.ltb_spec s (F * hop)); [|lia]. reflexivity.
  - intros s Hs. rewrite He. unfold updated. fold N in Hs. destruct (Nat.leb_spec shift s); cbn [andb]; auto. destruct (Nat.ltb_spec s (F * hop)); auto. unfold shift in *. lia.
Qed.
End Engine.
