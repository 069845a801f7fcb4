(** Streaming and batch analysis, overlap-add synthesis, reconstruction, filtering (C35-C40, C83). *)
From Coq Require Import List ZArith Lia Reals Lra Bool.
From Verif Require Import Base BaseProofs Vec Sum Cpx DftModel DftProofs StftModel StftSpec StftProofs.
Import ListNotations.
Local Open Scope R_scope.

(** ** C35: frames of a stream, whatever its blocks.  All blocks but the last have a whole number
    of hops; the last one may be cut anywhere (it is zero padded). *)
Theorem C35_streaming : forall N hop zf zb wa ws fx blocks last,
  (0 < hop <= N)%nat -> (2 <= N + zb + zf)%nat -> fits N wa -> multiples hop blocks -> Forall (accepts fx hop) (blocks ++ [last]) ->
  let x := concat (blocks ++ [last]) in
  exists st st', stft_setup N hop wa ws true fx zb zf = Some st /\
    feed st (blocks ++ [last]) = Some (st', spectra N hop zf zb wa (delayed (N - hop) x) (ceil_div (length x) hop)).
Proof.
  intros N hop zf zb wa ws fx blocks last Hh H2 Hw Hm Ha x.
  destruct (setup_spec N hop wa ws true fx zb zf (proj2 Hh)) as (st & E & Hc & Hs & Hf & HH & Hb & Hy & HF).
  destruct (feed_spec N hop zf zb wa ws blocks last Hh H2 Hw st (zeros (N - hop)) Hc Hs Hm) as (st' & E').
  - now rewrite Hf.
  - rewrite Hb. apply holds_fresh. lia.
  - exists st, st'. auto.
Qed.
Print Assumptions C35_streaming.
Theorem C35_chunking : forall N hop zf zb wa ws st blocks last blocks' last',
  (0 < hop <= N)%nat -> (2 <= N + zb + zf)%nat -> fits N wa -> stft_setup N hop wa ws true None zb zf = Some st ->
  multiples hop blocks -> multiples hop blocks' -> concat (blocks ++ [last]) = concat (blocks' ++ [last']) ->
  exists st1 st2 Xs, feed st (blocks ++ [last]) = Some (st1, Xs) /\ feed st (blocks' ++ [last']) = Some (st2, Xs).
Proof.
  intros N hop zf zb wa ws st blocks last blocks' last' Hh H2 Hw E Hm Hm' Hx.
  assert (T : forall l : list vec, Forall (accepts None hop) l) by (intros l; apply Forall_forall; intros; exact I).
  destruct (C35_streaming N hop zf zb wa ws None blocks last Hh H2 Hw Hm (T _)) as (s1 & t1 & E1 & F1).
  destruct (C35_streaming N hop zf zb wa ws None blocks' last' Hh H2 Hw Hm' (T _)) as (s2 & t2 & E2 & F2).
  rewrite E in E1, E2. inversion E1; inversion E2; subst. rewrite Hx in F1. exists t1, t2. eexists. split; eauto.
Qed.
Print Assumptions C35_chunking.
(** Without streaming the frames start at the first sample and the signal is zero padded. *)
Theorem C35_batch : forall N hop zf zb wa ws x,
  (0 < hop <= N)%nat -> (2 <= N + zb + zf)%nat -> fits N wa ->
  exists st st', stft_setup N hop wa ws false None zb zf = Some st /\
    analysis st x = Some (st', spectra N hop zf zb wa x (batch_frames N hop (length x))).
Proof.
  intros N hop zf zb wa ws x Hh H2 Hw.
  destruct (setup_spec N hop wa ws false None zb zf (proj2 Hh)) as (st & E & Hc & Hs & Hf & HH & Hb & Hy & HF).
  exists st. eexists. split; auto. apply (batch_spec N hop zf zb wa ws); auto.
Qed.
Print Assumptions C35_batch.
(** Every sample is in some frame, and the last frame starts inside the signal or is the only one. *)
Theorem C35_batch_covers : forall N hop len, (0 < hop <= N)%nat ->
  let F := batch_frames N hop len in (len <= (F - 1) * hop + N)%nat /\ (1 < F -> (F - 2) * hop + N < len)%nat.
Proof.
  intros N hop len Hh F. unfold F, batch_frames. destruct (Nat.ltb_spec len N); [split; lia|]. pose proof (ceil_div_spec (len - N) hop ltac:(lia)) as [A B]. set (c := ceil_div (len - N) hop) in *.
  split.
  - replace (c + 1 - 1)%nat with c by lia. lia.
  - intros. replace (c + 1 - 2)%nat with (c - 1)%nat by lia. assert ((c - 1) * hop + hop = c * hop)%nat by (destruct c; [lia|cbn; lia]). lia.
Qed.
Print Assumptions C35_batch_covers.
Example C35_case : exists st st1 st2 Xs, stft_setup 4 2 (Some [1; 2; 3; 4]) None true None 3 1 = Some st /\
  feed st [[1; 2]; [3; 4; 5; 6]; [7]] = Some (st1, Xs) /\ feed st [[1; 2; 3; 4]; [5; 6; 7]] = Some (st2, Xs) /\ length Xs = 4%nat.
Proof.
  assert (M1 : multiples 2 [[1; 2]; [3; 4; 5; 6]]) by (repeat constructor; [exists 1%nat|exists 2%nat]; reflexivity).
  assert (M2 : multiples 2 [[1; 2; 3; 4]]) by (repeat constructor; exists 2%nat; reflexivity).
  destruct (C35_streaming 4 2 1 3 (Some [1; 2; 3; 4]) None None [[1; 2]; [3; 4; 5; 6]] [7]) as (st & t & E & F); auto; try lia; try (cbn; lia); try (apply Forall_forall; intros; exact I).
  destruct (C35_streaming 4 2 1 3 (Some [1; 2; 3; 4]) None None [[1; 2; 3; 4]] [5; 6; 7]) as (st2 & t2 & E2 & F2); auto; try lia; try (cbn; lia); try (apply Forall_forall; intros; exact I).
  rewrite E in E2. inversion E2; subst st2. exists st, t, t2. eexists. repeat split; eauto.
Qed.

(** ** C36: synthesis is overlap-add *)
Theorem C36_synthesis : forall N hop zf zb wa ws str fx calls,
  (0 < hop <= N)%nat -> (2 <= N + zb + zf)%nat -> fits N ws -> Forall (good_call fx ((N + zb + zf) / 2 + 1)) calls ->
  let Xs := flat_map frames_of calls in
  exists st st' out, stft_setup N hop wa ws str fx zb zf = Some st /\ speak st calls = Some (st', out) /\ length out = (length Xs * hop)%nat /\
    forall t, (t < length out)%nat -> nth t out 0 = ola hop (map (inverse (N + zb + zf) (padded zf zb ws)) Xs) t.
Proof.
  intros N hop zf zb wa ws str fx calls Hh H2 Hw Hg Xs.
  destruct (setup_spec N hop wa ws str fx zb zf (proj2 Hh)) as (st & E & Hc & Hs & Hf & HH & Hb & Hy & HF).
  assert (Hl : length (s_yp st) = (N + zb + zf - hop)%nat) by (rewrite Hy; apply zeros_length).
  destruct (speak_spec N hop zf zb wa ws Hh H2 Hw calls st Hc Hl) as (st' & out & yp & E1 & E2).
  - now rewrite Hf.
  - rewrite Hf, HF. now destruct fx.
  - exists st, st', out. split; auto. split; auto.
    rewrite (synth_frames_spec N hop zf zb wa ws st) in E2; auto.
    + inversion E2. rewrite length_map_seq. split; auto. intros t Ht. rewrite nth_map_seq by auto. rewrite Hy, nth_zeros, Rplus_0_r. reflexivity.
    + clear - Hg. induction Hg as [|X l G Hg IH]; cbn; auto. apply Forall_app. split; auto. apply G.
Qed.
Print Assumptions C36_synthesis.
Example C36_case : let X := rfft 4 [1; 2; 3; 4] in exists st st' out, stft_setup 3 2 None None true None 1 0 = Some st /\
  speak st [One X; Many [X; X]] = Some (st', out) /\ out = [1; 2; 4; 6; 4; 6].
Proof.
  intros X. destruct (C36_synthesis 3 2 0 1 None None true None [One X; Many [X; X]]) as (st & st' & out & E1 & E2 & E3 & E4); try lia; try exact I.
  - repeat constructor; cbn; lia.
  - exists st, st', out. split; auto. split; auto. cbn [flat_map frames_of app length] in *. change (3 * 2)%nat with 6%nat in E3.
    assert (EX : forall i, (i < 4)%nat -> nth i (inverse 4 None X) 0 = nth i [1; 2; 3; 4] 0) by (intros i Hi; rewrite nth_inverse by auto; cbn [win]; rewrite Rmult_1_l; now apply irfft_rfft).
    apply list_eq; rewrite ?E3; auto. intros i Hi. rewrite E4 by lia. unfold ola. cbn [map length bsum padded option_map]. change (3 + 1 + 0)%nat with 4%nat.
    assert (O : forall j, (4 <= j)%nat -> nth j (inverse 4 None X) 0 = 0) by (intros j Hj; apply nth_overflow; now rewrite inverse_length).
    do 6 (destruct i as [|i]; [cbn [Nat.mul Nat.leb Nat.add Nat.sub nth]; rewrite ?O by lia; rewrite ?EX by lia; cbn [nth]; lra|]). lia.
Qed.

(** ** C37: reconstruction *)
Theorem C37_streaming_reconstruction : forall N hop zf zb wa ws fx blocks last,
  (0 < hop <= N)%nat -> (2 <= N + zb + zf)%nat -> fits N wa -> fits N ws -> partition N hop wa ws -> multiples hop blocks -> Forall (accepts fx hop) (blocks ++ [last]) ->
  let x := concat (blocks ++ [last]) in
  exists st st' out, stft_setup N hop wa ws true fx zb zf = Some st /\ chain st (blocks ++ [last]) = Some (st', out) /\
    length out = (ceil_div (length x) hop * hop)%nat /\ forall t, (t < length out)%nat -> nth t out 0 = nth t (delayed (N - hop + zf) x) 0.
Proof.
  intros N hop zf zb wa ws fx blocks last Hh H2 Hwa Hws HP Hm Ha x.
  destruct (setup_spec N hop wa ws true fx zb zf (proj2 Hh)) as (st & E & Hc & Hs & Hf & HH & Hb & Hy & HF).
  assert (Hl : length (s_yp st) = (N + zb + zf - hop)%nat) by (rewrite Hy; apply zeros_length).
  destruct (chain_spec N hop zf zb wa ws Hh H2 Hwa Hws blocks last st (zeros (N - hop)) Hc Hs Hm) as (st' & out & yp & E1 & E2); auto.
  - now rewrite Hf.
  - rewrite Hb. apply holds_fresh. lia.
  - rewrite HH. exact I.
  - exists st, st', out. split; auto. split; auto. fold x in E2. rewrite HH in E2. cbn [filt] in E2. rewrite map_id in E2.
    rewrite (synth_frames_spec N hop zf zb wa ws st) in E2; auto using spectra_bins. inversion E2. rewrite length_map_seq, spectra_length. split; auto. intros t Ht. rewrite nth_map_seq by auto.
    rewrite Hy, nth_zeros, Rplus_0_r. now apply ola_spectra.
Qed.
Print Assumptions C37_streaming_reconstruction.
Theorem C37_batch_reconstruction : forall N hop zf zb wa ws x,
  (0 < hop <= N)%nat -> (2 <= N + zb + zf)%nat -> fits N wa -> fits N ws -> partition N hop wa ws ->
  let F := batch_frames N hop (length x) in
  exists st st1 Xs st2 out, stft_setup N hop wa ws false None zb zf = Some st /\ analysis st x = Some (st1, Xs) /\ synthesis st1 None = Some (st2, Some out) /\
    length out = (F * hop)%nat /\ forall t, (N - hop + zf <= t < F * hop)%nat -> nth t out 0 = nth (t - zf) x 0.
Proof.
  intros N hop zf zb wa ws x Hh H2 Hwa Hws HP F.
  destruct (setup_spec N hop wa ws false None zb zf (proj2 Hh)) as (st & E & Hc & Hs & Hf & HH & Hb & Hy & HF).
  pose proof (batch_spec N hop zf zb wa ws st x Hh H2 Hwa Hc Hs Hf) as EA. cbv zeta in EA. fold F in EA.
  set (Xs := spectra N hop zf zb wa x F) in *. set (st1 := with_analysis _ _ _ _ _) in EA.
  assert (HF0 : (0 < F)%nat) by (unfold F, batch_frames; destruct (length x <? N)%nat; lia).
  pose proof (synth_frames_spec N hop zf zb wa ws st1 Hh H2 Hws Hc Xs (s_yp st1)) as ES. cbv zeta in ES.
  assert (HXl : length Xs = F) by apply spectra_length. rewrite HXl in ES.
  exists st, st1, Xs. unfold synthesis. cbn [bind]. change (s_F st1) with F. destruct F as [|F'] eqn:EF; [lia|]. change (s_X st1) with (Some Xs). cbn [bind]. rewrite ES.
  - cbn [bind]. do 2 eexists. split; [auto|]. split; [auto|]. split; [reflexivity|]. rewrite length_map_seq. split; auto. intros t Ht. rewrite nth_map_seq by lia.
    replace (nth t (s_yp st1) 0) with 0 by (cbn; now rewrite nth_zeros). rewrite Rplus_0_r. unfold Xs. apply ola_spectra_from; auto.
  - cbn. rewrite zeros_length, Hy, zeros_length. reflexivity.
  - apply spectra_bins.
Qed.
Print Assumptions C37_batch_reconstruction.
Example C37_case : partition 4 2 (Some [1/2; 1; 1/2; 0]) None /\ partition 3 2 (Some [1; 2; 3]) (Some [1/4; 1/2; 1/4]).
Proof.
  split; intros i Hi; destruct i as [|[|i]]; try lia; cbn; lra.
Qed.

(** ** C38: the synthesis window made for an analysis window *)
Theorem C38_synthesis_window : forall wa hop ws, (0 < hop <= length wa)%nat -> compute_synthesis_window wa hop = Some ws ->
  length ws = length wa /\ partition (length wa) hop (Some wa) (Some ws).
Proof. intros wa hop ws Hh H. split; [|now apply window_partition]. destruct (window_spec wa hop ws) as [Hl _]; auto; lia. Qed.
Print Assumptions C38_synthesis_window.
(** It exists unless the window vanishes on all samples of one residue class. *)
Theorem C38_defined : forall wa hop, (0 < hop <= length wa)%nat ->
  (exists ws, compute_synthesis_window wa hop = Some ws) <-> (forall r, (r < hop)%nat -> exists k, (r + k * hop < length wa)%nat /\ nth (r + k * hop) wa 0 <> 0).
Proof.
  intros wa hop Hh. split.
  - intros [ws H] r Hr. destruct (C38_synthesis_window wa hop ws Hh H) as [_ HP]. specialize (HP r Hr).
    destruct (nonzero_or_all_zero wa hop r ltac:(lia)) as [G|G]; auto. exfalso. rewrite bsum_zero_ext in HP; [lra|]. intros k Hk. destruct (Nat.ltb_spec (r + k * hop) (length wa)) as [L|L]; auto. cbn [win].
    rewrite (G k L). ring.
  - intros H. apply window_defined; try lia. intros i Hi E.
    pose proof (Nat.mod_upper_bound i hop ltac:(lia)) as Hr. destruct (H _ Hr) as (k & Hk & Hne). set (r := (i mod hop)%nat) in *.
    unfold class_sum in E. fold r in E. cbv zeta in E.
    assert (HkL : (k < length wa)%nat). { destruct (Nat.lt_ge_cases k (length wa)); auto. assert (k * 1 <= k * hop)%nat by (apply Nat.mul_le_mono_l; lia). lia. }
    assert (G : forall n, (k < n)%nat -> 0 < bsum n (fun k => nth (r + k * hop) wa 0 * nth (r + k * hop) wa 0)).
    { intros n Hn. replace n with (k + (1 + (n - k - 1)))%nat by lia. rewrite !bsum_split. cbn [bsum]. replace (k + 0)%nat with k by lia.
      pose proof (bsum_nonneg k (fun k => nth (r + k * hop) wa 0 * nth (r + k * hop) wa 0)) as P1.
      pose proof (bsum_nonneg (n - k - 1) (fun j => nth (r + (k + (1 + j)) * hop) wa 0 * nth (r + (k + (1 + j)) * hop) wa 0)) as P2.
      assert (0 < nth (r + k * hop) wa 0 * nth (r + k * hop) wa 0) by (apply Rsqr_pos_lt; auto).
      specialize (P1 ltac:(intros; apply Rle_0_sqr)). specialize (P2 ltac:(intros; apply Rle_0_sqr)). lra. }
    specialize (G _ HkL). lra.
Qed.
Print Assumptions C38_defined.
(** Analysis and synthesis with the pair of windows reconstruct. *)
Theorem C38_reconstruction : forall wa hop ws blocks last, (0 < hop <= length wa)%nat -> (2 <= length wa)%nat -> compute_synthesis_window wa hop = Some ws -> multiples hop blocks ->
  let x := concat (blocks ++ [last]) in
  exists st st' out, stft_setup (length wa) hop (Some wa) (Some ws) true None 0 0 = Some st /\ chain st (blocks ++ [last]) = Some (st', out) /\
    forall t, (t < length out)%nat -> nth t out 0 = nth t (delayed (length wa - hop) x) 0.
Proof.
  intros wa hop ws blocks last Hh H2 H Hm x. destruct (C38_synthesis_window wa hop ws Hh H) as [Hl HP].
  destruct (C37_streaming_reconstruction (length wa) hop 0 0 (Some wa) (Some ws) None blocks last) as (st & st' & out & E1 & E2 & E3 & E4); auto; try lia.
  - reflexivity.
  - apply Forall_forall. intros; exact I.
  - exists st, st', out. split; auto. split; auto. intros t Ht. rewrite E4 by auto. now rewrite Nat.add_0_r.
Qed.
Print Assumptions C38_reconstruction.
Example C38_case : exists ws, compute_synthesis_window [1; 2; 3] 2 = Some ws /\ ws = [1 / 10; 1 / 2; 3 / 10].
Proof.
  destruct (proj2 (C38_defined [1; 2; 3] 2 ltac:(cbn; lia))) as [ws E].
  - intros [|[|r]] Hr; try lia; exists 0%nat; cbn; split; try lia; lra.
  - exists ws. split; auto. destruct (window_spec [1; 2; 3] 2 ws ltac:(lia) ltac:(cbn; lia) E) as [Hl Hs]. apply list_eq; [rewrite Hl; reflexivity|]. rewrite Hl. cbn [length]. intros i Hi.
    destruct (Hs i Hi) as [_ ->]. do 3 (destruct i as [|i]; [unfold class_sum; cbn; lra|]). lia.
Qed.

(** ** C39: padding.  [fronts] and [backs]: the paddings asked for by a sequence of calls. *)
Theorem C39_padding_once : forall N hop wa ws str fx st0 os st, length wa = N -> length ws = N -> stft_new N (Some hop) (Some wa) (Some ws) str fx = Some st0 ->
  apply_settings st0 os = Some st -> (length (fronts os) <= 1)%nat -> (length (backs os) <= 1)%nat ->
  exists wa' ws', s_wa st = Some wa' /\ s_ws st = Some ws' /\ length wa' = s_nfft st /\ length ws' = s_nfft st /\ s_nfft st = (N + list_sum (fronts os) + list_sum (backs os))%nat.
Proof.
  intros N hop wa ws str fx st0 os st Ha Hs E0 E Hf Hb.
  assert (W0 : W N wa ws st0 [] []).
  { unfold stft_new, make_buffers in E0. cbn [s_N s_hop] in E0. destruct (N <? hop)%nat; [discriminate|]. inversion E0; subst st0. exists wa, ws. cbn. repeat split; auto; lia. }
  destruct (settings_W _ _ _ _ _ _ _ _ E W0) as (wa' & ws' & E1 & E2 & L1 & L2 & C1 & C2 & C3 & C4). cbn [app] in *. exists wa', ws'. rewrite E1, E2, L1, L2, C4, C2, C3, Ha, Hs.
  assert (G : forall l, (length l <= 1)%nat -> last l 0%nat = list_sum l) by (intros [|a [|b l]] Hl; cbn in *; lia). rewrite !G by auto. repeat split; lia.
Qed.
Print Assumptions C39_padding_once.
(** In general the windows keep every padding ever asked for, the transform only the last ones. *)
Theorem C39_padding_accumulates : forall N hop wa ws str fx st0 os st, length wa = N -> length ws = N -> stft_new N (Some hop) (Some wa) (Some ws) str fx = Some st0 ->
  apply_settings st0 os = Some st ->
  exists wa', s_wa st = Some wa' /\ length wa' = (N + list_sum (fronts os) + list_sum (backs os))%nat /\ s_nfft st = (N + last (fronts os) 0 + last (backs os) 0)%nat.
Proof.
  intros N hop wa ws str fx st0 os st Ha Hs E0 E.
  assert (W0 : W N wa ws st0 [] []).
  { unfold stft_new, make_buffers in E0. cbn [s_N s_hop] in E0. destruct (N <? hop)%nat; [discriminate|]. inversion E0; subst st0. exists wa, ws. cbn. repeat split; auto; lia. }
  destruct (settings_W _ _ _ _ _ _ _ _ E W0) as (wa' & ws' & E1 & E2 & L1 & L2 & C1 & C2 & C3 & C4). cbn [app] in *. exists wa'. rewrite E1, L1, C4, C2, C3, Ha. repeat split; lia.
Qed.
Print Assumptions C39_padding_accumulates.
(** Asking for the same padding twice makes every analysis raise. *)
Theorem C39_padding_twice_refuted : exists st0 st, stft_new 2 (Some 1%nat) (Some [1; 1]) None true None = Some st0 /\ apply_settings st0 [Back 1; Back 1] = Some st /\ forall x, x <> [] -> analysis st x = None.
Proof.
  do 2 eexists. split; [cbn; reflexivity|]. split; [cbn; reflexivity|]. intros x Hx. destruct x as [|a x]; [congruence|]. unfold analysis. cbn [s_hop s_stream s_fixed Nat.eqb].
  replace ((length (a :: x) + 1 - 1) / 1)%nat with (S (length x)) by (rewrite Nat.div_1_r; cbn; lia). cbn [bind]. reflexivity.
Qed.
Print Assumptions C39_padding_twice_refuted.
(** Before any analysis there is nothing to reset. *)
Theorem C39_reset_refuted : exists st0, stft_new 4 (Some 2%nat) None None true None = Some st0 /\ reset st0 = None.
Proof. eexists. split; reflexivity. Qed.
Example C39_case : exists st0 st, stft_new 4 (Some 2%nat) (Some [1; 2; 3; 4]) (Some [1; 1; 1; 1]) true (Some 3%nat) = Some st0 /\ apply_settings st0 [Front 1; Reset; Filter (Time [1; 2; 3]) (Some 2%nat) None] = Some st /\ s_nfft st = 7%nat.
Proof. do 2 eexists. split; [cbn; reflexivity|]. split; [lazy -[rfft IZR]; reflexivity|]. reflexivity. Qed.

(** ** C40: the caller's data *)
Theorem C40_dft_without_window : forall n x x' X, dft_analysis n None x = Some (x', X) -> x' = x.
Proof. intros n x x' X H. unfold dft_analysis in H. destruct (n <? 2)%nat; [discriminate|]. destruct (negb _); [discriminate|]. cbn in H. congruence. Qed.
Print Assumptions C40_dft_without_window.
(** With a window the caller's array is windowed in place. *)
Theorem C40_dft_with_window : forall n w x, (2 <= n)%nat -> length w = n -> length x = n ->
  exists x', dft_analysis n (Some w) x = Some (x', rfft n x') /\ length x' = n /\ forall i, nth i x' 0 = nth i w 0 * nth i x 0.
Proof.
  intros n w x H2 Hw Hx. unfold dft_analysis. destruct (Nat.ltb_spec n 2); [lia|]. rewrite Hx, Nat.eqb_refl. cbn [negb].
  rewrite times_window_fits by (cbn; lia). cbn [bind]. eexists. split; [reflexivity|]. rewrite length_map_seq. split; auto. intros i. destruct (Nat.lt_ge_cases i n) as [L|L].
  - rewrite nth_map_seq by lia. reflexivity.
  - rewrite nth_overflow by (rewrite length_map_seq; lia). rewrite (nth_overflow x) by lia. ring.
Qed.
Print Assumptions C40_dft_with_window.
Theorem C40_dft_window_refuted : exists x x' X, dft_analysis 2 (Some [1; 0]) x = Some (x', X) /\ x' <> x.
Proof. exists [1; 1]. do 2 eexists. split; [reflexivity|]. intros H. apply (f_equal (fun l => nth 1 l 0)) in H. cbn in H. lra. Qed.
Print Assumptions C40_dft_window_refuted.
(** STFT.process with a number of frames fixed at construction leaves the spectrum it is given. *)
Theorem C40_process_fixed : forall st F X st' r X', s_fixed st = Some F -> process st (Some X) = Some (st', r, X') -> X' = Some X.
Proof.
  intros st F X st' r X' HF H. unfold process in H. destruct (s_H st) as [Hc|]; [|congruence]. destruct (check_input st X) as [st1|] eqn:E; [|discriminate]. cbn [bind] in H.
  assert (H1 : s_fixed st1 = Some F).
  { unfold check_input in E. match type of E with bind ?a _ = _ => destruct a as [[G Xs]|]; [|discriminate] end. cbn [bind] in E. rewrite HF in E. destruct (Nat.eqb G F); [|discriminate]. inversion E; subst. exact HF. }
  destruct (s_F st1); [congruence|]. destruct (s_X st1) as [Xs|]; [|discriminate]. cbn [bind] in H. destruct (mapM _ Xs) as [Ys|]; [|discriminate]. cbn [bind] in H. rewrite H1 in H. destruct X; congruence.
Qed.
Print Assumptions C40_process_fixed.
(** Otherwise the caller's spectrum is filtered in place. *)
Theorem C40_process_refuted : exists st X st' r X', process st (Some (One X)) = Some (st', r, Some (One X')) /\ X' <> X.
Proof.
  destruct (setup_spec 2 2 None None true None 0 0 ltac:(lia)) as (st & _ & Hc & _ & Hf & _). pose proof Hc as (_ & _ & _ & _ & C5 & _).
  exists (with_H st [C0; C0]), [C1; C1]. unfold process. cbn [with_H s_H]. unfold check_input. cbn [bind]. unfold nbin. cbn [with_H s_nfft s_fixed]. rewrite C5, Hf. cbn [Nat.add Nat.div Nat.divmod fst length Nat.eqb bind].
  cbn [with_analysis s_F s_X bind mapM multiply length Nat.eqb s_fixed with_H]. rewrite Hf. cbn [bind nth]. do 3 eexists. split; [reflexivity|]. cbn. intros H. apply (f_equal (fun l => fst (nth 0 l C0))) in H. cbn in H. lra.
Qed.
Print Assumptions C40_process_refuted.

(** ** C83: filtering in the STFT domain is convolution *)
Theorem C83_filtering : forall N hop zf zb wa h fx blocks last,
  (0 < hop <= N)%nat -> (2 <= N + zb + zf)%nat -> fits N wa -> partition N hop wa None -> (length h <= zb + 1)%nat -> multiples hop blocks -> Forall (accepts fx hop) (blocks ++ [last]) ->
  let x := concat (blocks ++ [last]) in
  exists st st1 st' out, stft_setup N hop wa None true fx zb zf = Some st /\ set_filter (Time h) None None st = Some st1 /\ chain st1 (blocks ++ [last]) = Some (st', out) /\
    length out = (ceil_div (length x) hop * hop)%nat /\ forall t, (t < length out)%nat -> nth t out 0 = convolution h (delayed (N - hop + zf) x) t.
Proof.
  intros N hop zf zb wa h fx blocks last Hh H2 Hwa HP Hlh Hm Ha x.
  destruct (setup_spec N hop wa None true fx zb zf (proj2 Hh)) as (st & E & Hc & Hs & Hf & HH & Hb & Hy & HF). pose proof Hc as (C1 & _ & _ & _ & C5 & _).
  assert (ESF : set_filter (Time h) None None st = Some (with_H st (rfft (N + zb + zf) h))).
  { unfold set_filter. cbn [bind]. rewrite C1, C5. destruct (Nat.ltb_spec (N + zb + zf + 1) (N + length h)); [lia|]. destruct (Nat.eqb_spec (N + zb + zf) 0); [lia|]. reflexivity. }
  set (st1 := with_H st (rfft (N + zb + zf) h)) in *.
  assert (Hl : length (s_yp st1) = (N + zb + zf - hop)%nat) by (cbn; rewrite Hy; apply zeros_length).
  destruct (chain_spec N hop zf zb wa None Hh H2 Hwa I blocks last st1 (zeros (N - hop)) Hc Hs Hm) as (st' & out & yp & E1 & E2); auto.
  - cbn. now rewrite Hf.
  - cbn. rewrite Hb. apply holds_fresh. lia.
  - cbn. apply rfft_length.
  - exists st, st1, st', out. split; auto. split; auto. split; auto. fold x in E2. change (s_H st1) with (Some (rfft (N + zb + zf) h)) in E2.
    rewrite (synth_frames_spec N hop zf zb wa None st1) in E2; auto.
    + inversion E2. rewrite length_map_seq, map_length, spectra_length. split; auto. intros t Ht. rewrite nth_map_seq by auto.
      cbn [st1 with_H s_yp]. rewrite Hy, nth_zeros, Rplus_0_r. cbn [padded option_map]. now apply ola_filtered.
    + exact I.
    + apply Forall_forall. intros Y HY. apply in_map_iff in HY. destruct HY as (X & <- & HX). pose proof (spectra_bins N hop zf zb wa (zeros (N - hop) ++ x) (ceil_div (length x) hop)) as G. rewrite Forall_forall in G.
      apply (filt_length _ (Some _)); [apply rfft_length|]. auto.
Qed.
Print Assumptions C83_filtering.
(** set_filter also counts the padding in front, but the end of the convolution then wraps to
    the front: the output starts before the input. *)
Theorem C83_front_padding_refuted : exists st st1 st' out, stft_setup 1 1 None None true None 0 1 = Some st /\ set_filter (Time [0; 1]) None None st = Some st1 /\
  chain st1 [[1; 0]] = Some (st', out) /\ nth 0 out 0 = 1 /\ convolution [0; 1] (delayed 1 [1; 0]) 0 = 0.
Proof.
  destruct (setup_spec 1 1 None None true None 0 1 ltac:(lia)) as (st & E & Hc & Hs & Hf & HH & Hb & Hy & HF). pose proof Hc as (C1 & _ & _ & _ & C5 & _).
  set (st1 := with_H st (rfft 2 [0; 1])).
  destruct (chain_spec 1 1 1 0 None None ltac:(lia) ltac:(lia) I I [] [1; 0] st1 [] Hc Hs) as (st' & out & yp & E1 & E2).
  - constructor.
  - cbn. rewrite Hf. repeat constructor.
  - cbn. rewrite Hb. apply (holds_fresh 1 1). lia.
  - cbn. now rewrite Hy.
  - cbn. reflexivity.
  - exists st, st1, st', out. split; auto. split.
    { unfold set_filter. cbn [bind]. rewrite C1, C5. reflexivity. }
    split; auto. split; [|unfold convolution; cbn; ring].
    rewrite (synth_frames_spec 1 1 1 0 None None st1 ltac:(lia) ltac:(lia) I Hc) in E2.
    + pose proof (f_equal (fun o => match o with Some (a, _) => nth 0 a 0 | None => 0 end) E2) as E3. cbv beta iota in E3. rewrite <- E3. rewrite nth_map_seq by (rewrite map_length, spectra_length; cbn; lia). cbn [st1 with_H s_yp]. rewrite Hy, nth_zeros, Rplus_0_r.
      unfold ola. cbn [concat app length]. change (ceil_div 2 1) with 2%nat. rewrite map_length, map_length, spectra_length. cbn [bsum Nat.mul Nat.leb]. rewrite map_map. rewrite !nth_spectra_frames by lia.
      cbn [Nat.sub]. change (s_H st1) with (Some (rfft 2 [0; 1])). change (1 + 0 + 1)%nat with 2%nat. rewrite nth_inverse by lia. cbn [padded option_map win filt].
      rewrite (irfft_product 2 (frame 1 1 0 None [1; 0] (0 * 1)) [0; 1]) by (try lia; intros k Hk; rewrite (nth_map2 Cmul _ _ _ C0 C0); rewrite ?rfft_length; auto; lia).
      cbn. ring.
    + cbn. now rewrite Hy.
    + apply Forall_forall. intros Y HY. apply in_map_iff in HY. destruct HY as (X & <- & HX). pose proof (spectra_bins 1 1 1 0 None ([] ++ concat ([] ++ [[1; 0]])) (ceil_div (length (concat ([] ++ [[1; 0]]))) 1)) as G. rewrite Forall_forall in G.
      apply filt_length; [cbn; reflexivity|]. auto.
Qed.
Print Assumptions C83_front_padding_refuted.
Example C83_case : fits 4 (Some [1/2; 1; 1/2; 0]) /\ partition 4 2 (Some [1/2; 1; 1/2; 0]) None /\ le (length [1; -1; 2]) 4 /\ Forall (accepts (Some 2%nat) 2) ([[1; 2; 3; 4]] ++ [[5; 6; 7; 8]]).
Proof. split; [reflexivity|]. split; [apply C37_case|]. split; [cbn; lia|]. repeat constructor; lia. Qed.
