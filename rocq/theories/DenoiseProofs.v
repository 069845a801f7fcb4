From Coq Require Import List ZArith Lia Reals Lra Bool.
From Verif Require Import Base Vec Sum Cpx DftModel StftModel StftSpec StftProofs WindowModel UtilModel DenoiseModel DenoiseSpec BaseProofs.
Import ListNotations.
Local Open Scope R_scope.

(** ** The loop of the one-shot functions *)
Section Loop.
Context {St : Type}.
Variable proc : St -> vec -> list C -> option (St * list C).
Variables N hop : nat.
Variable w : vec.
Hypothesis HN : (0 < hop <= N)%nat.
Hypothesis H2 : (2 <= N)%nat.
Hypothesis Hw : length w = N.

(** The buffer left by the analysis of the frame [u]. *)
Definition left_buffer (u : vec) : vec := skipn hop u ++ skipn (N - hop) (frame N 0 0 (Some w) u 0).
Lemma stream_frame_exact : forall ws st s buf fresh, cfg N hop 0 0 (Some w) ws st -> holds N hop 0 0 s buf -> length fresh = hop ->
  stream_frame st buf fresh = Some (left_buffer (s ++ fresh), rfft N (frame N 0 0 (Some w) (s ++ fresh) 0)).
Proof.
  intros ws st s buf fresh (C1 & C2 & C3 & C4 & C5 & C6 & C7) (junk & Hj & Hs & ->) Hf.
  unfold stream_frame. rewrite C1, C2, C3, C5, C6. cbv zeta. cbn [repeat app]. rewrite app_nil_r.
  assert (E1 : put (0 + (N - hop)) fresh (s ++ junk) = s ++ fresh). { pose proof (put_mid (N - hop) fresh junk s []) as P. rewrite !app_nil_r in P. apply P; lia. }
  rewrite E1. set (u := s ++ fresh) in *. assert (Hu : length u = N) by (unfold u; rewrite app_length; lia).
  pose proof (dft_analysis_frame N 0 0 (Some w) u ltac:(lia) Hw Hu) as D. cbn [repeat app] in D. rewrite app_nil_r in D. rewrite D. cbn [bind]. f_equal. f_equal.
  - assert (E2 : seg (0 + hop) (N - hop) u = skipn hop u). { unfold seg. cbn [Nat.add]. apply firstn_all2. rewrite skipn_length. lia. }
    rewrite E2. unfold left_buffer, put. cbn [firstn app]. f_equal. f_equal. rewrite skipn_length. lia.
  - now replace (N + 0 + 0)%nat with N by lia.
Qed.
Lemma left_holds : forall u, length u = N -> holds N hop 0 0 (skipn hop u) (left_buffer u).
Proof.
  intros u Hu. exists (skipn (N - hop) (frame N 0 0 (Some w) u 0)). rewrite !skipn_length, frame_length. split; [lia|]. split; [lia|]. cbn [repeat app]. now rewrite app_nil_r.
Qed.
Lemma analysis_exact : forall ws st s b, cfg N hop 0 0 (Some w) ws st -> s_stream st = true -> s_fixed st = None -> holds N hop 0 0 s (s_buf st) -> length b = hop ->
  let X := rfft N (frame N 0 0 (Some w) (s ++ b) 0) in
  analysis st b = Some (with_analysis st (left_buffer (s ++ b)) (s_yp st) 1 (Some [X]), [X]).
Proof.
  intros ws st s b Hc Hs Hf Hb Hl X. unfold analysis. pose proof Hc as (C1 & C2 & _). rewrite Hs, Hf, C2. cbv zeta. destruct (Nat.eqb_spec hop 0); [lia|]. rewrite Hl.
  assert (E : ((hop + hop - 1) / hop = 1)%nat) by (symmetry; apply (Nat.div_unique _ _ _ (hop - 1)); lia). rewrite E. replace (1 * hop - hop)%nat with 0%nat by lia. cbn [zeros repeat]. rewrite app_nil_r. cbn [bind stream_frames].
  rewrite C2, firstn_all2 by lia. rewrite (stream_frame_exact ws st s) by auto. cbn [bind]. reflexivity.
Qed.
(** What the processing sees. *)
Fixpoint inputs (s x : vec) (k : nat) : list (vec * list C) :=
  match k with
  | O => []
  | S k => let u := s ++ firstn hop x in (left_buffer u, rfft N (frame N 0 0 (Some w) u 0)) :: inputs (skipn hop u) (skipn hop x) k
  end.
Fixpoint process_all (s : St) (ins : list (vec * list C)) : option (list (list C)) :=
  match ins with
  | [] => Some []
  | (b, X) :: ins => let* r := proc s b X in let* Ys := process_all (fst r) ins in Some (snd r :: Ys)
  end.
Variable Inv : St -> Prop.
Hypothesis proc_length : forall s b X s' Y, Inv s -> proc s b X = Some (s', Y) -> length X = (N / 2 + 1)%nat -> length Y = (N / 2 + 1)%nat /\ Inv s'.
Lemma process_all_length : forall ins s Ys, Inv s -> process_all s ins = Some Ys -> Forall (fun i => length (snd i) = (N / 2 + 1)%nat) ins -> length Ys = length ins /\ Forall (fun Y => length Y = (N / 2 + 1)%nat) Ys.
Proof.
  induction ins as [|[b X] ins IH]; intros s Ys I0 H F; cbn [process_all] in H; [injection H as <-; split; constructor|].
  destruct (proc s b X) as [[s' Y]|] eqn:E; [|discriminate]. cbn [bind fst snd] in H. destruct (process_all s' ins) as [Zs|] eqn:E2; [|discriminate]. cbn [bind] in H. injection H as <-.
  inversion F as [|? ? F1 F2]; subst. destruct (proc_length _ _ _ _ _ I0 E F1) as [P1 P2]. destruct (IH _ _ P2 E2 F2) as [A B]. split; [cbn; lia|]. constructor; auto.
Qed.
Lemma inputs_bins : forall k s x, Forall (fun i => length (snd i) = (N / 2 + 1)%nat) (inputs s x k).
Proof. induction k as [|k IH]; intros s x; cbn [inputs]; constructor; [cbn [snd]; unfold rfft; now rewrite map_length, seq_length|apply IH]. Qed.
Lemma inputs_length : forall k s x, length (inputs s x k) = k.
Proof. induction k as [|k IH]; intros s x; cbn [inputs length]; [reflexivity|now rewrite IH]. Qed.
Lemma synthesis_one : forall st X, cfg N hop 0 0 (Some w) None st -> s_fixed st = None -> length (s_yp st) = (N - hop)%nat -> length X = (N / 2 + 1)%nat ->
  exists o y, synth_frames st [X] (s_yp st) = Some (o, y) /\ length o = hop /\ length y = (N - hop)%nat /\ exists st', synthesis st (Some (One X)) = Some (st', Some o) /\
    cfg N hop 0 0 (Some w) None st' /\ s_fixed st' = None /\ s_stream st' = s_stream st /\ s_buf st' = s_buf st /\ s_yp st' = y /\ (forall Ys v, synth_frames st' Ys v = synth_frames st Ys v).
Proof.
  intros st X Hc Hf Hy HX. pose proof Hc as (C1 & C2 & C3 & C4 & C5 & C6 & C7). assert (Hn : nbin st = (N / 2 + 1)%nat) by (unfold nbin; rewrite C5; do 2 f_equal; lia).
  assert (NN : (N + 0 + 0)%nat = N) by lia.
  pose proof (synth_frames_spec N hop 0 0 (Some w) None st HN ltac:(lia) I Hc [X] (s_yp st)) as E. cbv zeta in E. rewrite NN in E. specialize (E ltac:(lia)). specialize (E ltac:(constructor; [auto|constructor])).
  match type of E with _ = Some (?a, ?b) => set (o := a) in E; set (y := b) in E end.
  exists o, y. split; [exact E|]. split; [unfold o; rewrite length_map_seq; cbn; lia|]. split; [unfold y; now rewrite length_map_seq|].
  unfold synthesis, check_input. rewrite Hn, HX, Nat.eqb_refl. cbn [bind]. rewrite Hf. cbn [bind with_analysis s_F s_X s_yp]. rewrite synth_frames_with, E. cbn [bind].
  eexists. split; [reflexivity|]. split; [exact Hc|]. split; [exact Hf|]. split; [reflexivity|]. split; [reflexivity|]. split; [reflexivity|]. intros Ys v. now rewrite !synth_frames_with.
Qed.
Lemma blocks_spec : forall k st s sv x, Inv s -> cfg N hop 0 0 (Some w) None st -> s_stream st = true -> s_fixed st = None -> holds N hop 0 0 sv (s_buf st) -> length (s_yp st) = (N - hop)%nat -> (k * hop <= length x)%nat ->
  blocks proc hop k st s x = let* Ys := process_all s (inputs sv x k) in let* r := synth_frames st Ys (s_yp st) in Some (fst r ++ zeros (length x - k * hop)).
Proof.
  induction k as [|k IH]; intros st s sv x I0 Hc Hs Hf Hb Hy Hx; cbn [blocks inputs process_all].
  - cbn [bind synth_frames fst app]. f_equal. f_equal. lia.
  - assert (Hl : length (firstn hop x) = hop) by (rewrite firstn_length; lia). rewrite (analysis_exact None st sv) by auto. cbn [bind fst snd nth]. cbn [with_analysis s_buf].
    set (u := sv ++ firstn hop x). destruct (proc s (left_buffer u) _) as [[s' Y]|] eqn:E; [|reflexivity]. cbn [bind fst snd].
    destruct (proc_length _ _ _ _ _ I0 E) as [HY I1]; [unfold rfft; now rewrite map_length, seq_length|].
    set (st1 := with_analysis _ _ _ _ _). destruct (synthesis_one st1 Y Hc Hf Hy HY) as (o & y & E1 & Lo & Ly & st2 & E2 & Hc2 & Hf2 & Hs2 & Hb2 & Hy2 & Hv2). rewrite E2. cbn [bind fst snd].
    assert (Hu : length u = N). { unfold u. rewrite app_length. destruct Hb as (junk & _ & A & _). lia. }
    rewrite (IH st2 s' (skipn hop u)); auto.
    + destruct (process_all s' (inputs _ _ k)) as [Ys|]; [|reflexivity]. cbn [bind]. unfold st1 in E1. rewrite synth_frames_with in E1. cbn [with_analysis s_yp] in E1.
      rewrite (synth_frames_app st [Y] Ys (s_yp st) o y E1 : synth_frames st (Y :: Ys) _ = _). rewrite Hv2, Hy2. unfold st1. rewrite synth_frames_with.
      destruct (synth_frames st Ys y) as [[o' y']|]; [|reflexivity]. cbn [bind fst]. rewrite skipn_length, <- app_assoc. do 3 f_equal. f_equal. lia.
    + now rewrite Hs2.
    + rewrite Hb2. unfold st1. cbn [with_analysis s_buf]. now apply left_holds.
    + now rewrite Hy2.
    + rewrite skipn_length. lia.
Qed.
(** The frames in closed form. *)
Definition nth_frame_of (x : vec) (k : nat) : vec := map (fun i => nth (k * hop + i) (delayed (N - hop) x) 0) (seq 0 N).
Lemma inputs_spec_gen : forall k s x, length s = (N - hop)%nat -> (k * hop <= length x)%nat ->
  inputs s x k = map (fun j => let u := map (fun i => nth (j * hop + i) (s ++ x) 0) (seq 0 N) in (left_buffer u, rfft N (frame N 0 0 (Some w) u 0))) (seq 0 k).
Proof.
  induction k as [|k IH]; intros s x Hs Hx; cbn [inputs seq map]; [reflexivity|]. cbv zeta.
  assert (E0 : s ++ firstn hop x = map (fun i => nth (0 * hop + i) (s ++ x) 0) (seq 0 N)).
  { apply list_eq; [rewrite length_map_seq, app_length, firstn_length; lia|]. intros i Hi. rewrite app_length, firstn_length in Hi. rewrite nth_map_seq by lia. cbn [Nat.mul Nat.add].
    destruct (Nat.lt_ge_cases i (length s)); [now rewrite !app_nth1|]. rewrite !app_nth2 by auto. rewrite nth_firstn; [reflexivity|lia]. }
  rewrite E0. f_equal. rewrite IH; [|rewrite skipn_length, length_map_seq; lia|rewrite skipn_length; lia]. rewrite <- seq_shift, map_map. apply map_ext_in. intros j Hj. apply in_seq in Hj. cbv zeta.
  assert (E : map (fun i => nth (j * hop + i) (skipn hop (map (fun i => nth (0 * hop + i) (s ++ x) 0) (seq 0 N)) ++ skipn hop x) 0) (seq 0 N) = map (fun i => nth (S j * hop + i) (s ++ x) 0) (seq 0 N)).
  { apply map_ext_in. intros i Hi. apply in_seq in Hi. rewrite <- E0. replace (skipn hop (s ++ firstn hop x) ++ skipn hop x) with (skipn hop (s ++ x)).
    - rewrite nth_skipn. f_equal. lia.
    - rewrite <- (firstn_skipn hop x) at 1. rewrite app_assoc. rewrite skipn_app. f_equal. rewrite app_length, firstn_length. replace (hop - (length s + Nat.min hop (length x)))%nat with 0%nat by lia. reflexivity. }
  now rewrite E.
Qed.
Lemma inputs_spec : forall k x, (k * hop <= length x)%nat -> inputs (zeros (N - hop)) x k = map (fun j => (left_buffer (nth_frame_of x j), stream_spectrum N hop w x j)) (seq 0 k).
Proof.
  intros k x Hx. rewrite inputs_spec_gen by (rewrite ?zeros_length; lia). apply map_ext_in. intros j Hj. cbv zeta. fold (delayed (N - hop) x). unfold stream_spectrum. f_equal. f_equal.
  apply frame_ext. intros i Hi. cbn [Nat.add]. now rewrite nth_map_seq.
Qed.
End Loop.

Lemma hann_full : forall N, exists w, hann N asymmetric wfull = Some w /\ length w = N.
Proof. intros N. unfold hann, window. cbn [normalise bind]. eexists. split; [reflexivity|]. cbn [positions]. now rewrite !map_length, seq_length. Qed.
(** The one-shot functions: the frames processed one after the other, then overlap-add. *)
Lemma one_shot_spec : forall {St} (proc : St -> vec -> list C -> option (St * list C)) (Inv : St -> Prop) N s x w, (2 <= N)%nat ->
  (forall s b X s' Y, Inv s -> proc s b X = Some (s', Y) -> length X = (N / 2 + 1)%nat -> length Y = (N / 2 + 1)%nat /\ Inv s') -> Inv s -> hann N asymmetric wfull = Some w ->
  let hop := (N / 2)%nat in
  one_shot proc N s x = let* Ys := process_all proc s (map (fun j => (left_buffer N hop w (nth_frame_of N hop x j), stream_spectrum N hop w x j)) (seq 0 (length x / hop))) in Some (resynthesis N hop (length x) Ys).
Proof.
  intros St proc Inv N s x w H2 Hp I0 Ew hop. destruct (hann_full N) as (w' & Ew' & Hw). rewrite Ew in Ew'. injection Ew' as <-. assert (Hh : (0 < hop <= N)%nat). { unfold hop. split; [apply Nat.div_str_pos; lia|apply Nat.div_le_upper_bound; lia]. }
  unfold one_shot. fold hop. rewrite Ew. cbn [bind].
  destruct (setup_spec N hop (Some w) None true None 0 0 (proj2 Hh)) as (st & E & Hc & Hs & Hf & HH & Hb & Hy & HF). unfold stft_setup in E. destruct (stft_new N (Some hop) (Some w) None true None) as [st'|] eqn:E1; [|discriminate]. cbn [bind Nat.ltb Nat.leb] in E. injection E as ->. cbn [bind].
  destruct (Nat.eqb_spec hop 0); [lia|]. assert (NN : (N + 0 + 0)%nat = N) by lia. rewrite NN in Hb, Hy.
  set (k := (length x / hop)%nat). assert (Hk : (k * hop <= length x)%nat) by (unfold k; rewrite Nat.mul_comm; apply Nat.mul_div_le; lia).
  rewrite (blocks_spec proc N hop w Hh H2 Hw Inv Hp k st s (zeros (N - hop)) x); auto.
  - rewrite (inputs_spec N hop w) by auto. destruct (process_all _ _ _) as [Ys|] eqn:Ep; [|reflexivity]. cbn [bind].
    destruct (process_all_length proc N hop w Hh H2 Hw Inv Hp _ _ _ I0 Ep) as [L1 L2].
    { apply Forall_forall. intros i Hi. apply in_map_iff in Hi. destruct Hi as (j & <- & _). cbn [snd]. unfold stream_spectrum, rfft. apply length_map_seq. }
    rewrite map_length, seq_length in L1.
    pose proof (synth_frames_spec N hop 0 0 (Some w) None st Hh ltac:(lia) I Hc Ys (s_yp st)) as E. cbv zeta in E. rewrite NN in E. rewrite E; [|rewrite Hy; apply zeros_length|auto]. cbn [bind fst padded option_map]. f_equal.
    unfold resynthesis. rewrite L1. apply list_eq; [rewrite app_length, !length_map_seq, zeros_length; lia|]. intros i Hi. rewrite app_length, length_map_seq, zeros_length in Hi.
    destruct (Nat.lt_ge_cases i (k * hop)) as [Hi2|Hi2].
    + rewrite app_nth1 by (rewrite length_map_seq; lia). rewrite !nth_map_seq by lia. destruct (Nat.ltb_spec i (k * hop)); [|lia]. rewrite Hy, nth_zeros. lra.
    + rewrite app_nth2 by (rewrite length_map_seq; lia). rewrite nth_zeros, nth_map_seq by lia. destruct (Nat.ltb_spec i (k * hop)); [lia|reflexivity].
  - rewrite Hb. pose proof (holds_fresh N hop 0 0 (proj2 Hh)) as P. now rewrite NN in P.
  - rewrite Hy. apply zeros_length.
Qed.

(** ** Spectral subtraction *)
Lemma fold_min : forall l a, (fold_left Rmin l a <= a /\ forall v, In v l -> fold_left Rmin l a <= v) /\ (fold_left Rmin l a = a \/ In (fold_left Rmin l a) l).
Proof.
  induction l as [|b l IH]; intros a; cbn [fold_left]; [split; [split; [lra|intros v []]|now left]|]. destruct (IH (Rmin a b)) as ((A & B) & D). pose proof (Rmin_l a b). pose proof (Rmin_r a b). split.
  - split; [lra|]. intros v [<-|Hv]; [lra|now apply B].
  - destruct D as [D|D]; [|right; now right]. rewrite D. unfold Rmin. destruct (Rle_dec a b); [now left|right; now left].
Qed.
Lemma row_min_spec : forall l, l <> [] -> (forall v, In v l -> row_min l <= v) /\ In (row_min l) l.
Proof.
  intros [|a l] H; [congruence|]. unfold row_min. cbn [hd tl]. destruct (fold_min l a) as ((A & B) & D). split; [intros v [<-|Hv]; auto|]. destruct D as [D|D]; [left; auto|now right].
Qed.
Definition recent (L : nat) (h : list R) : list R := skipn (length h) (repeat 0 L ++ h).
Lemma recent_length : forall L h, length (recent L h) = L.
Proof. intros. unfold recent. rewrite skipn_length, app_length, repeat_length. lia. Qed.
Lemma recent_nth : forall L P T i, (i < L)%nat -> nth i (recent L (map P (seq 0 T))) 0 = if (T + i <? L)%nat then 0 else P (T + i - L)%nat.
Proof.
  intros L P T i Hi. unfold recent. rewrite nth_skipn, length_map_seq. destruct (Nat.ltb_spec (T + i) L); [rewrite app_nth1 by (rewrite repeat_length; lia); apply nth_zeros|].
  rewrite app_nth2 by (rewrite repeat_length; lia). rewrite repeat_length. now rewrite nth_map_seq by lia.
Qed.
Lemma tl_skipn_snoc : forall n (l : list R) p, (n < length l)%nat -> tl (skipn n l ++ [p]) = skipn (S n) (l ++ [p]).
Proof. induction n as [|n IH]; intros l p Hl; (destruct l as [|a l]; [cbn in Hl; lia|]); [reflexivity|]. cbn [skipn app]. rewrite IH by (cbn in Hl; lia). reflexivity. Qed.
Lemma recent_snoc : forall L h p, tl (recent L h ++ [p]) = recent L (h ++ [p]) \/ L = 0%nat.
Proof.
  intros [|L] h p; [now right|left]. unfold recent. rewrite app_length. cbn [length]. rewrite Nat.add_1_r, app_assoc. apply tl_skipn_snoc. rewrite app_length, repeat_length. lia.
Qed.
Lemma noise_floor_spec : forall L P T, (forall u, 0 <= P u) -> noise_floor L P T (row_min (recent L (map P (seq 0 T)) ++ [P T])).
Proof.
  intros L P T Pos. set (l := recent L (map P (seq 0 T)) ++ [P T]). assert (Ll : length l = (L + 1)%nat) by (unfold l; rewrite app_length, recent_length; reflexivity).
  assert (Nl : forall i, (i <= L)%nat -> nth i l 0 = if (T + i <? L)%nat then 0 else P (T + i - L)%nat).
  { intros i Hi. unfold l. destruct (Nat.eq_dec i L) as [->|]; [|rewrite app_nth1 by (rewrite recent_length; lia); apply recent_nth; lia].
    rewrite app_nth2; rewrite recent_length; [|lia]. rewrite Nat.sub_diag. cbn [nth]. destruct (Nat.ltb_spec (T + L) L); [lia|]. f_equal. lia. }
  destruct (row_min_spec l) as [A B]; [destruct l; [cbn in Ll; lia|discriminate]|]. apply (In_nth _ _ 0) in B. destruct B as (j & Hj & Ej). split.
  - intros HT. assert (row_min l <= 0). { apply A. rewrite <- (Nl 0%nat ltac:(lia)) at 1 || idtac. assert (E : nth 0 l 0 = 0) by (rewrite Nl by lia; destruct (Nat.ltb_spec (T + 0) L); [reflexivity|lia]). rewrite <- E. apply nth_In. lia. }
    rewrite Nl in Ej by lia. destruct (T + j <? L)%nat; [lra|]. specialize (Pos (T + j - L)%nat). lra.
  - intros HT. split.
    + intros i Hi. apply A. assert (E : nth (L - i) l 0 = P (T - i)%nat) by (rewrite Nl by lia; destruct (Nat.ltb_spec (T + (L - i)) L); [lia|f_equal; lia]). rewrite <- E. apply nth_In. lia.
    + exists (L - j)%nat. split; [lia|]. rewrite <- Ej, Nl by lia. destruct (Nat.ltb_spec (T + j) L); [lia|]. f_equal. lia.
Qed.
Lemma conj_abs2 : forall x, fst (Conj x * x)%C = Cabs2 x.
Proof. intros x. unfold Cabs2. cbn. ring. Qed.
Lemma nth_map2_list : forall {A B D} (f : A -> B -> D) l m i da db dc, length l = length m -> (i < length l)%nat -> nth i (map2 f l m) dc = f (nth i l da) (nth i m db).
Proof. intros. now apply nth_map2. Qed.
Definition bin_power (Xs : list (list C)) (k u : nat) : R := Cabs2 (nth k (nth u Xs []) C0).
Definition rows_ok (L bins : nat) (all : list (list C)) (T : nat) (s : ssub) : Prop :=
  ss_bins s = bins /\ length (ss_prev s) = bins /\ forall k, (k < bins)%nat -> length (nth k (ss_prev s) []) = (L + 1)%nat /\ firstn L (nth k (ss_prev s) []) = recent L (map (bin_power all k) (seq 0 T)).
Lemma gain_step : forall L bins all T s X, rows_ok L bins all T s -> length X = bins -> X = nth T all [] ->
  exists s' g, compute_gain_filter s X = Some (s', g) /\ rows_ok L bins all (S T) s' /\ ss_beta s' = ss_beta s /\ ss_alpha s' = ss_alpha s /\ ss_gmin s' = ss_gmin s /\ length g = bins /\
    forall k, (k < bins)%nat -> nth k g None = bin_gain s (bin_power all k T) (row_min (recent L (map (bin_power all k) (seq 0 T)) ++ [bin_power all k T])).
Proof.
  intros L bins all T s X (HB & HL & HR) HX EX. unfold compute_gain_filter. rewrite HX, HB, Nat.eqb_refl. cbn [bind].
  set (p := map (fun x => fst (Conj x * x)%C) X). set (rows := map2 (fun row p => removelast row ++ [p]) (ss_prev s) p).
  assert (Lp : length p = bins) by (unfold p; now rewrite map_length). assert (Lr : length rows = bins) by (unfold rows; rewrite map2_length; lia).
  assert (Np : forall k, (k < bins)%nat -> nth k p 0 = bin_power all k T).
  { intros k Hk. unfold p. rewrite (nth_indep _ 0 (fst (Conj C0 * C0)%C)) by (rewrite map_length; lia). rewrite (map_nth (fun x => fst (Conj x * x)%C)), conj_abs2. unfold bin_power. now rewrite EX. }
  assert (Nr : forall k, (k < bins)%nat -> nth k rows [] = recent L (map (bin_power all k) (seq 0 T)) ++ [bin_power all k T]).
  { intros k Hk. unfold rows. rewrite (nth_map2_list _ _ _ _ [] 0) by lia. rewrite Np by auto. destruct (HR k Hk) as [A B]. f_equal. rewrite <- B. rewrite removelast_firstn_len, A. f_equal. lia. }
  eexists. eexists. split; [reflexivity|]. cbn [ss_bins ss_prev ss_beta ss_alpha ss_gmin]. split; [|split; [reflexivity|split; [reflexivity|split; [reflexivity|split]]]].
  - split; [reflexivity|]. cbn [ss_prev]. split; [now rewrite map_length|]. intros k Hk. rewrite (nth_indep _ [] (tl [] ++ firstn 1 [])) by (rewrite map_length; lia). rewrite (map_nth (fun row => tl row ++ firstn 1 row)). rewrite Nr by auto.
    set (l := recent L _ ++ _). assert (Ll : length l = (L + 1)%nat) by (unfold l; rewrite app_length, recent_length; reflexivity). split.
    + destruct l as [|a l]; [cbn in Ll; lia|]. cbn [tl firstn]. rewrite app_length. cbn in *. lia.
    + assert (E : tl l = recent L (map (bin_power all k) (seq 0 (S T)))).
      { unfold l. rewrite seq_S, map_app. cbn [map Nat.add]. destruct (recent_snoc L (map (bin_power all k) (seq 0 T)) (bin_power all k T)) as [E|E]; [exact E|]. subst L. 
        unfold recent at 1. cbn [repeat app]. rewrite skipn_all. cbn. unfold recent. cbn [repeat app]. now rewrite skipn_all. }
      rewrite E. rewrite firstn_app, recent_length, Nat.sub_diag, firstn_O, app_nil_r. apply firstn_all2. now rewrite recent_length.
  - rewrite map2_length; rewrite ?map_length; lia.
  - intros k Hk. rewrite (nth_map2_list _ _ _ _ 0 0) by (rewrite ?map_length; lia). rewrite Np by auto. f_equal. rewrite (nth_indep _ 0 (row_min [])) by (rewrite map_length; lia). rewrite (map_nth row_min). now rewrite Nr.
Qed.
Lemma gain_filters_spec : forall L bins all Xs T s, rows_ok L bins all T s -> Forall (fun X => length X = bins) Xs -> (forall t, (t < length Xs)%nat -> nth t Xs [] = nth (T + t) all []) ->
  exists gs, gain_filters s Xs = Some gs /\ length gs = length Xs /\ forall t, (t < length Xs)%nat -> length (nth t gs []) = bins /\
    forall k, (k < bins)%nat -> nth k (nth t gs []) None = bin_gain s (bin_power all k (T + t)) (row_min (recent L (map (bin_power all k) (seq 0 (T + t))) ++ [bin_power all k (T + t)])).
Proof.
  intros L bins all. induction Xs as [|X Xs IH]; intros T s HR HF HA; cbn [gain_filters]; [exists []; repeat split; auto; cbn in *; lia|].
  inversion HF as [|? ? F1 F2]; subst. destruct (gain_step L (length X) all T s X HR eq_refl) as (s' & g & E & R' & B1 & B2 & B3 & Lg & Ng); [specialize (HA 0%nat ltac:(cbn; lia)); cbn in HA; rewrite Nat.add_0_r in HA; exact HA|].
  rewrite E. cbn [bind fst snd]. destruct (IH (S T) s' R' F2) as (gs & E2 & Lgs & Ngs); [intros t Ht; specialize (HA (S t) ltac:(cbn; lia)); cbn in HA; rewrite HA; f_equal; lia|]. rewrite E2. cbn [bind].
  exists (g :: gs). split; [reflexivity|]. split; [cbn; lia|]. intros [|t] Ht; cbn [nth length] in *.
  - rewrite Nat.add_0_r. auto.
  - replace (T + S t)%nat with (S T + t)%nat by lia. destruct (Ngs t ltac:(lia)) as [A B]. split; [auto|]. intros k Hk. rewrite (B k Hk). unfold bin_gain. now rewrite B1, B2, B3.
Qed.
Lemma new_rows_ok : forall nfft db L beta alpha all, rows_ok L (nfft / 2 + 1) all 0 (ssub_new nfft db L beta alpha).
Proof.
  intros. split; [reflexivity|]. split; [apply repeat_length|]. intros k Hk. cbn [ssub_new ss_prev]. rewrite (nth_indep _ [] (repeat 0 (L + 1))) by (rewrite repeat_length; lia). rewrite nth_repeat. split; [apply repeat_length|].
  cbn [seq map]. unfold recent. cbn [length skipn]. rewrite app_nil_r. rewrite repeat_app, firstn_app, repeat_length, Nat.sub_diag, firstn_O, app_nil_r. apply firstn_all2. now rewrite repeat_length.
Qed.
Lemma bin_gain_formula : forall s p n, 0 < p -> 0 < ss_alpha s -> bin_gain s p n = Some (documented_gain (ss_alpha s) (ss_beta s) (ss_gmin s) p n).
Proof.
  intros s p n Hp Ha. unfold bin_gain, rdiv, float_pow. destruct (Req_EM_T p 0); [lra|]. destruct (Req_EM_T (ss_alpha s) 0); [lra|]. cbn [bind]. unfold documented_gain, power.
  assert (E : Rmax (p - ss_beta s * n) 0 / p = Rmax ((p - ss_beta s * n) / p) 0). { unfold Rmax. destruct (Rle_dec (p - ss_beta s * n) 0) as [A|A], (Rle_dec ((p - ss_beta s * n) / p) 0) as [B|B]; auto.
    - unfold Rdiv. ring.
    - exfalso. apply B. apply Rmult_le_reg_r with p; auto. unfold Rdiv. rewrite Rmult_assoc, Rinv_l by lra. lra.
    - exfalso. apply A. apply Rmult_le_compat_r with (r := p) in B; [|lra]. unfold Rdiv in B. rewrite Rmult_assoc, Rinv_l in B by lra. lra. }
  rewrite E. destruct (Req_EM_T _ 0); [destruct (Rlt_dec _ 0); [lra|reflexivity]|reflexivity].
Qed.

Definition ssub_inv (s : ssub) : Prop := length (ss_prev s) = ss_bins s.
Lemma gain_lengths : forall s X s' g, ssub_inv s -> compute_gain_filter s X = Some (s', g) -> length X <> 1%nat -> length g = length X /\ length X = ss_bins s /\ ssub_inv s'.
Proof.
  intros s X s' g I0 H HX. unfold compute_gain_filter in H. destruct (Nat.eqb_spec (length X) (ss_bins s)) as [E|E]; [|destruct (Nat.eqb_spec (length X) 1); [lia|discriminate]]. cbn [bind] in H. injection H as <- <-.
  unfold ssub_inv in *. assert (L : forall (f : C -> R), length (map2 (fun (row : list R) (p : R) => removelast row ++ [p]) (ss_prev s) (map f X)) = ss_bins s) by (intros f; rewrite map2_length; rewrite ?map_length; lia).
  split; [|split; [exact E|cbn [ss_prev ss_bins]; rewrite map_length; apply L]]. rewrite map2_length; rewrite !map_length; [reflexivity|]. rewrite L. exact E.
Qed.
Lemma mapM_id_Some : forall {A} (l : list (option A)) r, mapM (fun g => g) l = Some r -> l = map Some r.
Proof.
  intros A. induction l as [|a l IH]; intros r H; cbn [mapM] in H; [injection H as <-; reflexivity|]. destruct a as [a|]; [|discriminate]. cbn [bind] in H. destruct (mapM _ l) as [r'|] eqn:E; [|discriminate]. cbn [bind] in H. injection H as <-. cbn. f_equal. now apply IH.
Qed.
Lemma ssub_proc_ok : forall N s b X s' Y, (2 <= N)%nat -> ssub_inv s -> ssub_proc s b X = Some (s', Y) -> length X = (N / 2 + 1)%nat -> length Y = (N / 2 + 1)%nat /\ ssub_inv s'.
Proof.
  intros N s b X s' Y HN I0 H HX. unfold ssub_proc in H. destruct (compute_gain_filter s X) as [[s1 g]|] eqn:E; [|discriminate]. cbn [bind fst snd] in H. destruct (mapM _ g) as [r|] eqn:Er; [|discriminate]. cbn [bind] in H. injection H as <- <-.
  assert (0 < N / 2)%nat by (apply Nat.div_str_pos; lia). destruct (gain_lengths _ _ _ _ I0 E) as (A & B & D); [lia|]. split; [|auto]. apply mapM_id_Some in Er. subst g. rewrite map_length in A. rewrite map2_length; lia.
Qed.
Lemma process_ssub : forall ins s, process_all ssub_proc s ins =
  let* gs := gain_filters s (map snd ins) in let* rs := mapM (mapM (fun g => g)) gs in Some (map2 (map2 Cscal) rs (map snd ins)).
Proof.
  induction ins as [|[b X] ins IH]; intros s; cbn [process_all map gain_filters snd]; [reflexivity|]. unfold ssub_proc at 1. destruct (compute_gain_filter s X) as [[s' g]|]; [|reflexivity]. cbn [bind fst snd].
  destruct (gain_filters s' (map snd ins)) as [gs|] eqn:E; destruct (mapM (fun g => g) g) as [r|] eqn:Er; cbn [bind fst snd mapM]; rewrite ?Er; cbn [bind]; rewrite ?IH, ?E; cbn [bind]; auto.
  destruct (mapM (mapM (fun g => g)) gs) as [rs|]; reflexivity.
Qed.
Lemma hann_partition : forall h w, (1 <= h)%nat -> hann (2 * h) asymmetric wfull = Some w -> (forall n, (n < h)%nat -> nth n w 0 + nth (n + h) w 0 = 1) -> partition (2 * h) h (Some w) None.
Proof.
  intros h w Hh Ew Hs i Hi. replace (2 * h)%nat with (2 + (2 * h - 2))%nat at 1 by lia. rewrite bsum_split. rewrite (bsum_zero_ext (2 * h - 2)).
  - cbn [bsum]. destruct (Nat.ltb_spec (i + 0 * h) (2 * h)); [|lia]. destruct (Nat.ltb_spec (i + 1 * h) (2 * h)); [|lia]. cbn [win]. pose proof (Hs i Hi). replace (i + 0 * h)%nat with i by lia. replace (i + 1 * h)%nat with (i + h)%nat by lia. lra.
  - intros k Hk. destruct (Nat.ltb_spec (i + (2 + k) * h) (2 * h)); [nia|reflexivity].
Qed.
Lemma power_le1 : forall b a, 0 <= b <= 1 -> 0 < a -> 0 <= power b a <= 1.
Proof.
  intros b a Hb Ha. unfold power. destruct (Req_EM_T b 0); [lra|]. split; [left; apply exp_pos|]. unfold Rpower. rewrite <- exp_0. destruct (Req_dec b 1) as [->|]; [rewrite ln_1; right; f_equal; ring|]. left. apply exp_increasing.
  assert (ln b < 0) by (rewrite <- ln_1; apply ln_increasing; lra). nra.
Qed.
Lemma gain_ratio : forall beta p n, 0 < p -> 0 <= beta -> 0 <= n -> 0 <= Rmax ((p - beta * n) / p) 0 <= 1.
Proof.
  intros beta p n Hp Hb Hn. split; [apply Rmax_r|]. apply Rmax_lub; [|lra]. apply Rmult_le_reg_r with p; auto. unfold Rdiv. rewrite Rmult_assoc, Rinv_l by lra. nra.
Qed.
