From Coq Require Import List ZArith Lia Reals Lra Bool.
From Verif Require Import Base BaseProofs Vec Sum Cpx DftModel DftProofs StftModel StftSpec.
Import ListNotations.
Local Open Scope R_scope.

(** ** Lists *)
Lemma zeros_length : forall n, length (zeros n) = n.
Proof. intros. apply repeat_length. Qed.
Lemma nth_zeros : forall n i, nth i (zeros n) 0 = 0.
Proof. unfold zeros. induction n as [|n IH]; intros [|i]; cbn; auto. Qed.
Lemma skipn_skipn : forall {A} a b (l : list A), skipn a (skipn b l) = skipn (b + a) l.
Proof. intros A a b. induction b as [|b IH]; intros l; auto. destruct l as [|x l]; [now rewrite !skipn_nil|]. cbn. apply IH. Qed.
Lemma nth_skipn : forall {A} (d : A) a l i, nth i (skipn a l) d = nth (a + i) l d.
Proof. intros A d. induction a as [|a IH]; intros l i; auto. destruct l as [|x l]; [now destruct i|]. cbn. apply IH. Qed.
Lemma nth_firstn : forall {A} (d : A) a l i, (i < a)%nat -> nth i (firstn a l) d = nth i l d.
Proof. intros A d. induction a as [|a IH]; intros l i H; [lia|]. destruct l as [|x l]; auto. destruct i as [|i]; auto. cbn. apply IH. lia. Qed.
Lemma nth_map2 : forall {A B C} (f : A -> B -> C) l m i da db dc, length l = length m -> (i < length l)%nat ->
  nth i (map2 f l m) dc = f (nth i l da) (nth i m db).
Proof.
  intros A B C f l. induction l as [|a l IH]; intros m i da db dc H Hi; cbn in *; [lia|]. destruct m as [|b m]; cbn in *; [lia|].
  destruct i as [|i]; auto. apply IH; lia.
Qed.
Lemma map2_app : forall {A B C} (f : A -> B -> C) a b c d, length a = length c -> map2 f (a ++ b) (c ++ d) = map2 f a c ++ map2 f b d.
Proof. intros A B C f a. induction a as [|x a IH]; intros b c d H; destruct c as [|y c]; cbn in *; try lia; auto. f_equal. apply IH. lia. Qed.
Lemma list_eq : forall (a b : vec), length a = length b -> (forall i, (i < length a)%nat -> nth i a 0 = nth i b 0) -> a = b.
Proof. intros a b Hl H. apply nth_ext with (d := 0) (d' := 0); auto. Qed.
Lemma put_length : forall a v l, (a + length v <= length l)%nat -> length (put a v l) = length l.
Proof. intros. unfold put. rewrite !app_length, skipn_length, firstn_length_le by lia. lia. Qed.
Lemma put_mid : forall a v b w l, length b = length v -> length w = a -> put a v (w ++ b ++ l) = w ++ v ++ l.
Proof.
  intros a v b w l Hb Hw. unfold put. subst a. rewrite firstn_app, Nat.sub_diag, firstn_O, app_nil_r, firstn_all. f_equal. f_equal.
  rewrite <- Hb. rewrite skipn_app, skipn_all2 by lia. cbn. replace (length w + length b - length w)%nat with (length b) by lia.
  rewrite skipn_app, skipn_all2, Nat.sub_diag by lia. reflexivity.
Qed.
Lemma seg_mid : forall a n w b l, length w = a -> length b = n -> seg a n (w ++ b ++ l) = b.
Proof.
  intros a n w b l Hw Hb. unfold seg. subst a n. rewrite skipn_app, skipn_all2, Nat.sub_diag by lia. cbn. rewrite firstn_app, Nat.sub_diag, firstn_O, app_nil_r. apply firstn_all.
Qed.

(** ** Configurations *)
Definition cfg (N hop zf zb : nat) (wa ws : option vec) (st : stft) : Prop :=
  s_N st = N /\ s_hop st = hop /\ s_zf st = zf /\ s_zb st = zb /\ s_nfft st = (N + zb + zf)%nat /\ s_wa st = padded zf zb wa /\ s_ws st = padded zf zb ws.
Lemma padded_0 : forall w, padded 0 0 w = w.
Proof. intros [w|]; cbn; auto. now rewrite app_nil_r. Qed.
Lemma setup_spec : forall N hop wa ws str fx zb zf, (hop <= N)%nat ->
  exists st, stft_setup N hop wa ws str fx zb zf = Some st /\ cfg N hop zf zb wa ws st /\
    s_stream st = str /\ s_fixed st = fx /\ s_H st = None /\ s_buf st = zeros (N + zb + zf) /\ s_yp st = zeros (N + zb + zf - hop) /\ s_F st = match fx with Some F => F | None => 0%nat end.
Proof.
  intros N hop wa ws str fx zb zf H. unfold stft_setup, stft_new, make_buffers. cbn [s_N s_hop s_stream s_fixed s_zf s_zb s_nfft s_wa s_ws s_buf s_yp s_F s_X s_H bind].
  assert (E : (N <? hop)%nat = false) by (apply Nat.ltb_ge; lia). rewrite E. cbn [bind].
  assert (P0 : forall w, padded 0 0 w = w) by exact padded_0.
  destruct zb as [|zb]; destruct zf as [|zf]; cbn [Nat.ltb Nat.leb bind zero_pad_back zero_pad_front make_buffers s_N s_hop s_stream s_fixed s_zf s_zb s_nfft s_wa s_ws s_buf s_yp s_F s_X s_H];
    unfold zero_pad_back, zero_pad_front, make_buffers; cbn [s_N s_hop s_stream s_fixed s_zf s_zb s_nfft s_wa s_ws s_buf s_yp s_F s_X s_H bind]; rewrite ?E; cbn [bind s_N s_hop s_stream s_fixed s_zf s_zb s_nfft s_wa s_ws s_buf s_yp s_F s_X s_H]; rewrite ?E;
    (eexists; split; [reflexivity|]); unfold cfg; cbn [s_N s_hop s_stream s_fixed s_zf s_zb s_nfft s_wa s_ws s_buf s_yp s_F s_X s_H]; rewrite ?P0, ?Nat.add_0_r; repeat split; auto.
  - destruct wa as [w|]; cbn; auto. now rewrite app_nil_r.
  - destruct ws as [w|]; cbn; auto. now rewrite app_nil_r.
  - destruct wa as [w|]; cbn; auto.
  - destruct ws as [w|]; cbn; auto.
Qed.
Lemma padded_length : forall N zf zb w, fits N w -> fits (N + zb + zf) (padded zf zb w).
Proof. intros N zf zb [w|] H; cbn in *; auto. rewrite !app_length, !repeat_length. lia. Qed.
Lemma times_window_fits : forall w x, fits (length x) w -> times_window w x = Some (map (fun i => win w i * nth i x 0) (seq 0 (length x))).
Proof.
  intros [w|] x H; cbn in *.
  - rewrite H, Nat.eqb_refl. f_equal. apply list_eq.
    + rewrite map2_length by auto. now rewrite map_length, seq_length.
    + intros i Hi. rewrite map2_length in Hi by auto. rewrite (nth_map2 _ _ _ _ 0 0) by auto. now rewrite nth_map_seq by lia.
  - f_equal. apply list_eq; [now rewrite map_length, seq_length|]. intros i Hi. rewrite nth_map_seq by auto. ring.
Qed.
Lemma win_padded : forall N zf zb w i, fits N w -> (i < N)%nat -> win (padded zf zb w) (zf + i) = win w i.
Proof. intros N zf zb [w|] i H Hi; cbn in *; auto. rewrite app_nth2, repeat_length by (rewrite repeat_length; lia). rewrite app_nth1 by lia. f_equal. lia. Qed.
Lemma nth_repeat0 : forall n i, nth i (repeat 0 n) 0 = 0.
Proof. exact nth_zeros. Qed.
(** Entries of three concatenated parts with zero sides. *)
Lemma nth_sandwich : forall zf zb (m : vec) i, nth i (repeat 0 zf ++ m ++ repeat 0 zb) 0 = if (zf <=? i)%nat then nth (i - zf) m 0 else 0.
Proof.
  intros zf zb m i. destruct (Nat.leb_spec zf i) as [H|H].
  - rewrite app_nth2; rewrite repeat_length; auto. destruct (Nat.lt_ge_cases (i - zf) (length m)) as [H1|H1].
    + now rewrite app_nth1.
    + rewrite app_nth2 by auto. rewrite nth_repeat0. now rewrite nth_overflow.
  - rewrite app_nth1 by (rewrite repeat_length; auto). apply nth_repeat0.
Qed.
Lemma frame_length : forall N zf zb w x t, length (frame N zf zb w x t) = (N + zb + zf)%nat.
Proof. intros. unfold frame. rewrite !app_length, !repeat_length, map_length, seq_length. lia. Qed.
Lemma nth_frame : forall N zf zb w x t i,
  nth i (frame N zf zb w x t) 0 = if (zf <=? i)%nat && (i - zf <? N)%nat then win w (i - zf) * nth (t + (i - zf)) x 0 else 0.
Proof.
  intros. unfold frame. rewrite nth_sandwich. destruct (Nat.leb_spec zf i) as [H|H]; cbn [andb]; auto.
  destruct (Nat.ltb_spec (i - zf) N) as [H1|H1]; [now rewrite nth_map_seq by auto|]. apply nth_overflow. now rewrite map_length, seq_length.
Qed.

(** Windowing a zero padded buffer gives a frame. *)
Lemma window_buffer : forall N zf zb w (m : vec), fits N w -> length m = N ->
  times_window (padded zf zb w) (repeat 0 zf ++ m ++ repeat 0 zb) = Some (frame N zf zb w m 0).
Proof.
  intros N zf zb w m Hw Hm. assert (Hl : length (repeat 0 zf ++ m ++ repeat 0 zb) = (N + zb + zf)%nat) by (rewrite !app_length, !repeat_length; lia).
  rewrite times_window_fits by (rewrite Hl; now apply padded_length). rewrite Hl. f_equal. apply list_eq.
  - rewrite map_length, seq_length. symmetry. apply frame_length.
  - intros i Hi. rewrite map_length, seq_length in Hi. rewrite nth_map_seq by auto. rewrite nth_sandwich, nth_frame. cbn [Nat.add].
    destruct (Nat.leb_spec zf i) as [H|H]; cbn [andb]; [|ring]. destruct (Nat.ltb_spec (i - zf) N) as [H1|H1].
    + replace i with (zf + (i - zf))%nat at 1 by lia. now rewrite win_padded with (N := N).
    + rewrite nth_overflow by lia. ring.
Qed.
Lemma dft_analysis_frame : forall N zf zb w (m : vec), (2 <= N + zb + zf)%nat -> fits N w -> length m = N ->
  dft_analysis (N + zb + zf) (padded zf zb w) (repeat 0 zf ++ m ++ repeat 0 zb) = Some (frame N zf zb w m 0, rfft (N + zb + zf) (frame N zf zb w m 0)).
Proof.
  intros N zf zb w m H2 Hw Hm. unfold dft_analysis. destruct (Nat.ltb_spec (N + zb + zf) 2); [lia|].
  replace (length (repeat 0 zf ++ m ++ repeat 0 zb)) with (N + zb + zf)%nat by (rewrite !app_length, !repeat_length; lia). rewrite Nat.eqb_refl. cbn [negb].
  rewrite (window_buffer N) by auto. reflexivity.
Qed.
Lemma frame_ext : forall N zf zb w x y t u, (forall i, (i < N)%nat -> nth (t + i) x 0 = nth (u + i) y 0) -> frame N zf zb w x t = frame N zf zb w y u.
Proof.
  intros N zf zb w x y t u H. unfold frame. f_equal. f_equal. apply map_ext_in. intros i Hi. apply in_seq in Hi. rewrite H by lia. reflexivity.
Qed.

(** ** Streaming analysis.  The buffer holds the last [N - hop] samples [s]. *)
Definition holds (N hop zf zb : nat) (s buf : vec) : Prop :=
  exists junk, length junk = hop /\ length s = (N - hop)%nat /\ buf = repeat 0 zf ++ s ++ junk ++ repeat 0 zb.
Lemma stream_frame_spec : forall N hop zf zb wa ws st s buf fresh, (hop <= N)%nat -> (2 <= N + zb + zf)%nat -> fits N wa -> cfg N hop zf zb wa ws st -> holds N hop zf zb s buf -> length fresh = hop ->
  exists buf', stream_frame st buf fresh = Some (buf', rfft (N + zb + zf) (frame N zf zb wa (s ++ fresh) 0)) /\ holds N hop zf zb (skipn hop (s ++ fresh)) buf'.
Proof.
  intros N hop zf zb wa ws st s buf fresh Hh H2 Hw (C1 & C2 & C3 & C4 & C5 & C6 & C7) (junk & Hj & Hs & ->) Hf.
  unfold stream_frame. rewrite C1, C2, C3, C5, C6. cbv zeta.
  assert (E1 : put (zf + (N - hop)) fresh (repeat 0 zf ++ s ++ junk ++ repeat 0 zb) = repeat 0 zf ++ (s ++ fresh) ++ repeat 0 zb).
  { rewrite app_assoc. rewrite put_mid; [now rewrite <- !app_assoc|lia|]. rewrite app_length, repeat_length. lia. }
  rewrite E1. rewrite dft_analysis_frame; auto; [|rewrite app_length; lia]. cbn [bind].
  set (u := s ++ fresh) in *. assert (Hu : length u = N) by (unfold u; rewrite app_length; lia).
  assert (E2 : seg (zf + hop) (N - hop) (repeat 0 zf ++ u ++ repeat 0 zb) = skipn hop u).
  { rewrite <- (firstn_skipn hop u) at 1. rewrite <- app_assoc, app_assoc. apply seg_mid; [rewrite app_length, repeat_length, firstn_length_le; lia|rewrite skipn_length; lia]. }
  rewrite E2. eexists. split; [reflexivity|].
  set (g := map (fun i => win wa i * nth (0 + i) u 0) (seq 0 N)). assert (Hg : length g = N) by (unfold g; now rewrite map_length, seq_length).
  exists (skipn (N - hop) g). split; [rewrite skipn_length; lia|]. split; [rewrite skipn_length; lia|].
  unfold frame. fold g. rewrite <- (firstn_skipn (N - hop) g) at 1. rewrite <- app_assoc. rewrite put_mid; auto.
  - rewrite firstn_length_le, skipn_length by lia. lia.
  - apply repeat_length.
Qed.
Lemma spectra_S : forall N hop zf zb w x F, spectra N hop zf zb w x (S F) = rfft (N + zb + zf) (frame N zf zb w x 0) :: spectra N hop zf zb w (skipn hop x) F.
Proof.
  intros. unfold spectra. cbn [seq map Nat.mul]. f_equal. rewrite <- seq_shift, map_map. apply map_ext_in. intros k Hk. f_equal. apply frame_ext. intros i Hi.
  rewrite nth_skipn. f_equal. lia.
Qed.
Lemma stream_frames_spec : forall N hop zf zb wa ws st, (hop <= N)%nat -> (2 <= N + zb + zf)%nat -> fits N wa -> cfg N hop zf zb wa ws st -> forall F s buf x,
  holds N hop zf zb s buf -> length x = (F * hop)%nat ->
  exists buf', stream_frames st F x buf = Some (buf', spectra N hop zf zb wa (s ++ x) F) /\ holds N hop zf zb (skipn (F * hop) (s ++ x)) buf'.
Proof.
  intros N hop zf zb wa ws st Hh H2 Hw Hc. induction F as [|F IH]; intros s buf x Hb Hx.
  - exists buf. split; auto. destruct x; [|cbn in Hx; lia]. cbn. now rewrite app_nil_r.
  - cbn [stream_frames]. pose proof Hc as (_ & C2 & _). rewrite C2.
    assert (Hf : length (firstn hop x) = hop) by (rewrite firstn_length_le; lia).
    destruct (stream_frame_spec _ _ _ _ _ _ _ s buf (firstn hop x) Hh H2 Hw Hc Hb Hf) as (b1 & -> & Hb1). cbn [bind].
    destruct (IH _ _ (skipn hop x) Hb1) as (b2 & -> & Hb2); [rewrite skipn_length; lia|]. cbn [bind].
    destruct Hb as (j & Hj & Hs & _).
    assert (E : skipn hop (s ++ firstn hop x) ++ skipn hop x = skipn hop (s ++ x)).
    { rewrite <- (firstn_skipn hop x) at 3. rewrite app_assoc. rewrite (skipn_app hop (s ++ firstn hop x)). replace (hop - length (s ++ firstn hop x))%nat with 0%nat by (rewrite app_length; lia). reflexivity. }
    rewrite E in *. exists b2. split.
    + rewrite spectra_S. do 4 f_equal. apply frame_ext. intros i Hi. cbn [Nat.add]. destruct (Nat.lt_ge_cases i (length s)) as [L|L].
      * now rewrite !app_nth1.
      * rewrite !app_nth2 by auto. apply nth_firstn. lia.
    + rewrite skipn_skipn in Hb2. replace (S F * hop)%nat with (hop + F * hop)%nat by lia. auto.
Qed.
Lemma spectra_ext : forall N hop zf zb w x y F, (forall i, nth i x 0 = nth i y 0) -> spectra N hop zf zb w x F = spectra N hop zf zb w y F.
Proof. intros. unfold spectra. apply map_ext. intros k. f_equal. apply frame_ext. auto. Qed.
Lemma spectra_length : forall N hop zf zb w x F, length (spectra N hop zf zb w x F) = F.
Proof. intros. unfold spectra. now rewrite map_length, seq_length. Qed.
Lemma spectra_app : forall N hop zf zb w x F G, spectra N hop zf zb w x (F + G) = spectra N hop zf zb w x F ++ spectra N hop zf zb w (skipn (F * hop) x) G.
Proof.
  intros. revert x. induction F as [|F IH]; intros x; [reflexivity|]. cbn [Nat.add]. rewrite !spectra_S, IH. cbn [app]. rewrite skipn_skipn.
  replace (S F * hop)%nat with (hop + F * hop)%nat by lia. reflexivity.
Qed.
Lemma nth_app_zeros : forall x n i, nth i (x ++ zeros n) 0 = nth i x 0.
Proof. intros. destruct (Nat.lt_ge_cases i (length x)) as [H|H]; [now rewrite app_nth1|]. rewrite app_nth2 by auto. rewrite nth_zeros. now rewrite nth_overflow. Qed.
Lemma ceil_div_mult : forall k b, (0 < b)%nat -> ceil_div (k * b) b = k.
Proof. intros k b H. unfold ceil_div. symmetry. apply (Nat.div_unique _ _ _ (b - 1)); lia. Qed.
Lemma ceil_div_spec : forall a b, (0 < b)%nat -> (a <= ceil_div a b * b)%nat /\ (ceil_div a b * b < a + b)%nat.
Proof.
  intros a b H. unfold ceil_div. pose proof (Nat.div_mod (a + b - 1) b ltac:(lia)) as E. pose proof (Nat.mod_upper_bound (a + b - 1) b ltac:(lia)).
  set (q := ((a + b - 1) / b)%nat) in *. set (r := ((a + b - 1) mod b)%nat) in *. rewrite (Nat.mul_comm q b). lia.
Qed.

(** One call of streaming analysis. *)
Lemma cfg_with : forall N hop zf zb wa ws st buf yp F X, cfg N hop zf zb wa ws st -> cfg N hop zf zb wa ws (with_analysis st buf yp F X).
Proof. intros. exact H. Qed.
Lemma analysis_spec : forall N hop zf zb wa ws st s b, (0 < hop <= N)%nat -> (2 <= N + zb + zf)%nat -> fits N wa -> cfg N hop zf zb wa ws st ->
  s_stream st = true -> accepts (s_fixed st) hop b -> holds N hop zf zb s (s_buf st) ->
  let F := ceil_div (length b) hop in
  exists buf', analysis st b = Some (with_analysis st buf' (s_yp st) F (Some (spectra N hop zf zb wa (s ++ b) F)), spectra N hop zf zb wa (s ++ b) F) /\
    holds N hop zf zb (skipn (F * hop) (s ++ b ++ zeros (F * hop - length b))) buf'.
Proof.
  intros N hop zf zb wa ws st s b Hh H2 Hw Hc Hs Hacc Hb F. unfold analysis. pose proof Hc as (C1 & C2 & _). rewrite Hs. rewrite C2. cbv zeta.
  destruct (Nat.eqb_spec hop 0); [lia|].
  assert (HF : (F * hop >= length b)%nat) by (apply ceil_div_spec; lia).
  assert (E : match s_fixed st with Some F => if Nat.eqb (length b) (F * hop) then Some (F, b) else None
     | None => Some (((length b + hop - 1) / hop)%nat, b ++ zeros ((length b + hop - 1) / hop * hop - length b)) end = Some (F, b ++ zeros (F * hop - length b))).
  { destruct (s_fixed st) as [G|]; [|reflexivity]. cbn in Hacc. destruct Hacc as [HG Hl]. rewrite Hl, Nat.eqb_refl. unfold F. rewrite Hl, ceil_div_mult by lia. rewrite Nat.sub_diag. cbn. now rewrite app_nil_r. }
  rewrite E. cbn [bind]. clear E.
  destruct (stream_frames_spec N hop zf zb wa ws st) with (F := F) (s := s) (buf := s_buf st) (x := b ++ zeros (F * hop - length b)) as (buf' & E & Hb'); auto; [lia| |].
  { rewrite app_length, zeros_length. lia. }
  rewrite E. cbn [bind]. rewrite (spectra_ext _ _ _ _ _ _ (s ++ b)) by (intros i; rewrite app_assoc; apply nth_app_zeros).
  exists buf'. split; auto.
  destruct (s_fixed st) as [G|] eqn:EG; [|reflexivity]. destruct F as [|F'] eqn:EF; [|reflexivity]. exfalso. cbn in Hacc. lia.
Qed.
Lemma holds_fresh : forall N hop zf zb, (hop <= N)%nat -> holds N hop zf zb (zeros (N - hop)) (zeros (N + zb + zf)).
Proof.
  intros. exists (zeros hop). split; [apply zeros_length|]. split; [apply zeros_length|]. unfold zeros. rewrite <- !repeat_app. f_equal. lia.
Qed.
(** Every state with the configuration has a buffer of this form after the calls. *)
Lemma feed_spec : forall N hop zf zb wa ws bs last, (0 < hop <= N)%nat -> (2 <= N + zb + zf)%nat -> fits N wa -> forall st s, cfg N hop zf zb wa ws st ->
  s_stream st = true -> multiples hop bs -> Forall (accepts (s_fixed st) hop) (bs ++ [last]) -> holds N hop zf zb s (s_buf st) ->
  let x := concat (bs ++ [last]) in let F := ceil_div (length x) hop in
  exists st', feed st (bs ++ [last]) = Some (st', spectra N hop zf zb wa (s ++ x) F).
Proof.
  intros N hop zf zb wa ws bs last Hh H2 Hw. induction bs as [|b bs IH]; intros st s Hc Hs Hm Ha Hb; cbv zeta; cbn [app concat feed] in *.
  - inversion Ha; subst. rewrite app_nil_r.
    destruct (analysis_spec N hop zf zb wa ws st s last) as (buf' & E & _); auto. rewrite E. cbn [bind fst snd]. rewrite app_nil_r. eexists. reflexivity.
  - inversion Ha; subst. inversion Hm as [|? ? [k Hk] Hm']; subst.
    destruct (analysis_spec N hop zf zb wa ws st s b) as (buf' & E & Hb'); auto. rewrite E. cbn [bind fst snd].
    rewrite Hk, ceil_div_mult in * by lia. rewrite Nat.sub_diag in Hb'. cbn [zeros repeat] in Hb'. rewrite app_nil_r in Hb'.
    destruct (IH (with_analysis st buf' (s_yp st) k (Some (spectra N hop zf zb wa (s ++ b) k))) (skipn (k * hop) (s ++ b))) as (st' & E'); auto. rewrite E'. cbn [bind fst snd]. exists st'. f_equal. f_equal.
    destruct Hb as (j & _ & Hls & _).
    assert (ES : skipn (k * hop) (s ++ b) ++ concat (bs ++ [last]) = skipn (k * hop) (s ++ b ++ concat (bs ++ [last]))).
    { rewrite app_assoc. rewrite (skipn_app _ (s ++ b)). replace (k * hop - length (s ++ b))%nat with 0%nat by (rewrite app_length; lia). reflexivity. }
    rewrite ES. set (y := concat (bs ++ [last])).
    replace (ceil_div (length (b ++ y)) hop) with (k + ceil_div (length y) hop)%nat.
    2: { rewrite app_length, Hk. unfold ceil_div. replace (k * hop + length y + hop - 1)%nat with (length y + hop - 1 + k * hop)%nat by lia. rewrite Nat.div_add by lia. lia. }
    rewrite spectra_app. f_equal. unfold spectra. apply map_ext_in. intros q Hq. apply in_seq in Hq. f_equal. apply frame_ext. intros i Hi.
    rewrite !(app_assoc s b). symmetry. apply app_nth1. rewrite app_length, Hk, Hls. assert (((q + 1) * hop <= k * hop)%nat) by (apply Nat.mul_le_mono_r; lia). lia.
Qed.

(** ** Overlap-add *)
Lemma ola_cons : forall hop f fs t, ola hop (f :: fs) t = nth t f 0 + if (hop <=? t)%nat then ola hop fs (t - hop) else 0.
Proof.
  intros. unfold ola. cbn [length]. rewrite bsum_shift. cbn [Nat.mul Nat.leb nth]. rewrite Nat.sub_0_r. f_equal.
  destruct (Nat.leb_spec hop t) as [H|H].
  - apply bsum_ext. intros k Hk. destruct (Nat.leb_spec (hop + k * hop) t) as [H1|H1]; destruct (Nat.leb_spec (k * hop) (t - hop)) as [H3|H3]; try lia; auto. f_equal. lia.
  - apply bsum_zero_ext. intros k Hk. destruct (Nat.leb_spec (hop + k * hop) t) as [H1|H1]; [lia|auto].
Qed.
Lemma inverse_length : forall n w X, length (inverse n w X) = n.
Proof. intros. unfold inverse. now rewrite map_length, seq_length. Qed.
Lemma ola_far : forall hop fs t, (0 < hop)%nat -> True -> (forall f, In f fs -> (length f <= t - (length fs - 1) * hop)%nat) -> (length fs * hop <= t + hop)%nat -> ola hop fs t = 0.
Proof.
  intros hop fs t Hh _ H Ht. unfold ola. apply bsum_zero_ext. intros k Hk. destruct (Nat.leb_spec (k * hop) t) as [H1|H1]; auto.
  apply nth_overflow. specialize (H (nth k fs []) (nth_In _ _ Hk)).
  assert ((k * hop <= (length fs - 1) * hop)%nat) by (apply Nat.mul_le_mono_r; lia). lia.
Qed.
Lemma overlap_and_add_spec : forall hop n yp f, (hop <= n)%nat -> length f = n -> length yp = (n - hop)%nat ->
  overlap_and_add hop (n - hop) yp f = (map (fun t => nth t f 0 + nth t yp 0) (seq 0 hop), map (fun i => nth (hop + i) f 0 + nth (hop + i) yp 0) (seq 0 (n - hop))).
Proof.
  intros hop n yp f Hh Hf Hy. unfold overlap_and_add. cbv zeta. destruct (Nat.eqb_spec (n - hop) 0) as [E|E].
  - f_equal.
    + apply list_eq; rewrite ?map_length, ?seq_length, firstn_length_le by lia; auto. intros i Hi. rewrite nth_map_seq, nth_firstn by auto. rewrite (nth_overflow yp) by lia. ring.
    + rewrite E in *. destruct yp; [reflexivity|cbn in Hy; lia].
  - f_equal.
    + set (m := Nat.min hop (n - hop)). assert (Hm : (m <= hop)%nat /\ (m <= n - hop)%nat) by (unfold m; lia).
      assert (L1 : length (firstn m (firstn hop f)) = m) by (rewrite !firstn_length; lia).
      assert (L2 : length (firstn m yp) = m) by (rewrite firstn_length; lia).
      assert (L3 : length (map2 Rplus (firstn m (firstn hop f)) (firstn m yp)) = m) by (rewrite map2_length; congruence).
      apply list_eq.
      * rewrite app_length, L3, skipn_length, firstn_length_le, map_length, seq_length by lia. lia.
      * intros i Hi. rewrite app_length, L3, skipn_length, firstn_length_le in Hi by lia. rewrite nth_map_seq by lia.
        destruct (Nat.lt_ge_cases i m) as [H|H].
        -- rewrite app_nth1 by lia. rewrite (nth_map2 _ _ _ _ 0 0) by lia. rewrite !nth_firstn by lia. reflexivity.
        -- rewrite app_nth2, L3 by lia. rewrite nth_skipn, nth_firstn by lia. rewrite (nth_overflow yp) by lia. rewrite Rplus_0_r. f_equal. lia.
    + assert (L1 : length (skipn hop yp ++ zeros (Nat.min hop (n - hop))) = (n - hop)%nat) by (rewrite app_length, zeros_length, skipn_length; lia).
      assert (L2 : length (skipn (length f - (n - hop)) f) = (n - hop)%nat) by (rewrite skipn_length; lia).
      apply list_eq.
      * rewrite map2_length by congruence. now rewrite map_length, seq_length.
      * intros i Hi. rewrite map2_length, L1 in Hi by congruence. rewrite nth_map_seq by auto. rewrite (nth_map2 _ _ _ _ 0 0) by lia.
        rewrite nth_app_zeros, !nth_skipn. rewrite Rplus_comm. f_equal. f_equal. lia.
Qed.
Lemma dft_synthesis_spec : forall n ws X, (2 <= n)%nat -> fits n ws -> length X = (n / 2 + 1)%nat -> dft_synthesis n ws X = Some (inverse n ws X).
Proof.
  intros n ws X H2 Hw HX. unfold dft_synthesis. destruct (Nat.ltb_spec n 2); [lia|]. rewrite HX, Nat.eqb_refl. cbn [negb].
  rewrite times_window_fits by (rewrite irfft_length; auto). now rewrite irfft_length.
Qed.
Lemma seq_offset : forall a m, seq a m = map (fun t => (a + t)%nat) (seq 0 m).
Proof.
  intros a m. assert (G : forall b, seq (a + b) m = map (fun t => (a + t)%nat) (seq b m)).
  { induction m as [|m IH]; intros b; cbn; auto. f_equal. rewrite <- IH. f_equal. lia. }
  rewrite <- G. f_equal. lia.
Qed.
Lemma synth_frames_spec : forall N hop zf zb wa ws st, (0 < hop <= N)%nat -> (2 <= N + zb + zf)%nat -> fits N ws -> cfg N hop zf zb wa ws st -> forall Xs yp,
  length yp = (N + zb + zf - hop)%nat -> Forall (fun X => length X = ((N + zb + zf) / 2 + 1)%nat) Xs ->
  let fs := map (inverse (N + zb + zf) (padded zf zb ws)) Xs in
  synth_frames st Xs yp = Some (map (fun t => ola hop fs t + nth t yp 0) (seq 0 (length Xs * hop)),
                                map (fun i => ola hop fs (length Xs * hop + i) + nth (length Xs * hop + i) yp 0) (seq 0 (N + zb + zf - hop))).
Proof.
  intros N hop zf zb wa ws st Hh H2 Hw (C1 & C2 & C3 & C4 & C5 & C6 & C7). set (n := (N + zb + zf)%nat) in *.
  induction Xs as [|X Xs IH]; intros yp Hy HX; cbv zeta; cbn [synth_frames map length].
  - cbn [Nat.mul seq map Nat.add]. do 2 f_equal. apply list_eq; rewrite ?map_length, ?seq_length; auto. intros i Hi. rewrite nth_map_seq by lia. unfold ola. cbn. ring.
  - pose proof (Forall_inv HX) as HX1. pose proof (Forall_inv_tail HX) as HX2. cbn beta in HX1. rewrite C2, C5, C7.
    rewrite dft_synthesis_spec; auto; [|now apply padded_length]. cbn [bind].
    set (f := inverse n (padded zf zb ws) X). assert (Hf : length f = n) by apply inverse_length.
    rewrite (overlap_and_add_spec hop n) by (auto; lia). rewrite IH; [|now rewrite map_length, seq_length|auto]. cbn [bind].
    set (fs := map (inverse n (padded zf zb ws)) Xs). set (h := hop) in *.
    do 2 f_equal.
    + replace (S (length Xs) * h)%nat with (h + length Xs * h)%nat by lia. rewrite seq_app, map_app. f_equal.
      * apply map_ext_in. intros t Ht. apply in_seq in Ht. rewrite ola_cons. destruct (Nat.leb_spec h t); [lia|]. ring.
      * rewrite (seq_offset (0 + h) (length Xs * h)). cbn [Nat.add].
        rewrite map_map. apply map_ext_in. intros t Ht. apply in_seq in Ht. rewrite ola_cons. destruct (Nat.leb_spec h (h + t)); [|lia].
        replace (h + t - h)%nat with t by lia.
        destruct (Nat.lt_ge_cases t (n - h)) as [L|L].
        -- rewrite nth_map_seq by auto. ring.
        -- rewrite (nth_overflow (map _ _)) by (rewrite map_length, seq_length; lia). rewrite (nth_overflow f), (nth_overflow yp) by lia. ring.
    + apply map_ext_in. intros i Hi. apply in_seq in Hi. rewrite ola_cons. set (q := (length Xs * h)%nat).
      replace (S (length Xs) * h + i)%nat with (h + (q + i))%nat by (unfold q; lia). destruct (Nat.leb_spec h (h + (q + i))); [|lia].
      replace (h + (q + i) - h)%nat with (q + i)%nat by lia. destruct (Nat.lt_ge_cases (q + i) (n - h)) as [L|L].
      * rewrite nth_map_seq by auto. ring.
      * rewrite (nth_overflow (map _ _)) by (rewrite map_length, seq_length; lia). rewrite (nth_overflow f), (nth_overflow yp) by lia. ring.
Qed.
Lemma synth_frames_app : forall st Xs Ys yp out yp1, synth_frames st Xs yp = Some (out, yp1) ->
  synth_frames st (Xs ++ Ys) yp = match synth_frames st Ys yp1 with Some (o, y) => Some (out ++ o, y) | None => None end.
Proof.
  intros st. induction Xs as [|X Xs IH]; intros Ys yp out yp1 H; cbn [synth_frames app] in *.
  - inversion H; subst. destruct (synth_frames st Ys yp1) as [[o y]|]; auto.
  - destruct (dft_synthesis _ _ X) as [x|]; cbn [bind] in *; [|discriminate]. destruct (overlap_and_add _ _ yp x) as [o yp']. destruct (synth_frames st Xs yp') as [[o' y']|] eqn:E; cbn [bind] in *; [|discriminate].
    inversion H; subst. rewrite (IH Ys _ _ _ E). destruct (synth_frames st Ys yp1) as [[o2 y2]|]; cbn [bind]; auto. now rewrite app_assoc.
Qed.
Lemma synth_frames_with : forall st buf y F X Xs yp, synth_frames (with_analysis st buf y F X) Xs yp = synth_frames st Xs yp.
Proof. intros st buf y F X. induction Xs as [|Y Xs IH]; intros yp; cbn; auto. destruct (dft_synthesis _ _ Y) as [v|]; cbn; auto. destruct (overlap_and_add _ _ yp v). now rewrite IH. Qed.

(** Calls of [synthesis] with spectra. *)
Definition frames_of (X : xin) : list (list C) := match X with One X => [X] | Many Xs => Xs end.
Definition good_call (fx : option nat) (bins : nat) (X : xin) : Prop :=
  Forall (fun X => length X = bins) (frames_of X) /\ match X with One _ => True | Many Xs => length Xs <> 1%nat end /\ match fx with None => True | Some F => length (frames_of X) = F /\ (0 < F)%nat end.
Lemma check_input_good : forall st X, good_call (s_fixed st) (nbin st) X -> (s_fixed st <> None -> s_F st = length (frames_of X)) ->
  check_input st X = Some (with_analysis st (s_buf st) (s_yp st) (length (frames_of X)) (Some (frames_of X))).
Proof.
  intros st X (H1 & H2 & H3) H4. unfold check_input.
  assert (E : match X with
    | One X => if Nat.eqb (length X) (nbin st) then Some (1%nat, [X]) else None
    | Many Xs => if Nat.eqb (length Xs) 1 then (if Nat.eqb 1 (nbin st) then Some (1%nat, Xs) else None)
        else if forallb (fun X => Nat.eqb (length X) (nbin st)) Xs then Some (length Xs, Xs) else None
    end = Some (length (frames_of X), frames_of X)).
  { destruct X as [X|Xs]; cbn in *.
    - inversion H1; subst. now rewrite H5, Nat.eqb_refl.
    - apply Nat.eqb_neq in H2. rewrite H2. replace (forallb _ Xs) with true; auto. symmetry. apply forallb_forall. intros x Hx. rewrite Forall_forall in H1. apply Nat.eqb_eq. auto. }
  rewrite E. cbn [bind]. destruct (s_fixed st) as [F|] eqn:EF; auto. destruct H3 as [E3 H3]. rewrite E3, Nat.eqb_refl. rewrite (H4 ltac:(congruence)), E3. reflexivity.
Qed.
Lemma speak_spec : forall N hop zf zb wa ws, (0 < hop <= N)%nat -> (2 <= N + zb + zf)%nat -> fits N ws -> forall calls st, cfg N hop zf zb wa ws st ->
  length (s_yp st) = (N + zb + zf - hop)%nat -> Forall (good_call (s_fixed st) ((N + zb + zf) / 2 + 1)) calls -> match s_fixed st with Some F => s_F st = F | None => True end ->
  exists st' out yp, speak st calls = Some (st', out) /\ synth_frames st (flat_map frames_of calls) (s_yp st) = Some (out, yp).
Proof.
  intros N hop zf zb wa ws Hh H2 Hw. induction calls as [|X calls IH]; intros st Hc Hy Hg HF; cbn [speak flat_map].
  - exists st, [], (s_yp st). split; reflexivity.
  - pose proof (Forall_inv Hg) as Hg1. pose proof (Forall_inv_tail Hg) as Hg2. pose proof Hc as (C1 & C2 & C3 & C4 & C5 & C6 & C7).
    assert (Hn : nbin st = ((N + zb + zf) / 2 + 1)%nat) by (unfold nbin; now rewrite C5).
    unfold synthesis. rewrite check_input_good.
    2: { now rewrite Hn. }
    2: { intros Hn'. destruct Hg1 as (_ & _ & G). destruct (s_fixed st); [|congruence]. lia. }
    cbn [bind with_analysis s_F s_X].
    pose proof (synth_frames_spec N hop zf zb wa ws st Hh H2 Hw Hc (frames_of X) (s_yp st) Hy (proj1 Hg1)) as E. cbv zeta in E.
    set (o1 := map _ (seq 0 (length (frames_of X) * hop))) in E. set (y1 := map _ (seq 0 (N + zb + zf - hop))) in E.
    set (st1 := with_analysis st (s_buf st) (s_yp st) (length (frames_of X)) (Some (frames_of X))) in *.
    destruct (length (frames_of X)) as [|F] eqn:EF.
    + destruct (frames_of X) eqn:EX; [|cbn in EF; lia]. cbn [fst snd bind].
      destruct (IH st1) as (st' & out & yp & E1 & E2); auto.
      { cbn. destruct Hg1 as (_ & _ & G). destruct (s_fixed st); auto. rewrite EX in G. cbn in G. lia. }
      exists st', out, yp. rewrite E1. split; auto. cbn [app]. unfold st1 in E2. now rewrite synth_frames_with in E2.
    + unfold st1 at 1. rewrite synth_frames_with. change (s_yp st1) with (s_yp st). rewrite E. cbn [bind fst snd].
      destruct (IH (with_analysis st1 (s_buf st1) y1 (S F) (s_X st1))) as (st' & out & yp & E1 & E2); auto.
      { cbn. unfold y1. now rewrite map_length, seq_length. }
      { cbn. destruct Hg1 as (_ & _ & G). destruct (s_fixed st); auto. lia. }
      change (s_X st1) with (Some (frames_of X)) in *. rewrite E1. cbn [bind fst snd]. exists st', (o1 ++ out), yp. split; auto.
      unfold st1 in E2. rewrite !synth_frames_with in E2. cbn [s_yp with_analysis] in E2. rewrite (synth_frames_app _ _ _ _ _ _ E). now rewrite E2.
Qed.

(** ** The chain *)
Definition filt (H : option (list C)) (X : list C) : list C := match H with None => X | Some H => map2 Cmul X H end.
Definition Hfits (bins : nat) (H : option (list C)) : Prop := match H with None => True | Some H => length H = bins end.
Lemma filt_length : forall bins H X, Hfits bins H -> length X = bins -> length (filt H X) = bins.
Proof. intros bins [H|] X Hh HX; cbn in *; auto. rewrite map2_length; lia. Qed.
Lemma spectra_bins : forall N hop zf zb w x F, Forall (fun X => length X = ((N + zb + zf) / 2 + 1)%nat) (spectra N hop zf zb w x F).
Proof. intros. unfold spectra. apply Forall_forall. intros X HX. apply in_map_iff in HX. destruct HX as (k & <- & _). apply rfft_length. Qed.
Lemma mapM_multiply : forall bins H Xs, length H = bins -> Forall (fun X => length X = bins) Xs -> mapM (fun X => multiply X H) Xs = Some (map (filt (Some H)) Xs).
Proof.
  intros bins H Xs HH HX. rewrite <- mapM_total. apply mapM_ext_in. intros X Hin. rewrite Forall_forall in HX. unfold multiply. rewrite (HX _ Hin), HH, Nat.eqb_refl. reflexivity.
Qed.
Lemma chain_step : forall N hop zf zb wa ws st s b, (0 < hop <= N)%nat -> (2 <= N + zb + zf)%nat -> fits N wa -> fits N ws -> cfg N hop zf zb wa ws st ->
  s_stream st = true -> accepts (s_fixed st) hop b -> holds N hop zf zb s (s_buf st) -> length (s_yp st) = (N + zb + zf - hop)%nat -> Hfits ((N + zb + zf) / 2 + 1) (s_H st) ->
  let F := ceil_div (length b) hop in let Ys := map (filt (s_H st)) (spectra N hop zf zb wa (s ++ b) F) in
  exists r p q, analysis st b = Some r /\ process (fst r) None = Some p /\ synthesis (fst (fst p)) None = Some q /\
    cfg N hop zf zb wa ws (fst q) /\ s_stream (fst q) = true /\ s_fixed (fst q) = s_fixed st /\ s_H (fst q) = s_H st /\ length (s_yp (fst q)) = (N + zb + zf - hop)%nat /\
    holds N hop zf zb (skipn (F * hop) (s ++ b ++ zeros (F * hop - length b))) (s_buf (fst q)) /\
    (forall Xs yp, synth_frames (fst q) Xs yp = synth_frames st Xs yp) /\
    synth_frames st Ys (s_yp st) = Some (match snd q with Some x => x | None => [] end, s_yp (fst q)).
Proof.
  intros N hop zf zb wa ws st s b Hh H2 Hwa Hws Hc Hs Ha Hb Hy HH F Ys.
  destruct (analysis_spec N hop zf zb wa ws st s b) as (buf' & E & Hb'); auto. fold F in E, Hb'. rewrite E.
  set (Xs := spectra N hop zf zb wa (s ++ b) F) in *. assert (HXs : length Xs = F) by apply spectra_length.
  assert (HXb : Forall (fun X => length X = ((N + zb + zf) / 2 + 1)%nat) Xs) by apply spectra_bins.
  assert (HYb : Forall (fun X => length X = ((N + zb + zf) / 2 + 1)%nat) Ys).
  { apply Forall_forall. intros Y HY. apply in_map_iff in HY. destruct HY as (X & <- & HX). apply filt_length; auto. rewrite Forall_forall in HXb. auto. }
  pose proof (synth_frames_spec N hop zf zb wa ws st Hh H2 Hws Hc Ys (s_yp st) Hy HYb) as ES. cbv zeta in ES.
  set (o := map _ (seq 0 (length Ys * hop))) in ES. set (y := map _ (seq 0 (N + zb + zf - hop))) in ES.
  assert (HYl : length Ys = F) by (unfold Ys; now rewrite map_length).
  set (st1 := with_analysis st buf' (s_yp st) F (Some Xs)).
  assert (EP : exists r2 r3, process st1 None = Some (with_analysis st1 buf' (s_yp st) F (Some Ys), r2, r3)).
  { unfold process. change (s_H st1) with (s_H st). unfold Ys. destruct (s_H st) as [H|] eqn:EH.
    - cbn [bind]. change (s_F st1) with F. destruct F as [|F'] eqn:EF.
      + destruct Xs; [|cbn in HXs; lia]. cbn. do 2 eexists. reflexivity.
      + change (s_X st1) with (Some Xs). cbn [bind]. rewrite (mapM_multiply ((N + zb + zf) / 2 + 1)) by auto. cbn [bind]. do 2 eexists. reflexivity.
    - cbn [filt]. rewrite map_id. do 2 eexists. reflexivity. }
  destruct EP as (r2 & r3 & EP). 
  set (st2 := with_analysis st1 buf' (s_yp st) F (Some Ys)) in *.
  assert (EQ : exists q, synthesis st2 None = Some q /\ fst q = with_analysis st2 buf' y F (Some Ys) /\ match snd q with Some x => x | None => [] end = o).
  { unfold synthesis. cbn [bind]. change (s_F st2) with F. destruct F as [|F'] eqn:EF.
    - destruct Ys as [|Y0 Y1] eqn:EY; [|cbn in HYl; lia]. eexists. split; [reflexivity|]. cbn [fst snd]. split; [|reflexivity].
      cbn in ES. inversion ES. reflexivity.
    - change (s_X st2) with (Some Ys). cbn [bind]. unfold st2 at 1. unfold st1 at 1. rewrite !synth_frames_with. change (s_yp st2) with (s_yp st). rewrite ES. cbn [bind]. eexists. split; [reflexivity|]. split; reflexivity. }
  destruct EQ as (q & EQ & Eq1 & Eq2).
  exists (st1, Xs), (st2, r2, r3), q. split; [reflexivity|]. split; [exact EP|]. split; [exact EQ|]. rewrite Eq1. split; [exact Hc|]. split; [exact Hs|]. split; [reflexivity|]. split; [reflexivity|].
  split; [cbn; unfold y; now rewrite map_length, seq_length|]. split; [exact Hb'|]. split.
  - intros. unfold st2, st1. now rewrite !synth_frames_with.
  - rewrite ES, Eq2. reflexivity.
Qed.
Lemma chain_spec : forall N hop zf zb wa ws, (0 < hop <= N)%nat -> (2 <= N + zb + zf)%nat -> fits N wa -> fits N ws -> forall bs last st s, cfg N hop zf zb wa ws st ->
  s_stream st = true -> multiples hop bs -> Forall (accepts (s_fixed st) hop) (bs ++ [last]) -> holds N hop zf zb s (s_buf st) -> length (s_yp st) = (N + zb + zf - hop)%nat -> Hfits ((N + zb + zf) / 2 + 1) (s_H st) ->
  let x := concat (bs ++ [last]) in let F := ceil_div (length x) hop in
  exists st' out yp, chain st (bs ++ [last]) = Some (st', out) /\ synth_frames st (map (filt (s_H st)) (spectra N hop zf zb wa (s ++ x) F)) (s_yp st) = Some (out, yp).
Proof.
  intros N hop zf zb wa ws Hh H2 Hwa Hws. induction bs as [|b bs IH]; intros last st s Hc Hs Hm Ha Hb Hy HH; cbv zeta; cbn [app concat chain] in *; inversion Ha; subst.
  - destruct (chain_step N hop zf zb wa ws st s last) as (r & p & q & E1 & E2 & E3 & _ & _ & _ & _ & _ & _ & _ & E4); auto.
    rewrite E1. cbn [bind]. rewrite E2. cbn [bind]. rewrite E3. cbn [bind fst snd]. rewrite !app_nil_r. rewrite E4. do 3 eexists. split; reflexivity.
  - inversion Hm as [|? ? [k Hk] Hm']; subst.
    destruct (chain_step N hop zf zb wa ws st s b) as (r & p & q & E1 & E2 & E3 & Hc' & Hs' & Hf' & HH' & Hy' & Hb' & Hsf & E4); auto.
    rewrite E1. cbn [bind]. rewrite E2. cbn [bind]. rewrite E3. cbn [bind].
    rewrite Hk, ceil_div_mult in * by lia. rewrite Nat.sub_diag in Hb'. cbn [zeros repeat] in Hb'. rewrite app_nil_r in Hb'.
    destruct (IH last (fst q) (skipn (k * hop) (s ++ b)) Hc' Hs' Hm') as (st' & out & yp & E5 & E6); auto; try (now rewrite ?Hf', ?HH'). rewrite E5. cbn [bind fst snd].
    do 3 eexists. split; [reflexivity|].
    destruct Hb as (j & _ & Hls & _).
    assert (ES : skipn (k * hop) (s ++ b) ++ concat (bs ++ [last]) = skipn (k * hop) (s ++ b ++ concat (bs ++ [last]))).
    { rewrite app_assoc. rewrite (skipn_app _ (s ++ b)). replace (k * hop - length (s ++ b))%nat with 0%nat by (rewrite app_length; lia). reflexivity. }
    rewrite ES in E6. set (y := concat (bs ++ [last])) in *.
    replace (ceil_div (length (b ++ y)) hop) with (k + ceil_div (length y) hop)%nat.
    2: { rewrite app_length, Hk. unfold ceil_div. replace (k * hop + length y + hop - 1)%nat with (length y + hop - 1 + k * hop)%nat by lia. rewrite Nat.div_add by lia. lia. }
    rewrite spectra_app, map_app.
    replace (spectra N hop zf zb wa (s ++ b ++ y) k) with (spectra N hop zf zb wa (s ++ b) k).
    2: { unfold spectra. apply map_ext_in. intros q' Hq. apply in_seq in Hq. f_equal. apply frame_ext. intros i Hi.
      rewrite !(app_assoc s b). symmetry. apply app_nth1. rewrite app_length, Hk, Hls. assert (((q' + 1) * hop <= k * hop)%nat) by (apply Nat.mul_le_mono_r; lia). lia. }
    rewrite (synth_frames_app _ _ _ _ _ _ E4). rewrite <- Hsf, <- HH', E6. reflexivity.
Qed.

(** ** Reconstruction *)
Lemma bsum_extend : forall a b g, (a <= b)%nat -> (forall k, (a <= k < b)%nat -> g k = 0) -> bsum b g = bsum a g.
Proof. intros a b g H Hg. replace b with (a + (b - a))%nat by lia. rewrite bsum_split. rewrite (bsum_zero_ext (b - a)); [ring|]. intros i Hi. apply Hg. lia. Qed.
Lemma bsum_support : forall a b g, (forall k, (a <= k)%nat -> g k = 0) -> (forall k, (b <= k)%nat -> g k = 0) -> bsum a g = bsum b g.
Proof.
  intros a b g Ha Hb. destruct (Nat.le_ge_cases a b) as [H|H].
  - symmetry. apply bsum_extend; auto. intros. apply Ha. lia.
  - apply bsum_extend; auto. intros. apply Hb. lia.
Qed.
Lemma cover : forall N hop wa ws F u, (0 < hop <= N)%nat -> partition N hop wa ws -> (N - hop <= u)%nat -> (u < F * hop)%nat ->
  bsum F (fun k => if ((k * hop <=? u) && (u - k * hop <? N))%nat then win wa (u - k * hop) * win ws (u - k * hop) else 0) = 1.
Proof.
  intros N hop wa ws F u Hh HP Hu HF.
  pose proof (Nat.div_mod u hop ltac:(lia)) as E. pose proof (Nat.mod_upper_bound u hop ltac:(lia)) as Hr. set (q := (u / hop)%nat) in *. set (r := (u mod hop)%nat) in *.
  assert (HqF : (q + 1 <= F)%nat). { assert (q < F)%nat; [|lia]. apply Nat.mul_lt_mono_pos_r with (p := hop); [lia|]. rewrite Nat.mul_comm in E. lia. }
  rewrite (bsum_extend (q + 1) F) by (auto; intros k Hk; destruct (Nat.leb_spec (k * hop) u) as [H|H]; auto; exfalso; assert ((q + 1) * hop <= k * hop)%nat by (apply Nat.mul_le_mono_r; lia); lia).
  rewrite bsum_rev. rewrite <- (HP r Hr).
  rewrite (bsum_support N (q + 1) (fun k => if (r + k * hop <? N)%nat then win wa (r + k * hop) * win ws (r + k * hop) else 0)).
  - apply bsum_ext. intros k Hk. assert (Ek : ((q + 1 - 1 - k) * hop + k * hop = q * hop)%nat) by (rewrite <- Nat.mul_add_distr_r; f_equal; lia).
    assert (Hle : ((q + 1 - 1 - k) * hop <= u)%nat) by lia. apply Nat.leb_le in Hle. rewrite Hle. cbn [andb]. apply Nat.leb_le in Hle.
    replace (u - (q + 1 - 1 - k) * hop)%nat with (r + k * hop)%nat by lia. reflexivity.
  - intros k Hk. destruct (Nat.ltb_spec (r + k * hop) N) as [H|H]; auto. exfalso. assert (k * 1 <= k * hop)%nat by (apply Nat.mul_le_mono_l; lia). lia.
  - intros k Hk. destruct (Nat.ltb_spec (r + k * hop) N) as [H|H]; auto. exfalso. assert ((q + 1) * hop <= k * hop)%nat by (apply Nat.mul_le_mono_r; lia). lia.
Qed.
Lemma nth_delayed : forall d x t, nth t (delayed d x) 0 = if (d <=? t)%nat then nth (t - d) x 0 else 0.
Proof.
  intros. unfold delayed. destruct (Nat.leb_spec d t) as [H|H].
  - now rewrite app_nth2; rewrite repeat_length.
  - rewrite app_nth1 by (now rewrite repeat_length). apply nth_repeat0.
Qed.
Lemma sum_of_frames : forall N hop zf zb wa ws F x t, (0 < hop <= N)%nat -> fits N ws -> partition N hop wa ws -> (t < F * hop + zf)%nat ->
  bsum F (fun k => if (k * hop <=? t)%nat then win (padded zf zb ws) (t - k * hop) * nth (t - k * hop) (frame N zf zb wa (delayed (N - hop) x) (k * hop)) 0 else 0)
  = nth t (delayed (N - hop + zf) x) 0.
Proof.
  intros N hop zf zb wa ws F x t Hh Hw HP Ht. destruct (Nat.lt_ge_cases t zf) as [H|H].
  - rewrite nth_delayed. destruct (Nat.leb_spec (N - hop + zf) t); [lia|]. apply bsum_zero_ext. intros k Hk. destruct (Nat.leb_spec (k * hop) t); auto.
    rewrite nth_frame. destruct (Nat.leb_spec zf (t - k * hop)); [lia|]. cbn [andb]. ring.
  - set (u := (t - zf)%nat). set (y := delayed (N - hop) x).
    rewrite (bsum_ext F _ (fun k => (if ((k * hop <=? u) && (u - k * hop <? N))%nat then win wa (u - k * hop) * win ws (u - k * hop) else 0) * nth u y 0)).
    + rewrite bsum_scal_r. replace (nth t (delayed (N - hop + zf) x) 0) with (nth u y 0).
      2: { unfold y. rewrite !nth_delayed. unfold u. destruct (Nat.leb_spec (N - hop) (t - zf)); destruct (Nat.leb_spec (N - hop + zf) t); try lia; auto. f_equal. lia. }
      destruct (Nat.lt_ge_cases u (N - hop)) as [H1|H1].
      * replace (nth u y 0) with 0; [ring|]. unfold y. rewrite nth_delayed. destruct (Nat.leb_spec (N - hop) u); [lia|auto].
      * rewrite cover; auto; [ring|]. unfold u. lia.
    + intros k Hk. rewrite nth_frame. fold y. unfold u.
      destruct (Nat.leb_spec (k * hop) t) as [A|A]; destruct (Nat.leb_spec (k * hop) (t - zf)) as [B|B]; cbn [andb]; try lia; try ring.
      * destruct (Nat.leb_spec zf (t - k * hop)); [|lia]. cbn [andb]. replace (t - k * hop - zf)%nat with (t - zf - k * hop)%nat by lia.
        destruct (Nat.ltb_spec (t - zf - k * hop) N) as [D|D]; [|ring].
        replace (t - k * hop)%nat with (zf + (t - zf - k * hop))%nat at 1 by lia. rewrite win_padded with (N := N) by auto.
        replace (k * hop + (t - zf - k * hop))%nat with (t - zf)%nat by lia. ring.
      * destruct (Nat.leb_spec zf (t - k * hop)); [lia|]. cbn [andb]. ring.
Qed.
Lemma nth_spectra_frames : forall (g : list C -> vec) N hop zf zb w x F k, (k < F)%nat -> nth k (map g (spectra N hop zf zb w x F)) [] = g (rfft (N + zb + zf) (frame N zf zb w x (k * hop))).
Proof. intros. unfold spectra. rewrite map_map. now rewrite nth_map_seq by auto. Qed.
Lemma nth_inverse : forall n w X i, (i < n)%nat -> nth i (inverse n w X) 0 = win w i * nth i (irfft n X) 0.
Proof. intros. unfold inverse. now rewrite nth_map_seq by auto. Qed.
Lemma ola_spectra : forall N hop zf zb wa ws F x t, (0 < hop <= N)%nat -> fits N ws -> partition N hop wa ws -> (t < F * hop)%nat ->
  ola hop (map (inverse (N + zb + zf) (padded zf zb ws)) (spectra N hop zf zb wa (delayed (N - hop) x) F)) t = nth t (delayed (N - hop + zf) x) 0.
Proof.
  intros N hop zf zb wa ws F x t Hh Hw HP Ht. rewrite <- (sum_of_frames N hop zf zb wa ws F x t) by (auto; lia). unfold ola. rewrite map_length, spectra_length. apply bsum_ext.
  intros k Hk. destruct (Nat.leb_spec (k * hop) t) as [H|H]; auto. rewrite nth_spectra_frames by auto.
  destruct (Nat.lt_ge_cases (t - k * hop) (N + zb + zf)) as [L|L].
  - rewrite nth_inverse by auto. now rewrite irfft_rfft.
  - rewrite nth_overflow by (rewrite inverse_length; auto). rewrite (nth_overflow (frame _ _ _ _ _ _)) by (rewrite frame_length; auto). ring.
Qed.
(** A frame filtered through its spectrum. *)
Lemma filtered_frame : forall N zf zb h (f : vec) i, (length h <= zb + 1)%nat -> (0 < N + zb + zf)%nat ->
  (forall j, ((zf <=? j) && (j - zf <? N))%nat = false -> nth j f 0 = 0) ->
  nth i (inverse (N + zb + zf) None (filt (Some (rfft (N + zb + zf) h)) (rfft (N + zb + zf) f))) 0 = bsum (i + 1) (fun j => nth j h 0 * nth (i - j) f 0).
Proof.
  intros N zf zb h f i Hh Hn Hf. set (n := (N + zb + zf)%nat) in *. destruct (Nat.lt_ge_cases i n) as [L|L].
  - rewrite nth_inverse by auto. cbn [win filt]. rewrite Rmult_1_l.
    rewrite (irfft_product n f h) by (auto; intros k Hk; rewrite (nth_map2 Cmul _ _ _ C0 C0); rewrite ?rfft_length; auto; lia).
    rewrite (bsum_extend (i + 1) n); [|lia|].
    + rewrite bsum_rev. apply bsum_ext. intros j Hj. replace (i + 1 - 1 - j)%nat with (i - j)%nat by lia. rewrite Rmult_comm. f_equal.
      f_equal. replace (i + (n - (i - j)))%nat with (j + 1 * n)%nat by lia. rewrite Nat.mod_add by lia. apply Nat.mod_small. lia.
    + intros j Hj. destruct (((zf <=? j) && (j - zf <? N))%nat) eqn:E; [|rewrite Hf by auto; ring].
      apply andb_true_iff in E. destruct E as [E1 E2]. apply Nat.leb_le in E1. apply Nat.ltb_lt in E2.
      rewrite Nat.mod_small by lia. rewrite (nth_overflow h) by (unfold n; lia). ring.
  - rewrite nth_overflow by (rewrite inverse_length; auto). symmetry. apply bsum_zero_ext. intros j Hj.
    destruct (Nat.lt_ge_cases j (length h)) as [L1|L1]; [|rewrite (nth_overflow h) by auto; ring].
    rewrite (Hf (i - j)%nat); [ring|]. apply andb_false_iff. right. apply Nat.ltb_ge. unfold n in L. lia.
Qed.
Lemma ola_filtered : forall N hop zf zb wa h F x t, (0 < hop <= N)%nat -> partition N hop wa None -> (length h <= zb + 1)%nat -> (t < F * hop)%nat ->
  ola hop (map (inverse (N + zb + zf) None) (map (filt (Some (rfft (N + zb + zf) h))) (spectra N hop zf zb wa (delayed (N - hop) x) F))) t
  = convolution h (delayed (N - hop + zf) x) t.
Proof.
  intros N hop zf zb wa h F x t Hh HP Hl Ht. unfold ola, convolution. rewrite !map_length, spectra_length, map_map.
  set (fr := fun k => frame N zf zb wa (delayed (N - hop) x) (k * hop)).
  rewrite (bsum_ext F _ (fun k => bsum (t + 1) (fun j => if (k * hop <=? t - j)%nat && (j <=? t)%nat then nth j h 0 * nth (t - j - k * hop) (fr k) 0 else 0))).
  - rewrite bsum_swap. apply bsum_ext. intros j Hj. rewrite <- (sum_of_frames N hop zf zb wa None F x (t - j)) by (cbn; auto; lia). rewrite <- bsum_scal. apply bsum_ext. intros k Hk.
    destruct (Nat.leb_spec (k * hop) (t - j)) as [H|H]; cbn [andb]; [|ring]. destruct (Nat.leb_spec j t); [|lia]. cbn [padded option_map win]. unfold fr. ring.
  - intros k Hk. destruct (Nat.leb_spec (k * hop) t) as [H|H].
    + rewrite nth_spectra_frames by auto. rewrite filtered_frame; [|auto|lia|intros j E; rewrite nth_frame, E; auto].
      symmetry. rewrite (bsum_extend (t - k * hop + 1) (t + 1)); [|lia|].
      * apply bsum_ext. intros j Hj. destruct (Nat.leb_spec (k * hop) (t - j)); [|lia]. destruct (Nat.leb_spec j t); [|lia]. cbn [andb]. f_equal. unfold fr. f_equal. lia.
      * intros j Hj. destruct (Nat.leb_spec (k * hop) (t - j)); [lia|]. reflexivity.
    + symmetry. apply bsum_zero_ext. intros j Hj. destruct (Nat.leb_spec (k * hop) (t - j)); [lia|]. reflexivity.
Qed.
Lemma length_map_seq : forall {A} (f : nat -> A) n, length (map f (seq 0 n)) = n.
Proof. intros. now rewrite map_length, seq_length. Qed.

(** ** Non-streaming analysis *)
Lemma strided_spec : forall N hop zf zb wa ws st x F, (0 < hop <= N)%nat -> (2 <= N + zb + zf)%nat -> fits N wa -> cfg N hop zf zb wa ws st -> (0 < F)%nat -> length x = ((F - 1) * hop + N)%nat ->
  strided_frames st F x = Some (spectra N hop zf zb wa x F).
Proof.
  intros N hop zf zb wa ws st x F Hh H2 Hw (C1 & C2 & C3 & C4 & C5 & C6 & C7) HF Hx. unfold strided_frames, spectra. rewrite <- mapM_total. apply mapM_ext_in. intros k Hk. apply in_seq in Hk.
  rewrite C1, C2, C3, C4, C5, C6.
  assert (Hs : length (seg (k * hop) N x) = N).
  { unfold seg. rewrite firstn_length_le; auto. rewrite skipn_length. assert (k * hop <= (F - 1) * hop)%nat by (apply Nat.mul_le_mono_r; lia). lia. }
  unfold zeros. rewrite (dft_analysis_frame N zf zb wa) by auto. cbn [bind snd]. do 2 f_equal. apply frame_ext. intros i Hi. unfold seg. rewrite nth_firstn by auto. rewrite nth_skipn. f_equal.
Qed.
Lemma sum_of_frames_from : forall N hop zf zb wa ws F y t, (0 < hop <= N)%nat -> fits N ws -> partition N hop wa ws -> (N - hop + zf <= t < F * hop + zf)%nat ->
  bsum F (fun k => if (k * hop <=? t)%nat then win (padded zf zb ws) (t - k * hop) * nth (t - k * hop) (frame N zf zb wa y (k * hop)) 0 else 0) = nth (t - zf) y 0.
Proof.
  intros N hop zf zb wa ws F y t Hh Hw HP Ht. set (u := (t - zf)%nat).
  rewrite (bsum_ext F _ (fun k => (if ((k * hop <=? u) && (u - k * hop <? N))%nat then win wa (u - k * hop) * win ws (u - k * hop) else 0) * nth u y 0)).
  - rewrite bsum_scal_r. rewrite cover; auto; [ring| |]; unfold u; lia.
  - intros k Hk. rewrite nth_frame. unfold u.
    destruct (Nat.leb_spec (k * hop) t) as [A|A]; destruct (Nat.leb_spec (k * hop) (t - zf)) as [B|B]; cbn [andb]; try lia; try ring.
    + destruct (Nat.leb_spec zf (t - k * hop)); [|lia]. cbn [andb]. replace (t - k * hop - zf)%nat with (t - zf - k * hop)%nat by lia.
      destruct (Nat.ltb_spec (t - zf - k * hop) N) as [D|D]; [|ring].
      replace (t - k * hop)%nat with (zf + (t - zf - k * hop))%nat at 1 by lia. rewrite win_padded with (N := N) by auto.
      replace (k * hop + (t - zf - k * hop))%nat with (t - zf)%nat by lia. ring.
    + destruct (Nat.leb_spec zf (t - k * hop)); [lia|]. cbn [andb]. ring.
Qed.
Lemma ola_spectra_from : forall N hop zf zb wa ws F y t, (0 < hop <= N)%nat -> fits N ws -> partition N hop wa ws -> (N - hop + zf <= t < F * hop)%nat ->
  ola hop (map (inverse (N + zb + zf) (padded zf zb ws)) (spectra N hop zf zb wa y F)) t = nth (t - zf) y 0.
Proof.
  intros N hop zf zb wa ws F y t Hh Hw HP Ht. rewrite <- (sum_of_frames_from N hop zf zb wa ws F y t) by (auto; lia). unfold ola. rewrite map_length, spectra_length. apply bsum_ext.
  intros k Hk. destruct (Nat.leb_spec (k * hop) t) as [H|H]; auto. rewrite nth_spectra_frames by auto.
  destruct (Nat.lt_ge_cases (t - k * hop) (N + zb + zf)) as [L|L].
  - rewrite nth_inverse by auto. now rewrite irfft_rfft.
  - rewrite nth_overflow by (rewrite inverse_length; auto). rewrite (nth_overflow (frame _ _ _ _ _ _)) by (rewrite frame_length; auto). ring.
Qed.
Lemma batch_spec : forall N hop zf zb wa ws st x, (0 < hop <= N)%nat -> (2 <= N + zb + zf)%nat -> fits N wa -> cfg N hop zf zb wa ws st -> s_stream st = false -> s_fixed st = None ->
  let F := batch_frames N hop (length x) in
  analysis st x = Some (with_analysis st (zeros (length (s_buf st))) (zeros (length (s_yp st))) F (Some (spectra N hop zf zb wa x F)), spectra N hop zf zb wa x F).
Proof.
  intros N hop zf zb wa ws st x Hh H2 Hw Hc Hs Hf F. unfold analysis. pose proof Hc as (C1 & C2 & _). rewrite Hs, Hf, C1, C2. cbv zeta. destruct (Nat.eqb_spec hop 0); [lia|].
  set (pad := if (length x <? N)%nat then Some (1%nat, x ++ zeros (N - length x)) else _).
  assert (E : exists z, pad = Some (F, x ++ zeros z) /\ length (x ++ zeros z) = ((F - 1) * hop + N)%nat /\ (0 < F)%nat).
  { unfold pad, F, batch_frames. destruct (Nat.ltb_spec (length x) N) as [H|H].
    - exists (N - length x)%nat. split; auto. rewrite app_length, zeros_length. lia.
    - fold (ceil_div (length x - N) hop). eexists. split; [reflexivity|]. rewrite app_length, zeros_length. pose proof (ceil_div_spec (length x - N) hop ltac:(lia)) as [A B].
      replace (ceil_div (length x - N) hop + 1 - 1)%nat with (ceil_div (length x - N) hop) by lia. lia. }
  destruct E as (z & -> & El & HF). cbn [bind]. rewrite (strided_spec N hop zf zb wa ws) by auto. cbn [bind].
  rewrite (spectra_ext _ _ _ _ _ (x ++ zeros z) x) by (intros i; apply nth_app_zeros). reflexivity.
Qed.

(** ** The synthesis window *)
Definition sqz (wa : vec) (z : Z) : R := if ((0 <=? z) && (z <? Z.of_nat (length wa)))%Z then nth (Z.to_nat z) wa 0 * nth (Z.to_nat z) wa 0 else 0.
Lemma farthest_spec : forall hop L fuel m, (0 < hop)%nat -> (0 < L)%nat -> (m <= (L - 1) / hop)%nat -> ((L - 1) / hop - m < fuel)%nat ->
  farthest fuel (Z.of_nat hop) (Z.of_nat L) (- Z.of_nat (m * hop)) = Some (- Z.of_nat ((L - 1) / hop * hop))%Z.
Proof.
  intros hop L fuel. induction fuel as [|fuel IH]; intros m Hh HL Hm Hf; [lia|]. cbn [farthest].
  pose proof (Nat.div_mod (L - 1) hop ltac:(lia)) as E. pose proof (Nat.mod_upper_bound (L - 1) hop ltac:(lia)) as Hr. set (q := ((L - 1) / hop)%nat) in *. set (r := ((L - 1) mod hop)%nat) in *.
  rewrite (Nat.mul_comm hop q) in E. destruct (Z.ltb_spec (- Z.of_nat L) (- Z.of_nat (m * hop) - Z.of_nat hop)) as [H|H].
  - assert ((m + 1 <= q)%nat). { destruct (Nat.le_gt_cases (m + 1) q); auto. assert (m = q) by lia. subst m. lia. }
    replace (- Z.of_nat (m * hop) - Z.of_nat hop)%Z with (- Z.of_nat ((m + 1) * hop))%Z by lia. apply IH; auto; lia.
  - assert (m = q); [|now subst]. destruct (Nat.eq_dec m q); auto. exfalso. assert ((m + 1) * hop <= q * hop)%nat by (apply Nat.mul_le_mono_r; lia). lia.
Qed.
Lemma nth_sq : forall wa i, nth i (map (fun w => w * w) wa) 0 = nth i wa 0 * nth i wa 0.
Proof. intros. rewrite <- (Rmult_0_l 0) at 1. now rewrite (map_nth (fun w => w * w)). Qed.
Lemma shift_step : forall (wa norm : vec) n, length norm = length wa -> (- Z.of_nat (length wa) < n < Z.of_nat (length wa))%Z ->
  let sq := map (fun w => w * w) wa in let L := Z.of_nat (length wa) in
  let norm' := if (n =? 0)%Z then map2 Rplus norm sq
        else if (n <? 0)%Z then map2 Rplus (firstn (Z.to_nat (n + L)) norm) (skipn (Z.to_nat (- n)) sq) ++ skipn (Z.to_nat (n + L)) norm
        else firstn (Z.to_nat n) norm ++ map2 Rplus (skipn (Z.to_nat n) norm) (firstn (length sq - Z.to_nat n) sq) in
  length norm' = length wa /\ forall i, (i < length wa)%nat -> nth i norm' 0 = nth i norm 0 + sqz wa (Z.of_nat i - n).
Proof.
  intros wa norm n Hl Hn sq L norm'. assert (Hsq : length sq = length wa) by (unfold sq; apply map_length). unfold norm'. destruct (Z.eqb_spec n 0) as [E|E].
  - subst n. split; [rewrite map2_length; congruence|]. intros i Hi. rewrite (nth_map2 _ _ _ _ 0 0) by lia. unfold sq. rewrite nth_sq. unfold sqz. rewrite Z.sub_0_r.
    destruct (Z.leb_spec 0 (Z.of_nat i)); [|lia]. destruct (Z.ltb_spec (Z.of_nat i) (Z.of_nat (length wa))); [|lia]. cbn [andb]. now rewrite Nat2Z.id.
  - destruct (Z.ltb_spec n 0) as [G|G].
    + set (a := Z.to_nat (n + L)). assert (La : length (firstn a norm) = a) by (rewrite firstn_length_le; unfold a, L; lia).
      assert (Lb : length (skipn (Z.to_nat (- n)) sq) = a) by (rewrite skipn_length, Hsq; unfold a, L; lia).
      assert (Lc : length (map2 Rplus (firstn a norm) (skipn (Z.to_nat (- n)) sq)) = a) by (rewrite map2_length; congruence).
      split; [rewrite app_length, Lc, skipn_length; unfold a, L; lia|]. intros i Hi. unfold sqz. destruct (Nat.lt_ge_cases i a) as [A|A].
      * rewrite app_nth1 by lia. rewrite (nth_map2 _ _ _ _ 0 0) by lia. rewrite nth_firstn by lia. rewrite nth_skipn. unfold sq. rewrite nth_sq.
        destruct (Z.leb_spec 0 (Z.of_nat i - n)); [|lia]. destruct (Z.ltb_spec (Z.of_nat i - n) (Z.of_nat (length wa))); [|unfold a, L in A; lia]. cbn [andb].
        replace (Z.to_nat (Z.of_nat i - n)) with (Z.to_nat (- n) + i)%nat by lia. reflexivity.
      * rewrite app_nth2, Lc by lia. rewrite nth_skipn. replace (a + (i - a))%nat with i by lia.
        destruct (Z.ltb_spec (Z.of_nat i - n) (Z.of_nat (length wa))); [unfold a, L in A; lia|]. rewrite andb_false_r. ring.
    + set (a := Z.to_nat n). assert (La : length (firstn a norm) = a) by (rewrite firstn_length_le; unfold a; lia).
      assert (Lb : length (firstn (length sq - a) sq) = (length wa - a)%nat) by (rewrite firstn_length_le; lia).
      assert (Lc : length (skipn a norm) = (length wa - a)%nat) by (rewrite skipn_length; lia).
      assert (Ld : length (map2 Rplus (skipn a norm) (firstn (length sq - a) sq)) = (length wa - a)%nat) by (rewrite map2_length; congruence).
      split; [rewrite app_length, La, Ld; unfold a; lia|]. intros i Hi. unfold sqz. destruct (Nat.lt_ge_cases i a) as [A|A].
      * rewrite app_nth1 by lia. rewrite nth_firstn by lia. destruct (Z.leb_spec 0 (Z.of_nat i - n)); [unfold a in A; lia|]. cbn [andb]. ring.
      * rewrite app_nth2, La by lia. rewrite (nth_map2 _ _ _ _ 0 0) by lia. rewrite nth_skipn, nth_firstn by lia. replace (a + (i - a))%nat with i by lia. unfold sq. rewrite nth_sq.
        destruct (Z.leb_spec 0 (Z.of_nat i - n)); [|unfold a in A; lia]. destruct (Z.ltb_spec (Z.of_nat i - n) (Z.of_nat (length wa))); [|lia]. cbn [andb].
        replace (Z.to_nat (Z.of_nat i - n)) with (i - a)%nat by (unfold a; lia). reflexivity.
Qed.
Lemma add_shifts_spec : forall (wa : vec) hop M fuel n norm, (0 < hop)%Z -> length norm = length wa -> (- Z.of_nat (length wa) < n)%Z -> (Z.of_nat (length wa) <= n + Z.of_nat M * hop)%Z ->
  (M = 0%nat \/ n + (Z.of_nat M - 1) * hop < Z.of_nat (length wa))%Z -> (M < fuel)%nat ->
  exists norm', add_shifts fuel hop n wa norm = Some norm' /\ length norm' = length wa /\
    forall i, (i < length wa)%nat -> nth i norm' 0 = nth i norm 0 + bsum M (fun m => sqz wa (Z.of_nat i - n - Z.of_nat m * hop)).
Proof.
  intros wa hop. induction M as [|M IH]; intros fuel n norm Hh Hl Hn HM HM' Hf; (destruct fuel as [|fuel]; [lia|]); cbn [add_shifts].
  - destruct (Z.ltb_spec n (Z.of_nat (length wa))); [lia|]. exists norm. split; auto. split; auto. intros. cbn. ring.
  - destruct HM' as [HM'|HM']; [lia|].
    assert (Hlt : (n < Z.of_nat (length wa))%Z) by nia. destruct (Z.ltb_spec n (Z.of_nat (length wa))); [|lia].
    destruct (shift_step wa norm n Hl) as [Hl' Hs']; [lia|]. cbv zeta. set (norm1 := if (n =? 0)%Z then _ else _) in *. change (length norm1 = length wa) in Hl'.
    destruct (IH fuel (n + hop)%Z norm1) as (norm' & E & L' & HS); auto; try lia.
    exists norm'. split; auto. split; auto. intros i Hi. rewrite HS by auto. unfold norm1. rewrite Hs' by auto. rewrite bsum_shift. rewrite Rplus_assoc. f_equal. f_equal.
    + f_equal. lia.
    + apply bsum_ext. intros m Hm. f_equal. lia.
Qed.
(** The sum of squares over one residue class. *)
Definition class_sum (wa : vec) (hop i : nat) : R := bsum (length wa) (fun k => let w := nth (i mod hop + k * hop) wa 0 in w * w).
Lemma class_sum_periodic : forall wa hop r k, (r < hop)%nat -> class_sum wa hop (r + k * hop) = class_sum wa hop r.
Proof. intros. unfold class_sum. rewrite Nat.mod_add by lia. reflexivity. Qed.
Lemma norm_spec : forall (wa : vec) hop, (0 < hop)%nat -> (0 < length wa)%nat ->
  exists n norm, farthest (length wa + 1) (Z.of_nat hop) (Z.of_nat (length wa)) 0 = Some n /\ add_shifts (2 * length wa + 1) (Z.of_nat hop) n wa (zeros (length wa)) = Some norm /\
    length norm = length wa /\ forall i, (i < length wa)%nat -> nth i norm 0 = class_sum wa hop i.
Proof.
  intros wa hop Hh HL. set (L := length wa) in *.
  pose proof (Nat.div_mod (L - 1) hop ltac:(lia)) as E. pose proof (Nat.mod_upper_bound (L - 1) hop ltac:(lia)) as Hr. set (q := ((L - 1) / hop)%nat) in *. set (r := ((L - 1) mod hop)%nat) in *.
  rewrite (Nat.mul_comm hop q) in E.
  assert (Hq : (q <= L - 1)%nat) by (unfold q; apply Nat.div_le_upper_bound; nia).
  pose proof (farthest_spec hop L (L + 1) 0 Hh HL ltac:(lia)) as EF. fold q in EF. rewrite Nat.mul_0_l in EF. change (- Z.of_nat 0)%Z with 0%Z in EF. rewrite EF by lia. clear EF.
  pose proof (ceil_div_spec L hop Hh) as [A B]. set (c := ceil_div L hop) in *.
  assert (Hc : (c <= L)%nat). { destruct (Nat.le_gt_cases c L); auto. assert ((L + 1) * hop <= c * hop)%nat by (apply Nat.mul_le_mono_r; lia). nia. }
  assert (Hc0 : (0 < c)%nat) by (destruct c; lia).
  destruct (add_shifts_spec wa (Z.of_nat hop) (q + c) (2 * L + 1) (- Z.of_nat (q * hop)) (zeros L)) as (norm & E1 & E2 & E3).
  - lia.
  - apply zeros_length.
  - fold L. lia.
  - fold L. nia.
  - right. fold L. nia.
  - lia.
  - exists (- Z.of_nat (q * hop))%Z, norm. split; auto. split; auto. split; auto. intros i Hi. rewrite E3 by auto. rewrite nth_zeros, Rplus_0_l. unfold class_sum. fold L.
    pose proof (Nat.div_mod i hop ltac:(lia)) as Ei. pose proof (Nat.mod_upper_bound i hop ltac:(lia)) as Hri. set (p := (i / hop)%nat) in *. set (s := (i mod hop)%nat) in *. rewrite (Nat.mul_comm hop p) in Ei.
    assert (Hpc : (p + 1 <= c)%nat). { destruct (Nat.le_gt_cases (p + 1) c); auto. assert (c * hop <= p * hop)%nat by (apply Nat.mul_le_mono_r; lia). lia. }
    set (g := fun k => nth (s + k * hop) wa 0 * nth (s + k * hop) wa 0).
    rewrite bsum_rev. replace (q + c)%nat with ((c - 1 - p) + (q + p + 1))%nat at 1 by lia. rewrite bsum_split. rewrite (bsum_zero_ext (c - 1 - p)).
    2: { intros m Hm. unfold sqz. destruct (Z.leb_spec 0 (Z.of_nat i - - Z.of_nat (q * hop) - Z.of_nat (q + c - 1 - m) * Z.of_nat hop)) as [H|H]; auto. exfalso.
      assert ((q + p + 1) * hop <= (q + c - 1 - m) * hop)%nat by (apply Nat.mul_le_mono_r; lia). nia. }
    rewrite Rplus_0_l. transitivity (bsum (q + p + 1) g).
    + apply bsum_ext. intros m Hm. unfold sqz, g. fold L.
      assert (Ek : (Z.of_nat i - - Z.of_nat (q * hop) - Z.of_nat (q + c - 1 - (c - 1 - p + m)) * Z.of_nat hop = Z.of_nat (s + m * hop))%Z).
      { replace (q + c - 1 - (c - 1 - p + m))%nat with (q + p - m)%nat by lia. assert ((q + p - m) * hop + m * hop = q * hop + p * hop)%nat by (rewrite <- !Nat.mul_add_distr_r; f_equal; lia). lia. }
      rewrite Ek. destruct (Z.leb_spec 0 (Z.of_nat (s + m * hop))); [|lia]. cbn [andb]. rewrite Nat2Z.id. destruct (Z.ltb_spec (Z.of_nat (s + m * hop)) (Z.of_nat L)) as [H1|H1]; auto.
      rewrite nth_overflow by (fold L; lia). ring.
    + apply bsum_support; intros k Hk; unfold g; rewrite nth_overflow; try ring; fold L.
      * assert ((q + 1) * hop <= k * hop)%nat by (apply Nat.mul_le_mono_r; lia). lia.
      * assert (k * 1 <= k * hop)%nat by (apply Nat.mul_le_mono_l; lia). lia.
Qed.
Lemma window_spec : forall (wa : vec) hop ws, (0 < hop)%nat -> (0 < length wa)%nat -> compute_synthesis_window wa hop = Some ws ->
  length ws = length wa /\ (forall i, (i < length wa)%nat -> class_sum wa hop i <> 0 /\ nth i ws 0 = nth i wa 0 / class_sum wa hop i).
Proof.
  intros wa hop ws Hh HL H. unfold compute_synthesis_window in H. destruct (norm_spec wa hop Hh HL) as (n & norm & E1 & E2 & E3 & E4). cbv zeta in H. rewrite E1 in H. cbn [bind] in H. rewrite E2 in H. cbn [bind] in H.
  destruct (forallb _ norm) eqn:EB; [|discriminate]. inversion H; subst ws. split; [now apply map2_length|]. intros i Hi.
  rewrite forallb_forall in EB. assert (Hin : (i < length norm)%nat) by lia. specialize (EB (nth i norm 0) (nth_In _ _ Hin)). destruct (Req_EM_T (nth i norm 0) 0); [discriminate|]. rewrite E4 in n0 by auto. split; auto.
  rewrite (nth_map2 _ _ _ _ 0 0) by lia. now rewrite E4.
Qed.
Lemma window_defined : forall (wa : vec) hop, (0 < hop)%nat -> (0 < length wa)%nat -> (forall i, (i < length wa)%nat -> class_sum wa hop i <> 0) -> exists ws, compute_synthesis_window wa hop = Some ws.
Proof.
  intros wa hop Hh HL H. unfold compute_synthesis_window. destruct (norm_spec wa hop Hh HL) as (n & norm & E1 & E2 & E3 & E4). cbv zeta. rewrite E1. cbn [bind]. rewrite E2. cbn [bind].
  replace (forallb _ norm) with true; [eexists; reflexivity|]. symmetry. apply forallb_forall. intros v Hv. apply (In_nth _ _ 0) in Hv. destruct Hv as (i & Hi & <-). rewrite E4 by lia.
  destruct (Req_EM_T (class_sum wa hop i) 0) as [E|E]; auto. exfalso. apply (H i); auto. lia.
Qed.
Lemma window_partition : forall (wa : vec) hop ws, (0 < hop <= length wa)%nat -> compute_synthesis_window wa hop = Some ws -> partition (length wa) hop (Some wa) (Some ws).
Proof.
  intros wa hop ws Hh H. destruct (window_spec wa hop ws) as [Hl Hs]; auto; try lia. intros i Hi. cbn [win].
  destruct (Hs i) as [Hne _]; [lia|].
  rewrite (bsum_ext _ _ (fun k => (let w := nth (i + k * hop) wa 0 in w * w) * / class_sum wa hop i)).
  - rewrite bsum_scal_r. match goal with |- ?a * _ = 1 => replace a with (class_sum wa hop i) by (unfold class_sum; now rewrite Nat.mod_small by auto) end. now apply Rinv_r.
  - intros k Hk. cbv zeta. destruct (Nat.ltb_spec (i + k * hop) (length wa)) as [L|L].
    + destruct (Hs _ L) as [_ ->]. rewrite class_sum_periodic by auto. unfold Rdiv. ring.
    + rewrite nth_overflow by auto. ring.
Qed.
Lemma nonzero_or_all_zero : forall (wa : vec) hop r, (0 < hop)%nat ->
  (exists k, (r + k * hop < length wa)%nat /\ nth (r + k * hop) wa 0 <> 0) \/ (forall k, (r + k * hop < length wa)%nat -> nth (r + k * hop) wa 0 = 0).
Proof.
  intros wa hop r Hh.
  assert (G : forall n, (exists k, (r + k * hop < length wa)%nat /\ nth (r + k * hop) wa 0 <> 0) \/ (forall k, (k < n)%nat -> (r + k * hop < length wa)%nat -> nth (r + k * hop) wa 0 = 0)).
  { induction n as [|n [IH|IH]]; [right; intros; lia|auto|]. destruct (Nat.lt_ge_cases (r + n * hop) (length wa)) as [L|L].
    - destruct (Req_dec (nth (r + n * hop) wa 0) 0) as [E|E]; [|left; exists n; auto]. right. intros k Hk Hl. destruct (Nat.eq_dec k n); [subst; auto|]. apply IH; auto. lia.
    - right. intros k Hk Hl. destruct (Nat.eq_dec k n); [subst; lia|]. apply IH; auto. lia. }
  destruct (G (length wa)) as [H|H]; auto. right. intros k Hk. apply H; auto. assert (k * 1 <= k * hop)%nat by (apply Nat.mul_le_mono_l; lia). lia.
Qed.

(** ** Padding *)
Definition fronts (os : list setting) : list nat := flat_map (fun o => match o with Front z => [z] | Filter _ _ (Some z) => [z] | _ => [] end) os.
Definition backs (os : list setting) : list nat := flat_map (fun o => match o with Back z => [z] | Filter _ (Some z) _ => [z] | _ => [] end) os.
Definition W (N : nat) (wa ws : vec) (st : stft) (F B : list nat) : Prop :=
  exists wa' ws', s_wa st = Some wa' /\ s_ws st = Some ws' /\ length wa' = (length wa + list_sum F + list_sum B)%nat /\ length ws' = (length ws + list_sum F + list_sum B)%nat /\
    s_N st = N /\ s_zf st = last F 0%nat /\ s_zb st = last B 0%nat /\ s_nfft st = (N + s_zb st + s_zf st)%nat.
Lemma make_buffers_W : forall N wa ws st st' F B, make_buffers st = Some st' -> W N wa ws st F B -> W N wa ws st' F B.
Proof. intros N wa ws st st' F B H HW. unfold make_buffers in H. destruct (s_N st <? s_hop st)%nat; [discriminate|]. inversion H; subst. exact HW. Qed.
Lemma last_snoc : forall (l : list nat) z, last (l ++ [z]) 0%nat = z.
Proof. intros. apply last_last. Qed.
Lemma front_W : forall N wa ws z st st' F B, zero_pad_front z st = Some st' -> W N wa ws st F B -> W N wa ws st' (F ++ [z]) B.
Proof.
  intros N wa ws z st st' F B H (w & v & E1 & E2 & L1 & L2 & C1 & C2 & C3 & C4). unfold zero_pad_front in H. eapply make_buffers_W; [exact H|]. clear H.
  exists (zeros z ++ w), (zeros z ++ v). cbn [s_wa s_ws s_N s_zf s_zb s_nfft]. rewrite E1, E2, last_snoc, !app_length, zeros_length, list_sum_app. cbn [option_map list_sum fold_right]. repeat split; auto; try lia; congruence.
Qed.
Lemma back_W : forall N wa ws z st st' F B, zero_pad_back z st = Some st' -> W N wa ws st F B -> W N wa ws st' F (B ++ [z]).
Proof.
  intros N wa ws z st st' F B H (w & v & E1 & E2 & L1 & L2 & C1 & C2 & C3 & C4). unfold zero_pad_back in H. eapply make_buffers_W; [exact H|]. clear H.
  exists (w ++ zeros z), (v ++ zeros z). cbn [s_wa s_ws s_N s_zf s_zb s_nfft]. rewrite E1, E2, last_snoc, !app_length, zeros_length, list_sum_app. cbn [option_map list_sum fold_right]. repeat split; auto; try lia; congruence.
Qed.
Lemma setting_W : forall N wa ws o st st' F B, apply_setting st o = Some st' -> W N wa ws st F B -> W N wa ws st' (F ++ fronts [o]) (B ++ backs [o]).
Proof.
  intros N wa ws o st st' F B H HW. destruct o as [z|z| |c zb zf]; cbn [apply_setting fronts backs flat_map app] in *; rewrite ?app_nil_r.
  - now apply (front_W N wa ws z st).
  - now apply (back_W N wa ws z st).
  - unfold reset in H. destruct (s_X st); [|discriminate]. inversion H; subst. exact HW.
  - unfold set_filter in H.
    assert (G : exists st1, (match zb with Some k => zero_pad_back k st | None => Some st end) = Some st1 /\ W N wa ws st1 F (B ++ match zb with Some z => [z] | None => [] end)).
    { destruct zb as [k|]; [|exists st; rewrite app_nil_r; auto]. destruct (zero_pad_back k st) as [s|] eqn:E; [|discriminate]. exists s. split; auto. now apply (back_W N wa ws k st). }
    destruct G as (st1 & G1 & HW1). rewrite G1 in H. cbn [bind] in H.
    assert (G : exists st2, (match zf with Some k => zero_pad_front k st1 | None => Some st1 end) = Some st2 /\ W N wa ws st2 (F ++ match zf with Some z => [z] | None => [] end) (B ++ match zb with Some z => [z] | None => [] end)).
    { destruct zf as [k|]; [|exists st1; rewrite app_nil_r; auto]. destruct (zero_pad_front k st1) as [s|] eqn:E; [|discriminate]. exists s. split; auto. now apply (front_W N wa ws k st1). }
    destruct G as (st2 & G2 & HW2). rewrite G2 in H. cbn [bind] in H.
    assert (HH : exists Hc, st' = with_H st2 Hc).
    { destruct c as [h|Hc]; [destruct (_ <? _)%nat; [discriminate|]; destruct (Nat.eqb (s_nfft st2) 0); [discriminate|]; inversion H; eauto|]. destruct (Nat.eqb _ _); [|discriminate]. inversion H; eauto. }
    destruct HH as [Hc ->]. destruct zb, zf; exact HW2.
Qed.
Lemma settings_W : forall N wa ws os st st' F B, apply_settings st os = Some st' -> W N wa ws st F B -> W N wa ws st' (F ++ fronts os) (B ++ backs os).
Proof.
  intros N wa ws. induction os as [|o os IH]; intros st st' F B H HW; cbn [apply_settings foldM] in *.
  - inversion H; subst. cbn. now rewrite !app_nil_r.
  - unfold apply_settings in H. cbn [foldM] in H. destruct (apply_setting st o) as [s|] eqn:E; [|discriminate]. cbn [bind] in H. pose proof (setting_W _ _ _ _ _ _ _ _ E HW) as HW1.
    specialize (IH _ _ _ _ H HW1). unfold fronts, backs in *. cbn [flat_map] in *. rewrite !app_nil_r, <- !app_assoc in IH. exact IH.
Qed.
