(** C150: the short time Fourier transform of several channels. *)
From Coq Require Import List ZArith Lia Reals Lra Bool.
From Verif Require Import Base Vec Sum Cpx DftModel DftProofs StftModel StftProofs StftMultiModel.
Import ListNotations.
Local Open Scope R_scope.

(** ** Specification *)
(** Calls of an object with several channels, calls of one with one channel, and their results. *)
Inductive call_m := MFront (z : nat) | MBack (z : nat) | MReset | MFilter (k : coeffs_m) (zb zf : option nat) | MAnalyse (w : nat) (x : list row) | MProcess (X : option xin_m) | MSynthesise (X : option xin_m).
Inductive call_1 := Set1 (s : setting) | Analyse1 (x : vec) | Process1 (X : option xin) | Synthesise1 (X : option xin).
Inductive result_m := MNothing | MSpectra (X : option (list (list crow))) (caller : option xin_m) | MSignal (x : option (list row)).
Inductive result_1 := Nothing1 | Spectra1 (X : option (list (list C))) (caller : option xin) | Signal1 (x : option vec).
Definition step_m (st : mstft) (k : call_m) : option (mstft * result_m) :=
  let quiet r := option_map (fun st => (st, MNothing)) r in
  match k with
  | MFront z => quiet (zero_pad_front_m z st)
  | MBack z => quiet (zero_pad_back_m z st)
  | MReset => quiet (reset_m st)
  | MFilter k zb zf => quiet (set_filter_m k zb zf st)
  | MAnalyse w x => option_map (fun r => (fst r, MSpectra (Some (snd r)) None)) (analysis_m st w x)
  | MProcess X => option_map (fun r => (fst (fst r), MSpectra (snd (fst r)) (snd r))) (process_m st X)
  | MSynthesise X => option_map (fun r => (fst r, MSignal (snd r))) (synthesis_m st X)
  end.
Definition step_1 (st : stft) (k : call_1) : option (stft * result_1) :=
  match k with
  | Set1 s => option_map (fun st => (st, Nothing1)) (apply_setting st s)
  | Analyse1 x => option_map (fun r => (fst r, Spectra1 (Some (snd r)) None)) (analysis st x)
  | Process1 X => option_map (fun r => (fst (fst r), Spectra1 (snd (fst r)) (snd r))) (process st X)
  | Synthesise1 X => option_map (fun r => (fst r, Signal1 (snd r))) (synthesis st X)
  end.
Fixpoint run {S K R} (step : S -> K -> option (S * R)) (st : S) (ks : list K) : option (list R) :=
  match ks with [] => Some [] | k :: ks => let* r := step st k in let* rs := run step (fst r) ks in Some (snd r :: rs) end.
(** One channel of the arrays; a filter with one column is for all channels. *)
Definition in_column (w c : nat) : nat := if Nat.eqb w 1 then 0%nat else c.
Definition xin_of (c : nat) (X : xin_m) : xin := match X with Two _ X => One (ccol c X) | Three _ Xs => Many (map (ccol c) Xs) end.
Definition coeffs_of (c : nat) (k : coeffs_m) : coeffs :=
  match k with TimeFlat h => Time h | TimeCols w h => Time (col (in_column w c) h) | FreqFlat H => Freq H | FreqCols w H => Freq (ccol (in_column w c) H) end.
Definition call_of (c : nat) (k : call_m) : call_1 :=
  match k with
  | MFront z => Set1 (Front z)
  | MBack z => Set1 (Back z)
  | MReset => Set1 Reset
  | MFilter k zb zf => Set1 (Filter (coeffs_of c k) zb zf)
  | MAnalyse _ x => Analyse1 (col c x)
  | MProcess X => Process1 (option_map (xin_of c) X)
  | MSynthesise X => Synthesise1 (option_map (xin_of c) X)
  end.
Definition result_of (c : nat) (r : result_m) : result_1 :=
  match r with
  | MNothing => Nothing1
  | MSpectra X caller => Spectra1 (option_map (map (ccol c)) X) (option_map (xin_of c) caller)
  | MSignal x => Signal1 (option_map (col c) x)
  end.
(** Arrays with the channels of the object; filters with a column for each channel or one column. *)
Definition xin_fits (ch : nat) (X : xin_m) : Prop := match X with Two w _ => w = ch | Three w _ => w = ch end.
Definition call_fits (ch : nat) (k : call_m) : Prop :=
  match k with
  | MFilter k _ _ => match k with TimeCols w _ | FreqCols w _ => w = ch \/ w = 1%nat | _ => False end
  | MAnalyse w _ => w = ch
  | MProcess (Some X) | MSynthesise (Some X) => xin_fits ch X
  | _ => True
  end.

(** ** Columns *)
Lemma col_len c x : length (col c x) = length x. Proof. apply map_length. Qed.
Lemma col_app c x y : col c (x ++ y) = col c x ++ col c y. Proof. apply map_app. Qed.
Lemma col_firstn c n x : col c (firstn n x) = firstn n (col c x). Proof. unfold col. now rewrite firstn_map. Qed.
Lemma col_skipn c n x : col c (skipn n x) = skipn n (col c x). Proof. unfold col. now rewrite skipn_map. Qed.
Lemma col_zrows c n : col c (zrows n) = zeros n. Proof. unfold col, zrows, zeros. induction n; cbn; congruence. Qed.
Lemma col_seg c a n x : col c (segr a n x) = seg a n (col c x). Proof. unfold segr, seg. now rewrite col_firstn, col_skipn. Qed.
Lemma col_put c a v x : col c (putr a v x) = put a (col c v) (col c x). Proof. unfold putr, put. now rewrite !col_app, col_firstn, col_skipn, col_len. Qed.
Lemma map_map2 {A B D E} (f : D -> E) (g : A -> B -> D) a b : map f (map2 g a b) = map2 (fun x y => f (g x y)) a b.
Proof. revert b. induction a as [|x a IH]; intros [|y b]; cbn; f_equal; auto. Qed.
Lemma map2_mapr {A B D E} (f : B -> D) (g : A -> D -> E) a b : map2 g a (map f b) = map2 (fun x y => g x (f y)) a b.
Proof. revert b. induction a as [|x a IH]; intros [|y b]; cbn; f_equal; auto. Qed.
Lemma map2_mapl {A B D E} (f : A -> D) (g : D -> B -> E) a b : map2 g (map f a) b = map2 (fun x y => g (f x) y) a b.
Proof. revert b. induction a as [|x a IH]; intros [|y b]; cbn; f_equal; auto. Qed.
Lemma col_window c w x : times_window w (col c x) = option_map (col c) (window_rows w x).
Proof.
  destruct w as [w|]; [|reflexivity]. cbn [times_window window_rows]. rewrite col_len. destruct (Nat.eqb (length w) (length x)); [cbn; f_equal; unfold col; now rewrite map_map2, map2_mapr|].
  destruct (Nat.eqb (length w) 1); [|reflexivity]. cbn. f_equal. unfold col. now rewrite !map_map.
Qed.
Lemma window_len w x y : window_rows w x = Some y -> length y = length x.
Proof.
  destruct w as [w|]; cbn; [|congruence]. destruct (Nat.eqb_spec (length w) (length x)); [intro H; injection H as <-; clear - e; revert x e; induction w as [|a w IH]; intros [|r x] e; cbn in e |- *; try discriminate; auto; f_equal; apply IH; lia|]. destruct (Nat.eqb _ 1); [|discriminate]. intro H. injection H as <-. apply map_length.
Qed.
Lemma map_nth_seq {A} (l : list A) d : map (fun k => nth k l d) (seq 0 (length l)) = l.
Proof. apply nth_ext with (d := d) (d' := d); [now rewrite map_length, seq_length|]. intros i Hi. rewrite map_length, seq_length in Hi. rewrite nth_indep with (d' := nth 0 l d) by (rewrite map_length, seq_length; lia). rewrite (map_nth (fun k => nth k l d)). now rewrite seq_nth. Qed.
Lemma ccol_rfft0 c n x : ccol c (rfft0 n x) = rfft n (col c x).
Proof. unfold ccol, rfft0. rewrite map_map. rewrite <- (rfft_length n (col c x)). apply map_nth_seq. Qed.
Lemma col_irfft0 c n X : col c (irfft0 n X) = irfft n (ccol c X).
Proof. unfold col, irfft0. rewrite map_map. rewrite <- (irfft_length n (ccol c X)) at 1. apply map_nth_seq. Qed.
Lemma dft_col c n wa x : dft_analysis n wa (col c x) = option_map (fun r => (col c (fst r), ccol c (snd r))) (dft_analysis_m n wa x).
Proof.
  unfold dft_analysis, dft_analysis_m. rewrite col_len. destruct (n <? 2)%nat; [reflexivity|]. destruct (negb _); [reflexivity|]. rewrite col_window. destruct (window_rows wa x) as [y|]; [|reflexivity]. cbn [option_map bind fst snd]. now rewrite ccol_rfft0.
Qed.
Lemma idft_col c n ws X : dft_synthesis n ws (ccol c X) = option_map (col c) (dft_synthesis_m n ws X).
Proof.
  unfold dft_synthesis, dft_synthesis_m. assert (L : length (ccol c X) = length X) by apply map_length. rewrite L. destruct (n <? 2)%nat; [reflexivity|]. destruct (negb _); [reflexivity|]. rewrite <- col_irfft0. apply col_window.
Qed.

(** One channel of an object. *)
Definition filter_of (c : nat) (H : filt) : list C := match H with Flat H => H | Cols w H => ccol (in_column w c) H end.
Definition channel (c : nat) (st : mstft) : stft :=
  {| s_N := t_N st; s_hop := t_hop st; s_stream := t_stream st; s_fixed := t_fixed st; s_zf := t_zf st; s_zb := t_zb st; s_nfft := t_nfft st; s_wa := t_wa st; s_ws := t_ws st;
    s_buf := col c (t_buf st); s_yp := col c (t_yp st); s_F := t_F st; s_X := option_map (map (ccol c)) (t_X st); s_H := option_map (filter_of c) (t_H st) |}.
Definition sound (st : mstft) : Prop := (2 <= t_ch st)%nat /\ match t_H st with Some (Flat _) => False | Some (Cols w _) => w = t_ch st \/ w = 1%nat | None => True end.
Lemma ccol_zero c n : ccol c (repeat (fun _ => C0) n) = repeat C0 n. Proof. unfold ccol. induction n; cbn; congruence. Qed.
Lemma map_repeat {A B} (f : A -> B) x n : map f (repeat x n) = repeat (f x) n. Proof. induction n; cbn; congruence. Qed.
Lemma make_col c st : make_buffers (channel c st) = option_map (channel c) (make_buffers_m st).
Proof.
  unfold make_buffers, make_buffers_m. cbn [channel s_N s_hop]. destruct (t_N st <? t_hop st)%nat; [reflexivity|]. cbn [option_map]. f_equal. unfold channel, with_buffers. cbn [s_N s_hop s_stream s_fixed s_zf s_zb s_nfft s_wa s_ws s_buf s_yp s_F s_X s_H t_ch t_N t_hop t_stream t_fixed t_zf t_zb t_nfft t_wa t_ws t_buf t_yp t_F t_X t_H].
  rewrite !col_zrows. f_equal. destruct (t_fixed st) as [F|]; [|reflexivity]. cbn [option_map]. now rewrite map_repeat, ccol_zero.
Qed.
Lemma frame_col c st buf fresh : stream_frame (channel c st) (col c buf) (col c fresh) = option_map (fun r => (col c (fst r), ccol c (snd r))) (stream_frame_m st buf fresh).
Proof.
  unfold stream_frame, stream_frame_m. cbn [channel s_zf s_N s_hop s_nfft s_wa]. rewrite <- col_put, dft_col. destruct (dft_analysis_m _ _ _) as [[b X]|]; [|reflexivity]. cbn [option_map bind fst snd]. now rewrite <- col_seg, <- col_put.
Qed.
Lemma frames_col c st F : forall x buf, stream_frames (channel c st) F (col c x) (col c buf) = option_map (fun r => (col c (fst r), map (ccol c) (snd r))) (stream_frames_m st F x buf).
Proof.
  induction F as [|F IH]; intros x buf; [reflexivity|]. cbn [stream_frames stream_frames_m]. change (s_hop (channel c st)) with (t_hop st). rewrite <- col_firstn, frame_col. destruct (stream_frame_m _ _ _) as [[b X]|]; [|reflexivity]. cbn [option_map bind fst snd].
  rewrite <- col_skipn, IH. destruct (stream_frames_m _ _ _ _) as [[b' Xs]|]; reflexivity.
Qed.
(** ** The strided frames *)
Lemma strided_len st x : length (strided st x) = (t_zf st + (t_N st + t_zb st))%nat.
Proof. unfold strided, zrows. rewrite !app_length, map_length, seq_length, !repeat_length. lia. Qed.
Lemma seg_nth a n (x : vec) : (a + n <= length x)%nat -> map (fun i => nth (i + a) x 0) (seq 0 n) = seg a n x.
Proof.
  intro H. unfold seg. assert (L : length (firstn n (skipn a x)) = n) by (rewrite firstn_length, skipn_length; lia).
  apply nth_ext with (d := 0) (d' := 0); [rewrite map_length, seq_length; lia|]. intros i Hi. rewrite map_length, seq_length in Hi.
  rewrite nth_indep with (d' := nth (0 + a) x 0) by (rewrite map_length, seq_length; lia). rewrite (map_nth (fun i => nth (i + a) x 0)). rewrite seq_nth by lia. cbn [plus].
  rewrite nth_firstn by lia. rewrite nth_skipn. f_equal. lia.
Qed.
Lemma strided_col k st (x : vec) : (k * t_hop st + t_N st <= length x)%nat -> col k (strided st x) = zeros (t_zf st) ++ seg (k * t_hop st) (t_N st) x ++ zeros (t_zb st).
Proof. intro H. unfold strided. rewrite !col_app, !col_zrows. do 2 f_equal. rewrite <- seg_nth by exact H. unfold col. now rewrite map_map. Qed.
Lemma mapM_all {A B} (f : A -> option B) (g : A -> B) l : (forall a, In a l -> f a = Some (g a)) -> mapM f l = Some (map g l).
Proof. induction l as [|a l IH]; intro H; [reflexivity|]. cbn [mapM map]. rewrite (H a) by now left. cbn [bind]. rewrite IH by (intros; apply H; now right). reflexivity. Qed.
Lemma channel_frames_mono c st F (x : vec) : (0 < F)%nat -> length x = ((F - 1) * t_hop st + t_N st)%nat -> strided_frames (channel c st) F x = channel_frames st F x.
Proof.
  intros HF L. unfold strided_frames, channel_frames. cbn [channel s_nfft s_wa s_zf s_zb s_hop s_N].
  assert (E : forall k, (k < F)%nat -> zeros (t_zf st) ++ seg (k * t_hop st) (t_N st) x ++ zeros (t_zb st) = col k (strided st x)). { intros k Hk. rewrite strided_col; [reflexivity|]. nia. }
  destruct (Nat.eqb_spec F 1) as [->|N1].
  - cbn [seq mapM]. rewrite (E 0%nat) by lia. destruct (dft_analysis _ _ _); reflexivity.
  - destruct (dft_analysis_m (t_nfft st) (t_wa st) (strided st x)) as [[b Y]|] eqn:D; cbn [bind snd].
    + apply mapM_all. intros k Hk. apply in_seq in Hk. rewrite E by lia. rewrite dft_col, D. reflexivity.
    + destruct F as [|F]; [lia|]. cbn [seq mapM]. rewrite (E 0%nat) by lia. now rewrite dft_col, D.
Qed.
Lemma analysis_some_len n wa (x y : list row) : length x = length y -> dft_analysis_m n wa x = None -> dft_analysis_m n wa y = None.
Proof.
  unfold dft_analysis_m. intro L. rewrite L. destruct (n <? 2)%nat; [reflexivity|]. destruct (negb _); [reflexivity|]. destruct wa as [w|]; cbn [window_rows]; [|discriminate]. rewrite L. destruct (Nat.eqb (length w) (length y)); [discriminate|]. destruct (Nat.eqb (length w) 1); [discriminate|reflexivity].
Qed.
Lemma channel_frames_fail st F x y : channel_frames st F x = None -> channel_frames st F y = None.
Proof.
  unfold channel_frames. assert (L : length (strided st x) = length (strided st y)) by now rewrite !strided_len. pose proof (analysis_some_len (t_nfft st) (t_wa st) _ _ L) as A.
  rewrite !dft_col. destruct (dft_analysis_m _ _ (strided st x)) as [r|].
  - destruct (Nat.eqb F 1); discriminate.
  - intros _. rewrite A by reflexivity. now destruct (Nat.eqb F 1).
Qed.
Lemma channel_frames_shape st F x X : channel_frames st F x = Some X -> length X = F /\ forall f, (f < F)%nat -> length (nth f X []) = nbin_m st.
Proof.
  unfold channel_frames. rewrite dft_col. unfold dft_analysis_m. destruct (t_nfft st <? 2)%nat; [now destruct (Nat.eqb F 1)|]. destruct (negb _); [now destruct (Nat.eqb F 1)|]. destruct (window_rows _ _) as [y|]; [|now destruct (Nat.eqb F 1)]. cbn [bind option_map fst snd].
  assert (Q : forall k, length (ccol k (rfft0 (t_nfft st) y)) = nbin_m st) by (intro k; unfold ccol, rfft0; now rewrite !map_length, seq_length).
  destruct (Nat.eqb_spec F 1) as [->|N1]; intro H; injection H as <-.
  - split; [reflexivity|]. intros [|f] Hf; [|lia]. apply Q.
  - rewrite map_length, seq_length. split; [reflexivity|]. intros f Hf. rewrite nth_indep with (d' := ccol 0 (rfft0 (t_nfft st) y)) by (rewrite map_length, seq_length; lia). rewrite (map_nth (fun k => ccol k (rfft0 (t_nfft st) y))). apply Q.
Qed.
Lemma strided_frames_col c st F x : (c < t_ch st)%nat -> (0 < F)%nat -> length x = ((F - 1) * t_hop st + t_N st)%nat ->
  strided_frames (channel c st) F (col c x) = option_map (map (ccol c)) (strided_frames_m st F x).
Proof.
  intros Hc HF L. rewrite channel_frames_mono by (rewrite ?col_len; auto). unfold strided_frames_m. destruct (channel_frames st F (col c x)) as [Xc|] eqn:E.
  - set (g := fun k => match channel_frames st F (col k x) with Some X => X | None => [] end).
    assert (M : mapM (fun k => channel_frames st F (col k x)) (seq 0 (t_ch st)) = Some (map g (seq 0 (t_ch st)))).
    { apply mapM_all. intros k _. unfold g. destruct (channel_frames st F (col k x)) eqn:K; [reflexivity|]. apply channel_frames_fail with (y := col c x) in K. congruence. }
    rewrite M. cbn [bind option_map]. f_equal. destruct (channel_frames_shape _ _ _ _ E) as [S1 S2].
    rewrite map_map. rewrite <- (map_nth_seq Xc []) at 1. rewrite S1. apply map_ext_in. intros f Hf. apply in_seq in Hf. unfold ccol. rewrite map_map. rewrite <- (map_nth_seq (nth f Xc []) C0) at 1. rewrite S2 by lia. apply map_ext. intro k. do 2 f_equal.
    rewrite nth_indep with (d' := g 0%nat) by (rewrite map_length, seq_length; lia). rewrite (map_nth g), seq_nth by lia. cbn [plus]. unfold g. now rewrite E.
  - destruct (t_ch st) as [|ch] eqn:Ec; [lia|]. cbn [seq mapM]. rewrite (channel_frames_fail _ _ _ (col 0 x) E). reflexivity.
Qed.

(** ** One call *)
Lemma channel_with c st buf yp F X : channel c (with_buffers st buf yp F X) = with_analysis (channel c st) (col c buf) (col c yp) F (option_map (map (ccol c)) X).
Proof. reflexivity. Qed.
Lemma analysis_col c st w x : (c < t_ch st)%nat -> w = t_ch st ->
  analysis (channel c st) (col c x) = option_map (fun r => (channel c (fst r), map (ccol c) (snd r))) (analysis_m st w x).
Proof.
  intros Hc ->. unfold analysis, analysis_m. rewrite Nat.eqb_refl. cbn [negb]. cbn [channel s_hop s_stream s_fixed s_N s_buf s_yp s_X]. rewrite col_len. destruct (Nat.eqb_spec (t_hop st) 0) as [|Hh]; [reflexivity|]. destruct (t_stream st).
  - assert (A : forall F y, (let* r := stream_frames (channel c st) F (col c y) (col c (t_buf st)) in let '(buf, Xs) := r in
        let X := match t_fixed st, F with Some _, O => option_map (map (ccol c)) (t_X st) | _, _ => Some Xs end in
        let* X' := X in Some (with_analysis (channel c st) buf (col c (t_yp st)) F X, X')) =
      option_map (fun r => (channel c (fst r), map (ccol c) (snd r))) (let* r := stream_frames_m st F y (t_buf st) in let '(buf, Xs) := r in
        let X := match t_fixed st, F with Some _, O => t_X st | _, _ => Some Xs end in
        let* X' := X in Some (with_buffers st buf (t_yp st) F X, X'))).
    { intros F y. rewrite frames_col. destruct (stream_frames_m _ _ _ _) as [[b Xs]|]; [|reflexivity]. cbn [option_map bind fst snd]. destruct (t_fixed st), F; try (cbn [bind option_map fst snd]; now rewrite channel_with). destruct (t_X st); [|reflexivity]. cbn [bind option_map fst snd]. now rewrite channel_with. }
    destruct (t_fixed st) as [F|] eqn:Ef.
    + destruct (Nat.eqb (length x) (F * t_hop st)); [|reflexivity]. cbn [bind]. apply A.
    + cbn [bind]. rewrite <- col_zrows with (c := c), <- col_app. apply A.
  - assert (A : forall F y, (0 < F)%nat -> length y = ((F - 1) * t_hop st + t_N st)%nat ->
      (let* Xs := strided_frames (channel c st) F (col c y) in Some (with_analysis (channel c st) (zeros (length (col c (t_buf st)))) (zeros (length (col c (t_yp st)))) F (Some Xs), Xs)) =
      option_map (fun r => (channel c (fst r), map (ccol c) (snd r))) (let* Xs := strided_frames_m st F y in Some (with_buffers st (zrows (length (t_buf st))) (zrows (length (t_yp st))) F (Some Xs), Xs))).
    { intros F y HF L. rewrite strided_frames_col by assumption. destruct (strided_frames_m _ _ _) as [Xs|]; [|reflexivity]. cbn [option_map bind fst snd]. rewrite channel_with, !col_zrows, !col_len. reflexivity. }
    destruct (t_fixed st) as [[|F]|] eqn:Ef.
    + reflexivity.
    + destruct (Nat.eqb_spec (length x) (t_hop st * (S F - 1) + t_N st)) as [L|]; [|reflexivity]. cbn [bind]. apply A; lia.
    + destruct (Nat.ltb_spec (length x) (t_N st)).
      * cbn [bind]. rewrite <- col_zrows with (c := c), <- col_app. apply A; [lia|]. rewrite app_length. unfold zrows. rewrite repeat_length. lia.
      * cbn [bind]. rewrite <- col_zrows with (c := c), <- col_app. apply A; [lia|]. rewrite app_length. unfold zrows. rewrite repeat_length. set (q := ((length x - t_N st + t_hop st - 1) / t_hop st)%nat).
        assert (Hq : (length x - t_N st <= q * t_hop st)%nat). { pose proof (Nat.div_mod (length x - t_N st + t_hop st - 1) (t_hop st) Hh) as D. pose proof (Nat.mod_upper_bound (length x - t_N st + t_hop st - 1) (t_hop st) Hh). fold q in D. nia. }
        replace (q + 1 - 1)%nat with q by lia. lia.
Qed.
Lemma check_col c st X : xin_fits (t_ch st) X -> check_input (channel c st) (xin_of c X) = option_map (channel c) (check_input_m st X).
Proof.
  intro Hf. unfold check_input, check_input_m.
  assert (A : forall F Xs, (match s_fixed (channel c st) with Some F0 => if Nat.eqb F F0 then Some (with_analysis (channel c st) (s_buf (channel c st)) (s_yp (channel c st)) (s_F (channel c st)) (Some (map (ccol c) Xs))) else None | None => Some (with_analysis (channel c st) (s_buf (channel c st)) (s_yp (channel c st)) F (Some (map (ccol c) Xs))) end) =
    option_map (channel c) (match t_fixed st with Some F0 => if Nat.eqb F F0 then Some (with_buffers st (t_buf st) (t_yp st) (t_F st) (Some Xs)) else None | None => Some (with_buffers st (t_buf st) (t_yp st) F (Some Xs)) end)).
  { intros F Xs. cbn [channel s_fixed]. destruct (t_fixed st) as [F0|]; [destruct (Nat.eqb F F0)|]; reflexivity. }
  change (nbin (channel c st)) with (nbin_m st).
  destruct X as [w X|w Xs]; cbn [xin_fits] in Hf; subst w; cbn [xin_of]; rewrite Nat.eqb_refl; cbn [andb negb].
  - assert (L : length (ccol c X) = length X) by apply map_length. rewrite L. destruct (Nat.eqb (length X) (nbin_m st)); [|reflexivity]. cbn [bind]. apply (A 1%nat [X]).
  - rewrite map_length. destruct (Nat.eqb (length Xs) 1).
    + destruct (Nat.eqb 1 (nbin_m st)); [|reflexivity]. cbn [bind]. apply A.
    + assert (E : forallb (fun X => Nat.eqb (length X) (nbin_m st)) (map (ccol c) Xs) = forallb (fun X => Nat.eqb (length X) (nbin_m st)) Xs). { clear. induction Xs as [|X Xs IH]; [reflexivity|]. cbn [map forallb]. rewrite IH. f_equal. unfold ccol. now rewrite map_length. }
      rewrite E. destruct (forallb _ Xs); [|reflexivity]. cbn [bind]. apply A.
Qed.
Lemma multiply_col c ch X w H : (2 <= ch)%nat -> w = ch \/ w = 1%nat -> multiply (ccol c X) (filter_of c (Cols w H)) = option_map (ccol c) (multiply_m ch X (Cols w H)).
Proof.
  intros Hch Hw. unfold multiply, multiply_m. cbn [filter_of]. assert (LL : forall d (Y : list crow), length (ccol d Y) = length Y) by (intros; apply map_length). rewrite !LL. unfold ccol. destruct (Nat.eqb (length X) (length H)); [|reflexivity]. unfold in_column.
  destruct Hw as [->| ->].
  - rewrite Nat.eqb_refl. destruct (Nat.eqb_spec ch 1); [lia|]. cbn [option_map]. f_equal. now rewrite map_map2, map2_mapr, map2_mapl.
  - destruct (Nat.eqb_spec 1 ch); [lia|]. cbn [Nat.eqb option_map]. f_equal. now rewrite map_map2, map2_mapr, map2_mapl.
Qed.
Lemma mapM_opt {A B D E} (f : A -> D) (g : B -> E) (m : D -> option E) (mm : A -> option B) l : (forall a, In a l -> m (f a) = option_map g (mm a)) -> mapM m (map f l) = option_map (map g) (mapM mm l).
Proof.
  induction l as [|a l IH]; intro H; [reflexivity|]. cbn [map mapM]. rewrite (H a) by now left. destruct (mm a); [|reflexivity]. cbn [option_map bind]. rewrite IH by (intros; apply H; now right). destruct (mapM mm l); reflexivity.
Qed.
Lemma check_keeps st X st' : check_input_m st X = Some st' -> t_ch st' = t_ch st /\ t_H st' = t_H st.
Proof.
  unfold check_input_m. intro H. match type of H with bind ?e _ = _ => destruct e as [[F Xs]|]; [|discriminate] end. cbn [bind] in H. destruct (t_fixed st); [destruct (Nat.eqb F n); [|discriminate]|]; injection H as <-; auto.
Qed.
Lemma process_col c st X : sound st -> match X with Some X => xin_fits (t_ch st) X | None => True end ->
  process (channel c st) (option_map (xin_of c) X) = option_map (fun r => (channel c (fst (fst r)), option_map (map (ccol c)) (snd (fst r)), option_map (xin_of c) (snd r))) (process_m st X).
Proof.
  intros [Hch Hs] Hf. unfold process, process_m. cbn [channel s_H]. destruct (t_H st) as [H|] eqn:EH; [|reflexivity]. cbn [option_map]. destruct H as [H|w H]; [contradiction|].
  assert (A : forall st1, t_ch st1 = t_ch st -> t_fixed st1 = t_fixed st1 ->
    match s_F (channel c st1) with
    | O => Some (channel c st1, s_X (channel c st1), option_map (xin_of c) X)
    | _ => let* Xs := s_X (channel c st1) in let* Ys := mapM (fun X => multiply X (filter_of c (Cols w H))) Xs in
        let caller := match option_map (xin_of c) X, s_fixed (channel c st1) with Some (One _), None => Some (One (nth 0 Ys [])) | Some (Many _), None => Some (Many Ys) | _, _ => option_map (xin_of c) X end in
        Some (with_analysis (channel c st1) (s_buf (channel c st1)) (s_yp (channel c st1)) (s_F (channel c st1)) (Some Ys), Some Ys, caller)
    end = option_map (fun r => (channel c (fst (fst r)), option_map (map (ccol c)) (snd (fst r)), option_map (xin_of c) (snd r)))
    match t_F st1 with
    | O => Some (st1, t_X st1, X)
    | _ => let* Xs := t_X st1 in let* Ys := mapM (fun X => multiply_m (t_ch st1) X (Cols w H)) Xs in
        let caller := match X, t_fixed st1 with Some (Two w _), None => Some (Two w (nth 0 Ys [])) | Some (Three w _), None => Some (Three w Ys) | _, _ => X end in
        Some (with_buffers st1 (t_buf st1) (t_yp st1) (t_F st1) (Some Ys), Some Ys, caller)
    end).
  { intros st1 E1 _. cbn [channel s_F s_X s_fixed s_buf s_yp]. destruct (t_F st1) as [|F]; [reflexivity|]. destruct (t_X st1) as [Xs|]; [|reflexivity]. cbn [option_map bind].
    rewrite mapM_opt with (f := ccol c) (g := ccol c) (mm := fun X => multiply_m (t_ch st1) X (Cols w H)) by (intros; rewrite E1; apply multiply_col; auto).
    destruct (mapM _ Xs) as [Ys|]; [|reflexivity]. cbn [option_map bind fst snd]. rewrite channel_with. cbn [option_map]. f_equal. f_equal. destruct X as [[w' X|w' Xs']|]; cbn [option_map xin_of]; [| |reflexivity]; destruct (t_fixed st1); cbn [option_map xin_of]; try reflexivity.
    do 2 f_equal. symmetry. change (@nil C) with (ccol c []). now rewrite map_nth. }
  destruct X as [X|]; cbn [option_map].
  - rewrite check_col by exact Hf. destruct (check_input_m st X) as [st1|] eqn:Ec; [|reflexivity]. cbn [option_map bind]. apply A; [|reflexivity]. now apply check_keeps in Ec.
  - cbn [bind]. now apply A.
Qed.
Lemma col_radd c x y : col c (map2 radd x y) = map2 Rplus (col c x) (col c y).
Proof. unfold col. now rewrite map_map2, map2_mapr, map2_mapl. Qed.
Lemma ola_col c hop n yp x : overlap_and_add hop n (col c yp) (col c x) = (col c (fst (overlap_and_add_m hop n yp x)), col c (snd (overlap_and_add_m hop n yp x))).
Proof.
  unfold overlap_and_add, overlap_and_add_m. destruct (Nat.eqb n 0); [cbn [fst snd]; now rewrite col_firstn|]. cbn [fst snd]. rewrite !col_app, !col_radd, col_app, col_zrows, !col_skipn, !col_firstn, col_len. reflexivity.
Qed.
Lemma synth_col c st Xs : forall yp, synth_frames (channel c st) (map (ccol c) Xs) (col c yp) = option_map (fun r => (col c (fst r), col c (snd r))) (synth_frames_m st Xs yp).
Proof.
  induction Xs as [|X Xs IH]; intro yp; [reflexivity|]. cbn [map synth_frames synth_frames_m]. change (s_nfft (channel c st)) with (t_nfft st). change (s_ws (channel c st)) with (t_ws st). change (s_hop (channel c st)) with (t_hop st). rewrite idft_col. destruct (dft_synthesis_m _ _ _) as [x|]; [|reflexivity]. cbn [option_map bind].
  rewrite ola_col. destruct (overlap_and_add_m _ _ yp x) as [o y']. cbn [fst snd]. rewrite IH. destruct (synth_frames_m st Xs y') as [[os y'']|]; [|reflexivity]. cbn [option_map bind fst snd]. now rewrite col_app.
Qed.
Lemma synthesis_col c st X : match X with Some X => xin_fits (t_ch st) X | None => True end ->
  synthesis (channel c st) (option_map (xin_of c) X) = option_map (fun r => (channel c (fst r), option_map (col c) (snd r))) (synthesis_m st X).
Proof.
  intro Hf. unfold synthesis, synthesis_m.
  assert (A : forall st1, match s_F (channel c st1) with
    | O => Some (channel c st1, None)
    | S _ as F => let* Xs := match s_X (channel c st1) with Some Xs => Some Xs | None => if Nat.eqb F 1 then Some [repeat C0 (nbin (channel c st1))] else None end in
         let* r := synth_frames (channel c st1) Xs (s_yp (channel c st1)) in let '(out, yp) := r in Some (with_analysis (channel c st1) (s_buf (channel c st1)) yp F (s_X (channel c st1)), Some out)
    end = option_map (fun r => (channel c (fst r), option_map (col c) (snd r))) match t_F st1 with
    | O => Some (st1, None)
    | S _ as F => let* Xs := match t_X st1 with Some Xs => Some Xs | None => if Nat.eqb F 1 then Some [repeat (fun _ => C0) (nbin_m st1)] else None end in
         let* r := synth_frames_m st1 Xs (t_yp st1) in let '(out, yp) := r in Some (with_buffers st1 (t_buf st1) yp F (t_X st1), Some out)
    end).
  { intro st1. change (s_F (channel c st1)) with (t_F st1). destruct (t_F st1) as [|F]; [reflexivity|]. change (s_X (channel c st1)) with (option_map (map (ccol c)) (t_X st1)). change (s_yp (channel c st1)) with (col c (t_yp st1)).
    assert (B : forall Xs, (let* r := synth_frames (channel c st1) (map (ccol c) Xs) (col c (t_yp st1)) in let '(out, yp) := r in Some (with_analysis (channel c st1) (s_buf (channel c st1)) yp (S F) (option_map (map (ccol c)) (t_X st1)), Some out)) =
      option_map (fun r => (channel c (fst r), option_map (col c) (snd r))) (let* r := synth_frames_m st1 Xs (t_yp st1) in let '(out, yp) := r in Some (with_buffers st1 (t_buf st1) yp (S F) (t_X st1), Some out))).
    { intro Xs. rewrite synth_col. destruct (synth_frames_m st1 Xs (t_yp st1)) as [[o y]|]; [|reflexivity]. reflexivity. }
    destruct (t_X st1) as [Xs|] eqn:EX; cbn [option_map bind].
    - specialize (B Xs). cbn [option_map] in B. exact B.
    - destruct (Nat.eqb (S F) 1); [|reflexivity]. cbn [bind]. specialize (B [repeat (fun _ => C0) (nbin_m st1)]). cbn [map option_map] in B. rewrite ccol_zero in B. exact B. }
  destruct X as [X|]; cbn [option_map].
  - rewrite check_col by exact Hf. destruct (check_input_m st X) as [st1|]; [|reflexivity]. cbn [option_map bind]. apply A.
  - cbn [bind]. apply A.
Qed.
Lemma front_col c z st : zero_pad_front z (channel c st) = option_map (channel c) (zero_pad_front_m z st).
Proof. unfold zero_pad_front, zero_pad_front_m. rewrite <- make_col. reflexivity. Qed.
Lemma back_col c z st : zero_pad_back z (channel c st) = option_map (channel c) (zero_pad_back_m z st).
Proof. unfold zero_pad_back, zero_pad_back_m. rewrite <- make_col. reflexivity. Qed.
Lemma reset_col c st : reset (channel c st) = option_map (channel c) (reset_m st).
Proof.
  unfold reset, reset_m. cbn [channel s_X]. destruct (t_X st) as [X|]; [|reflexivity]. cbn [option_map bind]. rewrite channel_with. cbn [option_map]. unfold with_analysis, channel. cbn [s_N s_hop s_stream s_fixed s_zf s_zb s_nfft s_wa s_ws s_buf s_yp s_F s_H]. rewrite !col_zrows, !col_len. do 3 f_equal.
  rewrite !map_map. apply map_ext. intro Y. unfold ccol. now rewrite !map_map.
Qed.
Lemma filter_col c k zb zf st : match k with TimeCols _ _ | FreqCols _ _ => True | _ => False end -> set_filter (coeffs_of c k) zb zf (channel c st) = option_map (channel c) (set_filter_m k zb zf st).
Proof.
  intro Hk. unfold set_filter, set_filter_m.
  assert (E1 : match zb with Some z => zero_pad_back z (channel c st) | None => Some (channel c st) end = option_map (channel c) match zb with Some z => zero_pad_back_m z st | None => Some st end) by (destruct zb; [apply back_col|reflexivity]). rewrite E1. clear E1.
  destruct (match zb with Some z => zero_pad_back_m z st | None => Some st end) as [st1|]; [|reflexivity]. cbn [option_map bind].
  assert (E1 : match zf with Some z => zero_pad_front z (channel c st1) | None => Some (channel c st1) end = option_map (channel c) match zf with Some z => zero_pad_front_m z st1 | None => Some st1 end) by (destruct zf; [apply front_col|reflexivity]). rewrite E1. clear E1.
  destruct (match zf with Some z => zero_pad_front_m z st1 | None => Some st1 end) as [st2|]; [|reflexivity]. cbn [option_map bind].
  destruct k as [h|w h|H|w H]; [contradiction| |contradiction|]; cbn [coeffs_of].
  - rewrite col_len. change (s_nfft (channel c st2)) with (t_nfft st2). change (s_N (channel c st2)) with (t_N st2). destruct (_ <? _)%nat; [reflexivity|]. destruct (Nat.eqb (t_nfft st2) 0); [reflexivity|]. cbn [option_map]. f_equal. unfold with_H, with_filter, channel. cbn [s_N s_hop s_stream s_fixed s_zf s_zb s_nfft s_wa s_ws s_buf s_yp s_F s_X s_H t_ch t_N t_hop t_stream t_fixed t_zf t_zb t_nfft t_wa t_ws t_buf t_yp t_F t_X t_H option_map filter_of]. now rewrite ccol_rfft0.
  - assert (LL : forall d (Y : list crow), length (ccol d Y) = length Y) by (intros; apply map_length). rewrite LL. change (nbin (channel c st2)) with (nbin_m st2). destruct (Nat.eqb _ _); reflexivity.
Qed.

(** What does not change. *)
Lemma make_keeps st st' : make_buffers_m st = Some st' -> t_ch st' = t_ch st /\ t_H st' = t_H st.
Proof. unfold make_buffers_m. destruct (_ <? _)%nat; [discriminate|]. intro H. injection H as <-. auto. Qed.
Lemma step_sound st k r : sound st -> call_fits (t_ch st) k -> step_m st k = Some r -> sound (fst r) /\ t_ch (fst r) = t_ch st.
Proof.
  intros Hs Hk H.
  assert (Q : forall st1, t_ch st1 = t_ch st -> t_H st1 = t_H st -> sound st1 /\ t_ch st1 = t_ch st) by (intros st1 A B; unfold sound in *; rewrite A, B; auto).
  destruct k as [z|z| |k zb zf|w x|X|X]; cbn [step_m] in H.
  - destruct (zero_pad_front_m z st) as [st1|] eqn:E; [|discriminate]. injection H as <-. apply make_keeps in E. cbn [fst]. apply Q; apply E.
  - destruct (zero_pad_back_m z st) as [st1|] eqn:E; [|discriminate]. injection H as <-. apply make_keeps in E. cbn [fst]. apply Q; apply E.
  - unfold reset_m in H. destruct (t_X st); [|discriminate]. injection H as <-. now apply Q.
  - destruct (set_filter_m k zb zf st) as [st3|] eqn:E; [|discriminate]. injection H as <-. cbn [fst]. unfold set_filter_m in E.
    destruct (match zb with Some z => zero_pad_back_m z st | None => Some st end) as [st1|] eqn:E1; [|discriminate]. assert (A1 : t_ch st1 = t_ch st) by (destruct zb; [apply make_keeps in E1; apply E1|congruence]). cbn [bind] in E.
    destruct (match zf with Some z => zero_pad_front_m z st1 | None => Some st1 end) as [st2|] eqn:E2; [|discriminate]. assert (A2 : t_ch st2 = t_ch st) by (destruct zf; [apply make_keeps in E2; cbn in E2; destruct E2; congruence|congruence]). cbn [bind] in E.
    assert (W : forall F, with_filter st2 F = st3 -> (match F with Flat _ => False | Cols w _ => w = t_ch st \/ w = 1%nat end) -> sound st3 /\ t_ch st3 = t_ch st). { intros F <- V. unfold sound. cbn. rewrite A2. destruct Hs as [Hs _]. auto. }
    destruct k as [h|w h|F|w F]; cbn [call_fits] in Hk; try contradiction.
    + destruct (_ <? _)%nat; [discriminate|]. destruct (Nat.eqb _ 0); [discriminate|]. injection E as E. eapply W; [exact E|exact Hk].
    + destruct (Nat.eqb _ _); [|discriminate]. injection E as E. eapply W; [exact E|exact Hk].
  - destruct (analysis_m st w x) as [[st1 X]|] eqn:E; [|discriminate]. injection H as <-. cbn [fst]. unfold analysis_m in E. destruct (negb _); [discriminate|]. destruct (Nat.eqb (t_hop st) 0); [discriminate|].
    destruct (t_stream st).
    + match type of E with bind ?e _ = _ => destruct e as [[F y]|]; [|discriminate] end. cbn [bind] in E. destruct (stream_frames_m _ _ _ _) as [[b Xs]|]; [|discriminate]. cbn [bind] in E. match type of E with bind ?e _ = _ => destruct e as [X'|]; [|discriminate] end. cbn [bind] in E.
      match type of E with Some (?a, _) = _ => assert (S0 : st1 = a) by congruence end. subst st1. now apply Q.
    + match type of E with bind ?e _ = _ => destruct e as [[F y]|]; [|discriminate] end. cbn [bind] in E. destruct (strided_frames_m _ _ _) as [Xs|]; [|discriminate]. cbn [bind] in E. match type of E with Some (?a, _) = _ => assert (S0 : st1 = a) by congruence end. subst st1. now apply Q.
  - destruct (process_m st X) as [[[st1 Y] Z]|] eqn:E; [|discriminate]. injection H as <-. cbn [fst]. unfold process_m in E. destruct (t_H st) as [H|] eqn:EH; [|apply Q; congruence].
    destruct (match X with Some X => check_input_m st X | None => Some st end) as [st2|] eqn:E2; [|discriminate]. cbn [bind] in E. assert (A : t_ch st2 = t_ch st /\ t_H st2 = t_H st) by (destruct X; [now apply check_keeps in E2|injection E2 as <-; auto]). rewrite EH in A. destruct A as [A1 A2].
    destruct (t_F st2); [apply Q; congruence|]. destruct (t_X st2) as [Xs|]; [|discriminate]. cbn [bind] in E. destruct (mapM _ Xs); [|discriminate]. cbn [bind] in E. match type of E with Some (?a, _, _) = _ => assert (S0 : st1 = a) by congruence end. subst st1. apply Q; [exact A1|cbn; congruence].
  - destruct (synthesis_m st X) as [[st1 Y]|] eqn:E; [|discriminate]. injection H as <-. cbn [fst]. unfold synthesis_m in E.
    destruct (match X with Some X => check_input_m st X | None => Some st end) as [st2|] eqn:E2; [|discriminate]. cbn [bind] in E. assert (A : t_ch st2 = t_ch st /\ t_H st2 = t_H st) by (destruct X; [now apply check_keeps in E2|injection E2 as <-; auto]). destruct A as [A1 A2].
    destruct (t_F st2) as [|F]; [apply Q; congruence|]. match type of E with bind ?e _ = _ => destruct e as [Xs|]; [|discriminate] end. cbn [bind] in E. destruct (synth_frames_m _ _ _) as [[o y]|]; [|discriminate]. cbn [bind] in E. match type of E with Some (?a, _) = _ => assert (S0 : st1 = a) by congruence end. subst st1. now apply Q.
Qed.
Lemma step_col c st k : sound st -> (c < t_ch st)%nat -> call_fits (t_ch st) k -> step_1 (channel c st) (call_of c k) = option_map (fun r => (channel c (fst r), result_of c (snd r))) (step_m st k).
Proof.
  intros Hs Hc Hk. destruct k as [z|z| |k zb zf|w x|X|X]; cbn [step_m step_1 call_of apply_setting].
  - rewrite front_col. now destruct (zero_pad_front_m z st).
  - rewrite back_col. now destruct (zero_pad_back_m z st).
  - rewrite reset_col. now destruct (reset_m st).
  - rewrite filter_col by (destruct k; auto; exact Hk). now destruct (set_filter_m k zb zf st).
  - rewrite analysis_col with (w := w) by assumption. now destruct (analysis_m st w x) as [[? ?]|].
  - rewrite process_col; [|assumption|destruct X; [exact Hk|exact I]]. now destruct (process_m st X) as [[[? ?] ?]|].
  - rewrite synthesis_col; [|destruct X; [exact Hk|exact I]]. now destruct (synthesis_m st X) as [[? ?]|].
Qed.

(** ** Theorems *)
(** Any sequence of calls on an object with several channels raises exactly when the same calls on a mono object with one channel of
    the arrays do, and otherwise its results are, channel by channel, those of the mono object. *)
Theorem C150_channels : forall ch N hop wa ws streaming num_frames ks c, (2 <= ch)%nat -> (c < ch)%nat -> Forall (call_fits ch) ks ->
  (let* st := stft_new N hop wa ws streaming num_frames in run step_1 st (map (call_of c) ks)) =
  option_map (map (result_of c)) (let* st := stft_new_m ch N hop wa ws streaming num_frames in run step_m st ks).
Proof.
  intros ch N hop wa ws streaming num_frames ks c Hch Hc F.
  assert (A : forall st, sound st -> t_ch st = ch -> run step_1 (channel c st) (map (call_of c) ks) = option_map (map (result_of c)) (run step_m st ks)).
  { induction F as [|k ks K F IH]; intros st Hs E; [reflexivity|]. cbn [map run]. rewrite step_col; [|assumption|lia|congruence]. destruct (step_m st k) as [[st' r]|] eqn:R; [|reflexivity]. cbn [option_map bind fst snd].
    destruct (step_sound st k (st', r) Hs ltac:(congruence) R) as [S1 S2]. cbn [fst] in S1, S2. rewrite IH by (auto; congruence). now destruct (run step_m st' ks). }
  unfold stft_new, stft_new_m. match goal with |- context [make_buffers_m ?s] => set (s0 := s) end. match goal with |- context [make_buffers ?s] => change s with (channel c s0) end. rewrite make_col. destruct (make_buffers_m s0) as [st|] eqn:E; [|reflexivity]. cbn [option_map bind]. apply make_keeps in E. destruct E as [E1 E2].
  apply A; [|exact E1]. unfold sound. rewrite E1, E2. split; [exact Hch|exact I].
Qed.
Print Assumptions C150_channels.
(** The one-shot functions: the transform of a signal with two or more channels is, in each channel, that of the channel; the inverse
    transform of spectra with an axis for the frames likewise. *)
Definition channel_spectra (c : nat) (X : spectrum) : list (list C) := match X with X1 X => [X] | X2 _ X => [ccol c X] | X3 _ Xs => map (ccol c) Xs end.
Definition channel_signal (c : nat) (x : signal) : vec := match x with S1 x => x | S2 _ x => col c x end.
Lemma setup_col c ch N hop wa ws zb zf : stft_setup N hop wa ws true None zb zf = option_map (channel c) (stft_setup_m ch N hop wa ws zb zf).
Proof.
  unfold stft_setup, stft_setup_m, stft_new, stft_new_m. match goal with |- context [make_buffers_m ?s] => set (s0 := s) end. match goal with |- context [make_buffers ?s] => change s with (channel c s0) end. rewrite make_col.
  destruct (make_buffers_m s0) as [st|]; [|reflexivity]. cbn [option_map bind]. destruct (0 <? zb)%nat; [rewrite back_col; destruct (zero_pad_back_m zb st) as [st1|]; [|reflexivity]|]; cbn [option_map bind]; destruct (0 <? zf)%nat; try reflexivity; apply front_col.
Qed.
Lemma setup_ch ch N hop wa ws zb zf st : stft_setup_m ch N hop wa ws zb zf = Some st -> t_ch st = ch.
Proof.
  unfold stft_setup_m, stft_new_m. match goal with |- context [make_buffers_m ?s] => destruct (make_buffers_m s) as [s1|] eqn:E1; [|discriminate] end. apply make_keeps in E1. destruct E1 as [E1 _]. cbn in E1. cbn [bind].
  destruct (if (0 <? zb)%nat then zero_pad_back_m zb s1 else Some s1) as [s2|] eqn:E2; [|discriminate]. assert (A : t_ch s2 = ch) by (destruct (0 <? zb)%nat; [apply make_keeps in E2; cbn in E2; destruct E2; congruence|congruence]). cbn [bind].
  destruct (0 <? zf)%nat; intro H; [apply make_keeps in H; cbn in H; destruct H; congruence|congruence].
Qed.
Theorem C150_one_shot : forall w L hop win zb zf c, (2 <= w)%nat -> (c < w)%nat ->
  (forall x, one_shot_analysis (col c x) L hop win zb zf = option_map (channel_spectra c) (analysis_any (S2 w x) L hop win zb zf)) /\
  (forall Xs, one_shot_synthesis (Many (map (ccol c) Xs)) L hop win zb zf = option_map (option_map (channel_signal c)) (synthesis_any (X3 w Xs) L hop win zb zf)).
Proof.
  intros w L hop win zb zf c Hw Hc. split.
  - intro x. unfold one_shot_analysis, analysis_any. destruct (Nat.eqb_spec w 1); [lia|]. rewrite (setup_col c w). destruct (stft_setup_m w L hop win None zb zf) as [st|] eqn:E; [|reflexivity]. apply setup_ch in E. cbn [option_map bind].
    rewrite analysis_col with (w := w) by congruence. destruct (analysis_m st w x) as [[st' Xs]|]; [|reflexivity]. cbn [option_map bind snd fst]. f_equal. unfold squeeze_frames. destruct Xs as [|X [|Y Xs]]; reflexivity.
  - intro Xs. unfold one_shot_synthesis, synthesis_any. destruct (Nat.eqb_spec w 1); [lia|]. rewrite (setup_col c w). destruct (stft_setup_m w L hop None win zb zf) as [st|] eqn:E; [|reflexivity]. apply setup_ch in E. cbn [option_map bind].
    change (Some (Many (map (ccol c) Xs))) with (option_map (xin_of c) (Some (Three w Xs))). rewrite synthesis_col by (cbn; congruence). destruct (synthesis_m st (Some (Three w Xs))) as [[st' [y|]]|]; reflexivity.
Qed.
Print Assumptions C150_one_shot.
(** A filter given as an array with one axis, on two channels: when the number of bins is the number of channels, no error is raised and
    the low pass filter [1, 0] removes the second channel instead of the second bin (otherwise the product raises). *)
Theorem C150_filter_refuted : exists ks X caller, run step_m {| t_ch := 2; t_N := 2; t_hop := 2; t_stream := true; t_fixed := None; t_zf := 0; t_zb := 0; t_nfft := 2; t_wa := None; t_ws := None; t_buf := zrows 2; t_yp := []; t_F := 0; t_X := None; t_H := None |} ks = Some [MNothing; MSpectra (Some [X]) caller] /\
  ks = [MFilter (FreqFlat [C1; C0]) None None; MProcess (Some (Two 2 [fun _ => C1; fun _ => C1]))] /\ stft_new_m 2 2 None None None true None = Some {| t_ch := 2; t_N := 2; t_hop := 2; t_stream := true; t_fixed := None; t_zf := 0; t_zb := 0; t_nfft := 2; t_wa := None; t_ws := None; t_buf := zrows 2; t_yp := []; t_F := 0; t_X := None; t_H := None |} /\
  ccol 0 X = [C1; C1] /\ ccol 1 X = [C0; C0].
Proof.
  do 3 eexists. split; [|split; [reflexivity|]]; [cbn; reflexivity|]. split; [reflexivity|]. unfold ccol, Cmul, C1, C0, RtoC. cbn. split; repeat f_equal; ring.
Qed.
Print Assumptions C150_filter_refuted.
(** A signal with one column (documented as valid) is rejected, though the same samples in an array with one axis are transformed. *)
Theorem C150_column_refuted : exists x L hop X, analysis_any (S2 1 x) L hop None 0 0 = None /\ analysis_any (S1 (col 0 x)) L hop None 0 0 = Some X.
Proof. exists [fun _ => 1; fun _ => 2], 2%nat, 2%nat. eexists. split; [reflexivity|]. cbn. reflexivity. Qed.
Print Assumptions C150_column_refuted.
(** The transform of two channels that fit in one frame has no axis for the frames, and the inverse transform takes the channels for
    bins of frames: it raises. *)
Theorem C150_short_refuted : exists x L hop X, analysis_any (S2 2 x) L hop None 0 0 = Some X /\ synthesis_any X L hop None 0 0 = None.
Proof. exists [fun _ => 1; fun _ => 2; fun _ => 3; fun _ => 4], 4%nat, 4%nat. eexists. split; [cbn; reflexivity|]. reflexivity. Qed.
Print Assumptions C150_short_refuted.
(** Two channels in two frames: the bins 0 are the sums of the frames. *)
Lemma bin0 (x : vec) : length x = 2%nat -> fst (nth 0 (rfft 2 x) C0) = nth 0 x 0 + nth 1 x 0.
Proof.
  intro L. rewrite nth_rfft by (cbn; lia). unfold dft. rewrite !csum_S, csum_0. rewrite !Nat.mul_0_r. cbn [Z.of_nat Z.opp]. rewrite omega_0. unfold Cadd, Cmul, RtoC, C0, C1. cbn [fst snd]. cbn. ring.
Qed.
Example two_channels : exists X0 X1, analysis_any (S2 2 [fun c => INR c; fun c => 1; fun c => 2; fun c => 3]) 2 2 None 0 0 = Some (X3 2 [X0; X1]) /\ fst (nth 0 (ccol 0 X0) C0) = 1 /\ fst (nth 0 (ccol 1 X0) C0) = 2 /\ fst (nth 0 (ccol 1 X1) C0) = 5.
Proof.
  do 2 eexists. split; [unfold analysis_any; cbn -[rfft0]; reflexivity|]. rewrite !ccol_rfft0. rewrite !bin0 by reflexivity. cbn. repeat split; lra.
Qed.
