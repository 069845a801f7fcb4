(** C108: impulse responses with directive sources and microphones. *)
From Coq Require Import List ZArith Lia Reals Lra Bool.
From Verif Require Import Base Vec Sum Cpx DftModel WallModel SphereModel SimulateModel SimulateSpec SimulateProofs RirModel RirSpec RirProofs IsmDirModel IsmDirSpec IsmDirProofs BaseProofs.
Import ListNotations.
Local Open Scope R_scope.

(** C108.  multi_convolve convolves row by row; nothing wraps around. *)
Theorem C108_convolve : forall n signals, (0 < n)%nat -> signals <> [] ->
  (forall s, In s signals -> (0 < b_taps s)%nat /\ length (b_rows s) = n /\ forall r, In r (b_rows s) -> length r = b_taps s) ->
  exists m, multi_convolve signals = Some m /\ length (b_rows m) = n /\
    forall i, (i < n)%nat -> length (nth i (b_rows m) []) = b_taps m /\
      nth i (b_rows m) [] = in_series (map (fun s => nth i (b_rows s) []) signals).
Proof.
  intros n signals Hn Hne H. destruct (multi_ok n signals Hn Hne H) as (m & A & (B1 & B2 & B3) & V). exists m. split; [exact A|]. split; [exact B2|].
  intros i Hi. split; [|now apply V]. apply B3, nth_In. lia.
Qed.
Print Assumptions C108_convolve.

(** C108.  Arrays with different numbers of rows are refused. *)
Theorem C108_convolve_shapes : forall s0 rest, (exists s, In s rest /\ length (b_rows s) <> length (b_rows s0)) -> multi_convolve (s0 :: rest) = None.
Proof. intros s0 rest H. unfold multi_convolve. cbv zeta. now rewrite conv_len_none. Qed.
Print Assumptions C108_convolve_shapes.

Example C108_convolve_case : exists m, multi_convolve [ {| b_taps := 2; b_rows := [[1; 2]] |}; {| b_taps := 3; b_rows := [[1; 0; 3]] |} ] = Some m /\ b_rows m = [[1; 2; 3; 6]].
Proof.
  destruct (C108_convolve 1 [ {| b_taps := 2; b_rows := [[1; 2]] |}; {| b_taps := 3; b_rows := [[1; 0; 3]] |} ]) as (m & A & B & Cc); [lia|discriminate| |].
  - intros s [<-|[<-|[]]]; repeat split; cbn; auto; intros r [<-|[]]; reflexivity.
  - exists m. split; [exact A|]. destruct (Cc 0%nat ltac:(lia)) as [_ V]. destruct (b_rows m) as [|r [|]]; cbn in B; try discriminate.
    cbn [nth map in_series fold_left b_rows] in V. f_equal. rewrite V. cbn. unfold Rsum. cbn. repeat f_equal; lra.
Qed.

(** ** Gains and filters of the directivities *)
Definition taps_list (dir : option directivity) (ang : nat -> R * R) : list (nat * (nat -> list R)) :=
  match dir with Some (DTaps n h) => [(n, fun j => h (ang j))] | _ => [] end.
Definition batches (J : list nat) (filters : list (nat * (nat -> list R))) : list batch :=
  map (fun f => {| b_taps := fst f; b_rows := map (snd f) J |}) filters.
Lemma add_gain_J : forall J dir (ang : nat -> R * R) angs nb (a : nat -> nat -> R) filters, well_formed dir -> (dir <> None -> angs = map ang J) ->
  add_gain dir angs (map (fun b => map (a b) J) (seq 0 nb), batches J filters) =
  Some (map (fun b => map (fun j => a b j * dir_gain dir (ang j)) J) (seq 0 nb), batches J (filters ++ taps_list dir ang)).
Proof.
  intros J dir ang angs nb a filters W E. destruct dir as [[g|n g|n h]|]; cbn [add_gain dir_gain taps_list].
  - rewrite E by discriminate. unfold times_flat. rewrite !map_length, Nat.eqb_refl. cbn [bind]. rewrite app_nil_r. do 2 f_equal. rewrite map_map. apply map_ext. intros b.
    rewrite map_map. clear. induction J as [|j J IH]; cbn [map map2]; [reflexivity|]. now f_equal.
  - destruct W.
  - rewrite E by discriminate. do 2 f_equal.
    + apply map_ext. intros b. apply map_ext. intros j. ring.
    + unfold batches. rewrite map_app. cbn [map fst snd]. now rewrite map_map.
  - rewrite app_nil_r. do 2 f_equal. apply map_ext. intros b. apply map_ext. intros j. ring.
Qed.

Lemma angles_3 : forall im mic, length im = 3%nat -> length mic = 3%nat -> angle_function im mic = Some (angles (vminus im mic)).
Proof. intros im mic H1 H2. unfold angle_function. rewrite H1, H2. cbn [Nat.eqb negb]. unfold angles. destruct (cart2spher (vminus im mic)) as [[az co] r]. reflexivity. Qed.
Lemma mapM_all : forall {A B} (f : A -> option B) (g : A -> B) l, (forall x, In x l -> f x = Some (g x)) -> mapM f l = Some (map g l).
Proof. intros A B f g l. induction l as [|x l IH]; intros H; cbn [mapM map]; [reflexivity|]. rewrite H by now left. cbn [bind]. rewrite IH by (intros; apply H; now right). reflexivity. Qed.

Section Dir.
Variables (images damping : list (list R)) (visible : list bool) (mic : list R) (mic_dir src_dir : option directivity) (directions : list (list R)) (air : option (list R)).
Hypothesis Hvis : length visible = length images.
Hypothesis Hdir : length directions = length images.
Hypothesis H3 : forall im, In im images -> length im = 3%nat.
Hypothesis Hm3 : length mic = 3%nat.
Hypothesis Hdamp : forall att, In att damping -> length att = length images.
Hypothesis Hne : damping <> [].
Hypothesis Hair : match air with Some a => a <> [] | None => True end.
Hypothesis Hcomp : bands_compatible damping air.
Hypothesis Wm : well_formed mic_dir.
Hypothesis Ws : well_formed src_dir.
Let J := filter (fun j => nth j visible false) (seq 0 (length images)).
Let d j := vdist (nth j images []) mic.
Let am j := angles (vminus (nth j images []) mic).
Let asr j := angles (nth j directions []).
Let bands := n_bands_of damping air.
Let amp b j := image_amplitude damping air b j (d j) * dir_gain mic_dir (am j) * dir_gain src_dir (asr j).
Let filters := taps_list mic_dir am ++ taps_list src_dir asr.

Lemma first_gain : forall angs, (mic_dir <> None -> angs = map am J) ->
  add_gain mic_dir angs (map (fun b => map (fun j => image_amplitude damping air b j (vdist (nth j images []) mic)) J) (seq 0 bands), []) =
  Some (map (fun b => map (fun j => image_amplitude damping air b j (d j) * dir_gain mic_dir (am j)) J) (seq 0 bands), batches J (taps_list mic_dir am)).
Proof. intros angs E. exact (add_gain_J J mic_dir am angs bands (fun b j => image_amplitude damping air b j (d j)) [] Wm E). Qed.
Lemma second_gain :
  add_gain src_dir (map (fun d => let '(az, co, _) := cart2spher d in (az, co)) (select visible directions))
    (map (fun b => map (fun j => image_amplitude damping air b j (d j) * dir_gain mic_dir (am j)) J) (seq 0 bands), batches J (taps_list mic_dir am)) =
  Some (map (fun b => map (amp b) J) (seq 0 bands), batches J filters).
Proof.
  refine (add_gain_J J src_dir asr _ bands (fun b j => image_amplitude damping air b j (d j) * dir_gain mic_dir (am j)) (taps_list mic_dir am) Ws _).
  intros _. rewrite (select_map_seq [] visible directions) by lia. rewrite Hdir. fold J. rewrite map_map. reflexivity.
Qed.
Lemma prep : forall amps0 mic_angles amps irs,
  amplitudes (map (select visible) damping) (map (fun im => vdist im mic) (select visible images)) air = Some amps0 ->
  match mic_dir with None => mic_angles = [] | Some _ => mapM (fun im => angle_function im mic) (select visible images) = Some mic_angles end ->
  (let src_angles := map (fun d => let '(az, co, _) := cart2spher d in (az, co)) (select visible directions) in
     let* st := add_gain mic_dir mic_angles (amps0, []) in add_gain src_dir src_angles st) = Some (amps, irs) ->
  amps = map (fun b => map (amp b) J) (seq 0 bands) /\ irs = batches J filters.
Proof.
  intros amps0 mic_angles amps irs A M G. rewrite (amplitudes_J images damping visible mic air Hvis Hdamp Hne Hair Hcomp) in A. injection A as <-. fold J in G. fold bands in G.
  assert (EJ : select visible images = map (fun j => nth j images []) J) by (apply (select_map_seq [] visible images Hvis)).
  assert (EM : mic_dir <> None -> mic_angles = map am J).
  { intros N. destruct mic_dir; [|congruence]. rewrite (mapM_all _ (fun im => angles (vminus im mic))) in M.
    - injection M as <-. rewrite EJ, map_map. reflexivity.
    - intros x Hx. apply angles_3; auto. rewrite EJ in Hx. apply in_map_iff in Hx as (j & <- & Hj). apply H3, nth_In. unfold J in Hj. apply filter_In in Hj as [Hj _]. apply in_seq in Hj. lia. }
  cbv zeta in G.
  rewrite (first_gain mic_angles EM) in G. cbn [bind] in G. rewrite second_gain in G. injection G as <- <-. split; reflexivity.
Qed.
Lemma prep_ok : exists mic_angles,
  match mic_dir with None => mic_angles = [] | Some _ => mapM (fun im => angle_function im mic) (select visible images) = Some mic_angles end /\
  exists amps0, amplitudes (map (select visible) damping) (map (fun im => vdist im mic) (select visible images)) air = Some amps0 /\
  exists amps irs, (let src_angles := map (fun d => let '(az, co, _) := cart2spher d in (az, co)) (select visible directions) in
     let* st := add_gain mic_dir mic_angles (amps0, []) in add_gain src_dir src_angles st) = Some (amps, irs).
Proof.
  assert (EJ : select visible images = map (fun j => nth j images []) J) by (apply (select_map_seq [] visible images Hvis)).
  exists (match mic_dir with None => [] | Some _ => map am J end). split.
  - destruct mic_dir; [|reflexivity]. rewrite (mapM_all _ (fun im => angles (vminus im mic))).
    + rewrite EJ, map_map. reflexivity.
    + intros x Hx. apply angles_3; auto. rewrite EJ in Hx. apply in_map_iff in Hx as (j & <- & Hj). apply H3, nth_In. unfold J in Hj. apply filter_In in Hj as [Hj _]. apply in_seq in Hj. lia.
  - eexists. split; [apply (amplitudes_J images damping visible mic air Hvis Hdamp Hne Hair Hcomp)|]. fold J. fold bands. cbv zeta.
    rewrite first_gain; [|intros N; destruct mic_dir; [reflexivity|congruence]]. cbn [bind]. rewrite second_gain. eauto.
Qed.
Lemma dist_is : map (fun im => vdist im mic) (select visible images) = map d J.
Proof. rewrite (select_map_seq [] visible images Hvis), map_map. reflexivity. Qed.
End Dir.

Lemma started_scale : forall z h k i, started z (map (fun x => x * k) h) i = k * started z h i.
Proof. intros z h k i. unfold started. cbv zeta. destruct (Z.ltb_spec (Z.of_nat i - z) 0); [ring|]. transitivity (nth (Z.to_nat (Z.of_nat i - z)) (map (fun x => x * k) h) (0 * k)); [f_equal; ring|]. rewrite (map_nth (fun x => x * k)). ring. Qed.
Lemma filters_ok : forall dir ang, well_formed dir -> forall f, In f (taps_list dir ang) -> (0 < fst f)%nat /\ forall j, length (snd f j) = fst f.
Proof. intros [[g|n g|n h]|] ang W f Hin; cbn in Hin; try tauto. destruct Hin as [<-|[]]. cbn [fst snd]. destruct W as [W1 W2]. auto. Qed.
Lemma filters_at : forall dir ang j, map (fun f => snd f j) (taps_list dir ang) = dir_filters dir (ang j).
Proof. intros [[g|n g|n h]|] ang j; reflexivity. Qed.
Lemma taps_ne : forall d1 d2 a1 a2 J, has_taps d1 || has_taps d2 = true -> batches J (taps_list d1 a1 ++ taps_list d2 a2) <> [].
Proof. intros [[g|n g|n h]|] [[g'|n' g'|n' h']|] a1 a2 J H; cbn in *; discriminate. Qed.

Lemma whole_rir : forall filt synth n_fft min_phase images damping visible mic mic_dir src_dir directions air c fs fdl gran threads,
  length visible = length images -> length directions = length images ->
  (forall im, In im images -> length im = 3%nat) -> length mic = 3%nat ->
  (forall att, In att damping -> length att = length images) -> damping <> [] ->
  match air with Some a => a <> [] | None => True end -> bands_compatible damping air ->
  well_formed mic_dir -> well_formed src_dir -> has_taps mic_dir || has_taps src_dir = true ->
  (forall x, length (synth x) = n_fft) -> (0 < n_fft)%nat ->
  (0 < gran)%nat -> (0 < threads)%nat -> (0 < fs)%Z -> (fdl mod 2 = 1)%nat -> 0 < c ->
  (exists j, (j < length images)%nat /\ nth j visible false = true) ->
  let am j := angles (vminus (nth j images []) mic) in
  let asr j := angles (nth j directions []) in
  let bands := n_bands_of damping air in
  let amp b j := image_amplitude damping air b j (vdist (nth j images []) mic) * dir_gain mic_dir (am j) * dir_gain src_dir (asr j) in
  let filters := taps_list mic_dir am ++ taps_list src_dir asr in
  let run := compute_ism_rir_dir filt synth n_fft min_phase images damping visible mic mic_dir src_dir directions air c fs fdl gran threads in
  (exists result, run result) /\
  forall result, run result -> forall i, nth i result 0 =
    sum_of_images images visible mic c fs (image_filter (fun j => vdist (nth j images []) mic) bands amp filters synth c fs fdl gran)
      (i + (if (1 <? bands)%nat && negb min_phase then n_fft / 2 else 0)).
Proof.
  intros filt synth n_fft min_phase images damping visible mic mic_dir src_dir directions air c fs fdl gran T Hvis Hdir H3 Hm3 Hdamp Hne Hair Hcomp Wm Ws Ht Hsy Hnf Hg HT Hfs Ho Hc (j0 & Hj0 & Vj0) am asr bands amp filters run.
  set (J := filter (fun j => nth j visible false) (seq 0 (length images))).
  assert (HJ : J <> []) by (assert (In j0 J) by (apply filter_In; split; [apply in_seq; lia|auto]); intros E; rewrite E in *; contradiction).
  assert (Hnb : (0 < bands)%nat).
  { unfold bands, n_bands_of. destruct air as [[|a l]|]; [congruence| |]; destruct damping as [|x [|y t]]; try congruence; cbn; lia. }
  assert (Hf : forall f, In f filters -> (0 < fst f)%nat /\ forall j, length (snd f j) = fst f).
  { intros f Hin. unfold filters in Hin. apply in_app_or in Hin as [Hin|Hin]; [exact (filters_ok _ _ Wm _ Hin)|exact (filters_ok _ _ Ws _ Hin)]. }
  destruct (full_band_ok J (fun j => vdist (nth j images []) mic) bands amp filters synth n_fft min_phase c fs fdl gran T HJ (fun j => vdist_nonneg _ _) Hnb Hf Hsy (or_intror Hnf) Hc Hfs Ho Hg HT) as [A B].
  pose proof (dist_is images visible mic Hvis) as ED. fold J in ED.
  assert (Dne : map (fun im => vdist im mic) (select visible images) <> []) by (rewrite ED; destruct J; [congruence|discriminate]).
  assert (NE : batches J filters <> []) by (apply taps_ne; auto).
  assert (Mt : forall (P Q : Prop), match batches J filters with [] => P | _ => Q end = Q) by (intros; destruct (batches J filters); congruence).
  split.
  - destruct A as (r & A). exists r. destruct (prep_ok images damping visible mic mic_dir src_dir directions air Hvis Hdir H3 Hm3 Hdamp Hne Hair Hcomp Wm Ws) as (angs & P1 & amps0 & P2 & amps & irs & P3).
    destruct (prep images damping visible mic mic_dir src_dir directions air Hvis Hdir H3 Hm3 Hdamp Hne Hair Hcomp Wm Ws amps0 angs amps irs P2 P1 P3) as [E1 E2].
    exists amps0, angs, amps, irs. repeat split; auto. fold J bands in E1, E2. rewrite E2. fold am asr. fold filters. rewrite Mt. rewrite ED, E1. exact A.
  - intros result (amps0 & angs & amps & irs & _ & P2 & P1 & P3 & P4) i.
    destruct (prep images damping visible mic mic_dir src_dir directions air Hvis Hdir H3 Hm3 Hdamp Hne Hair Hcomp Wm Ws amps0 angs amps irs P2 P1 P3) as [E1 E2].
    fold J bands in E1, E2. rewrite E2 in P4. fold am asr in P4. fold filters in P4. rewrite Mt in P4. rewrite ED, E1 in P4. rewrite (B result P4). unfold sum_of_images, J.
    now rewrite Rsum_filter.
Qed.

(** C108.  One band: every visible image arrives after a whole number of samples through the
    filters of the two directivities and a fractional delay, with its attenuation and flat
    gains; the call succeeds. *)
Theorem C108_full_band : forall filt synth n_fft min_phase images damping visible mic mic_dir src_dir directions air c fs fdl gran threads,
  length visible = length images -> length directions = length images ->
  (forall im, In im images -> length im = 3%nat) -> length mic = 3%nat ->
  (forall att, In att damping -> length att = length images) -> damping <> [] ->
  match air with Some a => a <> [] | None => True end -> bands_compatible damping air ->
  well_formed mic_dir -> well_formed src_dir -> has_taps mic_dir || has_taps src_dir = true ->
  (forall x, length (synth x) = n_fft) -> (0 < n_fft)%nat ->
  (0 < gran)%nat -> (0 < threads)%nat -> (0 < fs)%Z -> (fdl mod 2 = 1)%nat -> 0 < c ->
  (exists j, (j < length images)%nat /\ nth j visible false = true) -> n_bands_of damping air = 1%nat ->
  let run := compute_ism_rir_dir filt synth n_fft min_phase images damping visible mic mic_dir src_dir directions air c fs fdl gran threads in
  (exists result, run result) /\
  forall result, run result -> forall i, nth i result 0 =
    Rsum (map (fun j => if nth j visible false then
        let d := vdist (nth j images []) mic in
        let heard := angles (vminus (nth j images []) mic) in
        let emitted := angles (nth j directions []) in
        image_amplitude damping air 0 j d * dir_gain mic_dir heard * dir_gain src_dir emitted *
        started (Zfloor (d / c * IZR fs)) (in_series (dir_filters mic_dir heard ++ dir_filters src_dir emitted ++ [rest_filter images mic c fs fdl gran j])) i
      else 0) (seq 0 (length images))).
Proof.
  intros filt synth n_fft min_phase images damping visible mic mic_dir src_dir directions air c fs fdl gran T H1 H2 H3 H4 H5 H6 H7 H8 H9 H10 H11 H12 H13 H14 H15 H16 H17 H18 H19 HB run.
  destruct (whole_rir filt synth n_fft min_phase images damping visible mic mic_dir src_dir directions air c fs fdl gran T) as [A B]; auto.
  split; [exact A|]. intros result Hr i. rewrite (B result Hr i), HB. cbn [Nat.ltb Nat.leb andb]. rewrite Nat.add_0_r. unfold sum_of_images. apply Rsum_map_ext. intros j _.
  destruct (nth j visible false); [|reflexivity]. cbv zeta. unfold image_filter. rewrite Nat.eqb_refl. rewrite started_scale. f_equal.
  rewrite map_app, !filters_at, <- app_assoc. reflexivity.
Qed.
Print Assumptions C108_full_band.

(** C108.  Several bands: the band amplitudes of an image become one more filter, and for
    filters that are not minimum phase half a filter length is cut at the start. *)
Theorem C108_octave_bands : forall filt synth n_fft min_phase images damping visible mic mic_dir src_dir directions air c fs fdl gran threads,
  length visible = length images -> length directions = length images ->
  (forall im, In im images -> length im = 3%nat) -> length mic = 3%nat ->
  (forall att, In att damping -> length att = length images) -> damping <> [] ->
  match air with Some a => a <> [] | None => True end -> bands_compatible damping air ->
  well_formed mic_dir -> well_formed src_dir -> has_taps mic_dir || has_taps src_dir = true ->
  (forall x, length (synth x) = n_fft) -> (0 < n_fft)%nat ->
  (0 < gran)%nat -> (0 < threads)%nat -> (0 < fs)%Z -> (fdl mod 2 = 1)%nat -> 0 < c ->
  (exists j, (j < length images)%nat /\ nth j visible false = true) -> (1 < n_bands_of damping air)%nat ->
  let run := compute_ism_rir_dir filt synth n_fft min_phase images damping visible mic mic_dir src_dir directions air c fs fdl gran threads in
  (exists result, run result) /\
  forall result, run result -> forall i, nth i result 0 =
    Rsum (map (fun j => if nth j visible false then
        let d := vdist (nth j images []) mic in
        let heard := angles (vminus (nth j images []) mic) in
        let emitted := angles (nth j directions []) in
        let amplitude b := image_amplitude damping air b j d * dir_gain mic_dir heard * dir_gain src_dir emitted in
        started (Zfloor (d / c * IZR fs))
          (in_series (dir_filters mic_dir heard ++ dir_filters src_dir emitted ++
             [rest_filter images mic c fs fdl gran j; synth (map amplitude (seq 0 (n_bands_of damping air)))]))
          (i + if min_phase then 0 else n_fft / 2)
      else 0) (seq 0 (length images))).
Proof.
  intros filt synth n_fft min_phase images damping visible mic mic_dir src_dir directions air c fs fdl gran T H1 H2 H3 H4 H5 H6 H7 H8 H9 H10 H11 H12 H13 H14 H15 H16 H17 H18 H19 HB run.
  destruct (whole_rir filt synth n_fft min_phase images damping visible mic mic_dir src_dir directions air c fs fdl gran T) as [A B]; auto.
  split; [exact A|]. intros result Hr i. rewrite (B result Hr i). destruct (Nat.ltb_spec 1 (n_bands_of damping air)); [|lia]. cbn [andb].
  unfold sum_of_images. apply Rsum_map_ext. intros j _.
  destruct (nth j visible false); [|reflexivity]. cbv zeta. unfold image_filter. destruct (Nat.eqb_spec (n_bands_of damping air) 1); [lia|].
  rewrite map_app, !filters_at, <- app_assoc. destruct min_phase; reflexivity.
Qed.
Print Assumptions C108_octave_bands.

Lemma conv_one : forall x, x <> [] -> conv [1] x = x.
Proof.
  intros x Hx. apply nth_ext with (d := 0) (d' := 0); [rewrite conv_length by (auto; discriminate); cbn [length]; lia|].
  intros i _. rewrite conv_nth by (auto; discriminate). cbn [length seq map nth]. unfold Rsum. cbn [fold_right]. unfold at_time.
  destruct (Z.ltb_spec (Z.of_nat i - Z.of_nat 0) 0); [lia|]. replace (Z.to_nat (Z.of_nat i - Z.of_nat 0)) with i by lia. ring.
Qed.
Lemma started_pulse : forall images mic c fs fdl gran j i, (fdl mod 2 = 1)%nat ->
  let d := vdist (nth j images []) mic in
  started (Zfloor (d / c * IZR fs)) (rest_filter images mic c fs fdl gran j) i =
  pulse fdl gran (IZR fs * d / c + INR ((fdl - 1) / 2)) (Z.of_nat i).
Proof.
  intros images mic c fs fdl gran j i Ho d. unfold rest_filter. fold d. set (t := d / c * IZR fs).
  replace (IZR fs * d / c) with t by (unfold t, Rdiv; ring). set (h := ((fdl - 1) / 2)%nat).
  unfold pulse. fold h. pose proof (Zfloor_bounds t) as B.
  assert (F : Zfloor (t + INR h) = (Zfloor t + Z.of_nat h)%Z) by (apply Zfloor_unique; rewrite plus_IZR, <- INR_IZR_INZ; lra).
  rewrite F. cbv zeta. replace (Z.of_nat i - (Zfloor t + Z.of_nat h) + Z.of_nat h)%Z with (Z.of_nat i - Zfloor t)%Z by lia.
  unfold started. cbv zeta. destruct (Z.ltb_spec (Z.of_nat i - Zfloor t) 0); destruct (Z.leb_spec 0 (Z.of_nat i - Zfloor t)); try lia; cbn [andb]; [reflexivity|].
  destruct (Z.ltb_spec (Z.of_nat i - Zfloor t) (Z.of_nat fdl)).
  - rewrite nth_map_seq by lia. unfold fd_tap. fold h. rewrite Z2Nat.id by lia. f_equal. f_equal.
    rewrite !INR_IZR_INZ, Z2Nat.id by lia. rewrite minus_IZR. ring.
  - apply nth_overflow. rewrite map_length, seq_length. lia.
Qed.

(** C108.  Directivities that are unit impulses change nothing: the full-band construction
    gives the sum of pulses that is built without directivities (C28). *)
Theorem C108_unit_impulses : forall filt synth n_fft min_phase images damping visible mic mic_dir src_dir directions air c fs fdl gran threads,
  length visible = length images -> length directions = length images ->
  (forall im, In im images -> length im = 3%nat) -> length mic = 3%nat ->
  (forall att, In att damping -> length att = length images) -> damping <> [] ->
  match air with Some a => a <> [] | None => True end -> bands_compatible damping air ->
  (forall d, In d [mic_dir; src_dir] -> d = None \/ d = Some (DTaps 1 (fun _ => [1]))) -> has_taps mic_dir || has_taps src_dir = true ->
  (forall x, length (synth x) = n_fft) -> (0 < n_fft)%nat ->
  (0 < gran)%nat -> (0 < threads)%nat -> (0 < fs)%Z -> (fdl mod 2 = 1)%nat -> 0 < c ->
  (exists j, (j < length images)%nat /\ nth j visible false = true) -> n_bands_of damping air = 1%nat ->
  forall result, compute_ism_rir_dir filt synth n_fft min_phase images damping visible mic mic_dir src_dir directions air c fs fdl gran threads result ->
  forall i, nth i result 0 = ism_band images damping visible mic air c fs fdl gran 0 i.
Proof.
  intros filt synth n_fft min_phase images damping visible mic mic_dir src_dir directions air c fs fdl gran T H1 H2 H3 H4 H5 H6 H7 H8 H9 H11 H12 H13 H14 H15 H16 H17 H18 H19 HB result Hr i.
  assert (W : forall d, In d [mic_dir; src_dir] -> well_formed d) by (intros d Hd; destruct (H9 d Hd) as [->| ->]; cbn; auto).
  destruct (C108_full_band filt synth n_fft min_phase images damping visible mic mic_dir src_dir directions air c fs fdl gran T) as [_ B]; auto; [apply W; now left|apply W; right; now left|].
  rewrite (B result Hr i). unfold ism_band. apply Rsum_map_ext. intros j _. destruct (nth j visible false); [|reflexivity]. cbv zeta. rewrite <- started_pulse by auto.
  assert (G : forall d a, In d [mic_dir; src_dir] -> dir_gain d a = 1) by (intros d a Hd; destruct (H9 d Hd) as [->| ->]; reflexivity).
  rewrite !G by (cbn; auto). rewrite !Rmult_1_r. f_equal. f_equal.
  assert (Rn : rest_filter images mic c fs fdl gran j <> []) by (unfold rest_filter; destruct fdl; [discriminate|]; cbn [seq map]; discriminate).
  destruct (H9 mic_dir) as [->| ->]; [now left| |]; (destruct (H9 src_dir) as [->| ->]; [right; now left| |]); cbn [dir_filters app in_series fold_left]; try reflexivity; try (now rewrite conv_one).
  rewrite (conv_one [1]) by discriminate. now rewrite conv_one.
Qed.
Print Assumptions C108_unit_impulses.

Lemma row_map : forall (f : list R -> list R) l b, f [] = [] -> row [] (map f l) b = f (row [] l b).
Proof. intros f [|x [|y l]] b E; cbn [map row]; [now destruct b|reflexivity|]. rewrite <- E at 1. apply (map_nth f (x :: y :: l)). Qed.

(** C108.  Flat gains are the same as walls that attenuate more: a call with directivities
    of flat gain has the same results as a call without directivities where the damping of
    every image is multiplied by the two gains in its directions. *)
Theorem C108_flat_gains : forall filt synth n_fft min_phase images damping visible mic mic_dir src_dir directions air c fs fdl gran threads result,
  length visible = length images -> length directions = length images ->
  (forall im, In im images -> length im = 3%nat) -> length mic = 3%nat ->
  (forall att, In att damping -> length att = length images) -> damping <> [] ->
  match air with Some a => a <> [] | None => True end -> bands_compatible damping air ->
  well_formed mic_dir -> well_formed src_dir -> has_taps mic_dir || has_taps src_dir = false ->
  let gain j := dir_gain mic_dir (angles (vminus (nth j images []) mic)) * dir_gain src_dir (angles (nth j directions [])) in
  compute_ism_rir_dir filt synth n_fft min_phase images damping visible mic mic_dir src_dir directions air c fs fdl gran threads result <->
  compute_ism_rir filt images (map (fun att => map2 Rmult att (map gain (seq 0 (length att)))) damping) visible mic air c fs fdl gran threads result.
Proof.
  intros filt synth n_fft min_phase images damping visible mic mic_dir src_dir directions air c fs fdl gran T result Hvis Hdir H3 Hm3 Hdamp Hne Hair Hcomp Wm Ws Ht gain.
  set (scaled := map (fun att => map2 Rmult att (map gain (seq 0 (length att)))) damping).
  set (J := filter (fun j => nth j visible false) (seq 0 (length images))).
  assert (Hd' : forall att, In att scaled -> length att = length images).
  { intros att Ha. unfold scaled in Ha. apply in_map_iff in Ha as (x & <- & Hx). rewrite map2_length; [now apply Hdamp|]. now rewrite map_length, seq_length. }
  assert (Hl : length scaled = length damping) by apply map_length.
  assert (Hne' : scaled <> []) by (unfold scaled; destruct damping; [congruence|discriminate]).
  assert (Hb : n_bands_of scaled air = n_bands_of damping air) by (unfold n_bands_of; now rewrite Hl).
  assert (Hcomp' : bands_compatible scaled air) by (unfold bands_compatible in *; now rewrite Hl).
  pose proof (amplitudes_J images scaled visible mic air Hvis Hd' Hne' Hair Hcomp') as AS. fold J in AS. rewrite Hb in AS.
  set (bands := n_bands_of damping air) in *.
  assert (EA : map (fun b => map (fun j => image_amplitude scaled air b j (vdist (nth j images []) mic)) J) (seq 0 bands) =
    map (fun b => map (fun j => image_amplitude damping air b j (vdist (nth j images []) mic) * dir_gain mic_dir (angles (vminus (nth j images []) mic)) * dir_gain src_dir (angles (nth j directions []))) J) (seq 0 bands)).
  { apply map_ext_in. intros b Hbb. apply in_seq in Hbb. apply map_ext_in. intros j Hj. unfold J in Hj. apply filter_In in Hj as [Hj _]. apply in_seq in Hj.
    assert (Lr : length (row [] damping b) = length images) by (apply Hdamp; apply (in_row images damping visible air Hdamp Hne Hair Hcomp); fold bands; lia).
    unfold image_amplitude, scaled. rewrite row_map by reflexivity.
    rewrite (nth_map2 Rmult) by (try (now rewrite map_length, seq_length); ring).
    rewrite nth_map_seq by lia. unfold gain, Rdiv. ring. }
  assert (FE : batches J (taps_list mic_dir (fun j => angles (vminus (nth j images []) mic)) ++ taps_list src_dir (fun j => angles (nth j directions []))) = []).
  { destruct mic_dir as [[g|n g|n h]|]; destruct src_dir as [[g'|n' g'|n' h']|]; cbn in Ht; try discriminate; reflexivity. }
  unfold compute_ism_rir. cbv zeta. fold scaled.
  split.
  - intros (amps0 & angs & amps & irs & D & P2 & P1 & P3 & P4). split; [exact D|].
    destruct (prep images damping visible mic mic_dir src_dir directions air Hvis Hdir H3 Hm3 Hdamp Hne Hair Hcomp Wm Ws amps0 angs amps irs P2 P1 P3) as [E1 E2].
    fold J in E1, E2. fold bands in E1. rewrite FE in E2. rewrite E2 in P4. rewrite E1 in P4. eexists. split; [exact AS|]. rewrite EA. exact P4.
  - intros (D & amps' & A' & L). rewrite AS in A'. injection A' as <-.
    destruct (prep_ok images damping visible mic mic_dir src_dir directions air Hvis Hdir H3 Hm3 Hdamp Hne Hair Hcomp Wm Ws) as (angs & P1 & amps0 & P2 & amps & irs & P3).
    destruct (prep images damping visible mic mic_dir src_dir directions air Hvis Hdir H3 Hm3 Hdamp Hne Hair Hcomp Wm Ws amps0 angs amps irs P2 P1 P3) as [E1 E2].
    exists amps0, angs, amps, irs. repeat split; auto. fold J in E1, E2. fold bands in E1. rewrite FE in E2. rewrite E2. rewrite E1. rewrite EA in L. exact L.
Qed.
Print Assumptions C108_flat_gains.

(** A microphone with an impulse response of two taps and a source with a flat gain. *)
Example C108_case : exists (images damping : list (list R)) visible (mic : list R) mic_dir src_dir (directions : list (list R)),
  length visible = length images /\ length directions = length images /\ (forall im, In im images -> length im = 3%nat) /\ length mic = 3%nat /\
  (forall att, In att damping -> length att = length images) /\ damping <> [] /\ bands_compatible damping None /\
  well_formed mic_dir /\ well_formed src_dir /\ has_taps mic_dir || has_taps src_dir = true /\
  (exists j, (j < length images)%nat /\ nth j visible false = true) /\ n_bands_of damping None = 1%nat.
Proof.
  exists [[1; 2; 3]; [0; 0; 1]], [[1; 1/2]], [true; false], [0; 0; 0], (Some (DTaps 2 (fun a => [1; fst a]))), (Some (DFlat (fun a => cos (fst a)))), [[1; 0; 0]; [0; 1; 0]].
  cbn. repeat split; auto; try discriminate; try lia.
  - intros im [<-|[<-|[]]]; reflexivity.
  - intros att [<-|[]]; reflexivity.
  - exists 0%nat. auto.
Qed.
Example C108_flat_case : well_formed (Some (DFlat (fun a => cos (fst a)))) /\ has_taps (Some (DFlat (fun a => cos (fst a)))) || has_taps None = false.
Proof. split; reflexivity. Qed.

(** Documented directivities with one gain per direction and octave band (base.py:56-57) are
    multiplied without transposing: with two bands and three images there is no result. *)
Theorem C108_octave_directivity_refuted : exists images damping visible mic mic_dir directions,
  length visible = length images /\ length directions = length images /\ (forall im, In im images -> length im = 3%nat) /\ length mic = 3%nat /\
  (forall att, In att damping -> length att = length images) /\ length damping = 2%nat /\
  (exists g, mic_dir = Some (DBands 2 g) /\ forall a, length (g a) = 2%nat) /\
  forall filt synth n_fft min_phase c fs fdl gran threads result,
    ~ compute_ism_rir_dir filt synth n_fft min_phase images damping visible mic mic_dir None directions None c fs fdl gran threads result.
Proof.
  exists [[1; 0; 0]; [2; 0; 0]; [3; 0; 0]], [[1; 1; 1]; [1; 1; 1]], [true; true; true], [0; 0; 0], (Some (DBands 2 (fun _ => [1; 1]))), [[1; 0; 0]; [1; 0; 0]; [1; 0; 0]].
  split; [reflexivity|]. split; [reflexivity|]. split; [intros im [<-|[<-|[<-|[]]]]; reflexivity|]. split; [reflexivity|].
  split; [intros att [<-|[<-|[]]]; reflexivity|]. split; [reflexivity|]. split; [eexists; split; reflexivity|].
  intros filt synth n_fft min_phase c fs fdl gran T result (amps0 & angs & amps & irs & _ & A & M & G & _).
  cbn [select] in *. cbn in A. injection A as <-. cbn [mapM] in M. rewrite !angles_3 in M by reflexivity. cbn [bind] in M. injection M as <-.
  cbn in G. discriminate.
Qed.
Print Assumptions C108_octave_directivity_refuted.

(** When there are as many images as bands the same multiplication succeeds, and band [b] of image
    [j] silently gets the gain of image [b] in band [j]. *)
Theorem C108_octave_mixed : forall g (angles : list (R * R)) amps irs, length amps = length angles -> (forall a, length (g a) = length angles) ->
  exists amps', add_gain (Some (DBands (length angles) g)) angles (amps, irs) = Some (amps', irs) /\ length amps' = length angles /\
    forall b j a, (b < length angles)%nat -> (j < length angles)%nat -> nth_error angles b = Some a -> nth j (nth b amps' []) 0 = nth j (nth b amps []) 0 * nth j (g a) 0.
Proof.
  intros g angles amps irs HL HG. cbn [add_gain]. unfold times_grid. rewrite map_length, HL, Nat.eqb_refl. cbn [orb andb]. cbn [bind]. eexists. split; [reflexivity|].
  rewrite map_length, seq_length. split; [reflexivity|]. intros b j a Hb Hj Ha. rewrite nth_map_seq by lia. rewrite nth_map_seq by lia. f_equal.
  destruct (Nat.eqb_spec (length angles) 1) as [E|E].
  - assert (b = 0%nat) by lia. assert (j = 0%nat) by lia. subst. destruct angles as [|a0 l]; [discriminate|]. cbn in Ha. injection Ha as ->. reflexivity.
  - rewrite (nth_indep _ [] (g a)) by (rewrite map_length; lia). rewrite map_nth. now rewrite (nth_error_nth _ _ a Ha).
Qed.
Print Assumptions C108_octave_mixed.
Example C108_octave_mixed_case : exists amps', add_gain (Some (DBands 2 (fun a => [fst a; snd a]))) [(1, 2); (3, 4)] ([[1; 1]; [1; 1]], []) = Some (amps', []) /\ amps' = [[1; 2]; [3; 4]].
Proof. eexists. split; [reflexivity|]. cbn. repeat (f_equal; try ring). Qed.
