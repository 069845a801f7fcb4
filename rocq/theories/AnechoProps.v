(** C141: image sources of a room object, randomised image sources, anechoic rooms and the direct SNR. *)
From Coq Require Import Reals List ZArith Lia Lra Bool.
From Verif Require Import Base Vec ShoeboxModel ShoeboxSpec ShoeboxProps RirModel RirSpec RirProofs RirProps AnechoModel BaseProofs.
Import ListNotations.
Local Open Scope R_scope.

(** ** Anechoic rooms *)
Lemma list_ext_nth (a b : list R) : length a = length b -> (forall d, (d < length a)%nat -> nth d a 0 = nth d b 0) -> a = b.
Proof. revert b; induction a as [|x a IH]; intros [|y b] HL H; try discriminate; [reflexivity|]. f_equal; [apply (H 0%nat); cbn; lia|]. apply IH; [now inversion HL|]. intros d Hd. apply (H (S d)). cbn. lia. Qed.
Lemma mapM_id {A} (l : list A) : mapM (fun c => c) (map Some l) = Some l.
Proof. induction l as [|a l IH]; [reflexivity|]. cbn. now rewrite IH. Qed.
Lemma anechoic_engine dim bands mics src r : anechoic dim bands mics = Some r -> length src = dim ->
  exists dirs, shoebox_engine r src 0 = Some {| en_images := [src]; en_orders := [0%Z]; en_damping := repeat [1] bands; en_dirs := [dirs]; en_visible := map (fun _ => [true]) mics |}.
Proof.
  unfold anechoic. intros H Hs. assert (D : dim = 2%nat \/ dim = 3%nat) by (destruct (Nat.eqb_spec dim 2); [auto|]; destruct (Nat.eqb_spec dim 3); [auto|]; discriminate).
  assert (Er : r = {| sb_size := repeat 1 dim; sb_abs := fun _ _ => 1; sb_scat := fun _ _ => 0; sb_bands := bands; sb_hybrid := false; sb_mics := mics |}) by (destruct (_ || _); [now inversion H|discriminate]). clear H.
  assert (SD : sb_dim r = dim) by (subst r; apply repeat_length). assert (SB : sb_bands r = bands) by (subst r; reflexivity). assert (SM : sb_mics r = mics) by (subst r; reflexivity).
  assert (HY : sb_hybrid r = false) by (subst r; reflexivity). assert (SD2 : sb_dim r = 2%nat \/ sb_dim r = 3%nat) by lia. clear Er.
  destruct (C01_shoebox_image_count r src 0 ltac:(lia) SD2) as (ims & E & L2 & L3). assert (L1 : length ims = 1%nat) by (destruct SD2 as [Q|Q]; [specialize (L2 Q)|specialize (L3 Q)]; lia).
  destruct ims as [|im [|im2 t]]; try discriminate L1. unfold shoebox_engine. rewrite E. cbn [bind]. rewrite mapM_id. cbn [bind map]. exists (im_dirs im).
  destruct (C02_shoebox_images_are_l1_ball r src 0 ltac:(lia) SD2) as (ims' & E' & _ & IN & ORD). rewrite E in E'. assert (ims' = [im]) by (destruct ims' as [|a [|b u]]; try discriminate E'; inversion E'; reflexivity). subst ims'.
  destruct (proj1 (IN (im_order_xyz im)) (or_introl eq_refl)) as [LX L1N]. assert (Z0 : forall p, (l1 p <= 0)%Z -> forall x, In x p -> x = 0%Z).
  { induction p as [|a p IH]; intros Hp x Hx; [easy|]. cbn [l1 fold_right] in Hp. fold (l1 p) in Hp. assert (NN : (0 <= l1 p)%Z) by (clear; induction p; cbn [l1 fold_right]; [lia|fold (l1 p); lia]). destruct Hx as [<-|Hx]; [lia|]. apply IH; [lia|auto]. }
  assert (NZ : forall d, nth d (im_order_xyz im) 0%Z = 0%Z) by (intros d; destruct (nth_in_or_default d (im_order_xyz im) 0%Z) as [Q|Q]; [now apply (Z0 (im_order_xyz im))|exact Q]).
  destruct (C03_shoebox_positions_are_mirror_images r src 0 [im] im ltac:(lia) SD2 ltac:(lia) E (or_introl eq_refl)) as [LL LN].
  assert (ELOC : im_loc im = src) by (apply list_ext_nth; [lia|]; intros d Hd; rewrite LN by lia; rewrite NZ; reflexivity).
  assert (EORD : im_order im = 0%Z) by (rewrite (ORD im (or_introl eq_refl)); assert (0 <= l1 (im_order_xyz im))%Z by (generalize (im_order_xyz im) as p; induction p; cbn [l1 fold_right]; [lia|fold (l1 p); lia]); lia).
  assert (EATT : im_att im = map (fun b => path_gain (fun c => sqrt (1 - sb_abs r b c)) (im_order_xyz im)) (seq 0 (sb_bands r))).
  { apply (C04_shoebox_attenuation r src 0 [im] im (fun b c => sqrt (1 - sb_abs r b c))); auto; try lia; [now left|]. intros [Q _]. congruence. }
  assert (PG : forall t p, (forall x, In x p -> x = 0%Z) -> path_gain t p = 1).
  { intros t p. unfold path_gain. generalize (seq 0 (length p)). induction p as [|a p IH]; intros [|s l] Hp; try reflexivity. cbn. fold Rprod. rewrite (Hp a (or_introl eq_refl)). cbn. rewrite IH; [unfold word_gain; cbn; ring|intros x Hx; apply Hp; now right]. }
  rewrite ELOC, EORD, SM. do 2 f_equal. rewrite EATT, SB. assert (G : forall n a, map (fun b => [nth b (map (fun b => path_gain (fun c => sqrt (1 - sb_abs r b c)) (im_order_xyz im)) (seq 0 (a + n))) 0]) (seq a n) = repeat [1] n).
  { induction n as [|n IH]; intros a; [reflexivity|]. cbn [seq map repeat]. f_equal; [f_equal; rewrite nth_map_seq by lia; apply PG; now apply Z0|]. rewrite <- (IH (S a)). apply map_ext. intros b. do 4 f_equal. lia. }
  apply (G bands 0%nat).
Qed.
(** An AnechoicRoom has no walls: wherever source and microphones are, also outside the dummy box, there is one image, the source
    itself, undamped and visible from every microphone. *)
Theorem C141_anechoic : forall dim bands mics src old, dim = 2%nat \/ dim = 3%nat -> length src = dim ->
  exists st, anechoic_source dim bands mics src old = Some (st, map (fun _ => [true]) mics) /\ so_images st = [src] /\ so_orders st = [0%Z] /\ so_damping st = repeat [1] bands.
Proof.
  intros dim bands mics src old Hd Hs. unfold anechoic_source. destruct (anechoic dim bands mics) as [r|] eqn:E; [|unfold anechoic in E; destruct Hd as [-> | ->]; discriminate E]. cbn [bind]. destruct (anechoic_engine _ _ _ _ _ E Hs) as [dirs H]. rewrite H. cbn [bind]. unfold image_source_model. cbn [en_images en_visible en_orders en_damping en_dirs].
  eexists {| so_images := [src] |}. split; [|split; [reflexivity|split; reflexivity]]. do 2 f_equal.
  unfold anechoic_inside. clear. induction mics as [|m mics IH]; [reflexivity|]. cbn [length seq map]. f_equal. rewrite <- seq_shift, map_map. exact IH.
Qed.
Print Assumptions C141_anechoic.
(** Its response is the direct sound alone: one windowed sinc at the travel time, with amplitude one over the distance. *)
Theorem C141_response : forall dim mics src old mic c fs fdl gran threads filt, dim = 2%nat \/ dim = 3%nat -> length src = dim -> 0 < c -> (0 < fs)%Z -> (fdl mod 2 = 1)%nat -> (0 < gran)%nat -> (0 < threads)%nat -> (forall b x, length (filt b x) = length x) ->
  exists st vis, anechoic_source dim 1 mics src old = Some (st, vis) /\ forall row, In row vis ->
  (exists result, compute_ism_rir filt (so_images st) (so_damping st) row mic None c fs fdl gran threads result) /\
  forall result, compute_ism_rir filt (so_images st) (so_damping st) row mic None c fs fdl gran threads result -> forall i, (i < length result)%nat ->
  nth i result 0 = / vdist src mic * pulse fdl gran (IZR fs * vdist src mic / c + INR ((fdl - 1) / 2)) (Z.of_nat i).
Proof.
  intros dim mics src old mic c fs fdl gran threads filt Hd Hs Hc Hfs Hfdl Hg Ht Hf. destruct (C141_anechoic dim 1 mics src old Hd Hs) as (st & E & I & _ & DA). exists st, (map (fun _ => [true]) mics). split; [exact E|]. intros row Hr. apply in_map_iff in Hr. destruct Hr as (m & <- & _). rewrite I, DA. cbn [repeat].
  destruct (C28_ism_response filt [src] [[1]] [true] mic None c fs fdl gran threads) as [EX (N & _ & P)]; auto; try discriminate.
  - intros att [<-|[]]; reflexivity.
  - exact Logic.I.
  - exists 0%nat. split; [cbn; lia|reflexivity].
  - split; [exact EX|]. intros result HR i Hi. destruct (P result HR) as [HL HN]. rewrite HL in Hi. rewrite (HN i Hi). cbn [n_bands_of length Nat.ltb Nat.leb seq map Rsum fold_right]. rewrite Rplus_0_r. rewrite nth_map_seq by lia. unfold ism_band. cbn [length seq map nth Rsum fold_right]. unfold image_amplitude, row. cbn. unfold Rdiv. ring.
Qed.
Print Assumptions C141_response.
(** ** Randomised image sources *)
(** Every coordinate of an image moves by at most [max_disp]; orders, dampings, directions and visibility are those without
    displacements. *)
Theorem C141_random : forall dim old e n_mics inside m u, 0 <= m -> (forall d i, 0 <= u d i < 1) -> en_images e <> [] -> (forall p, In p (en_images e) -> length p = dim) ->
  let '(st, vis) := image_source_model dim old e n_mics inside (Some (m, u)) in let '(st0, vis0) := image_source_model dim old e n_mics inside None in
  vis = vis0 /\ (so_orders st = en_orders e /\ so_orders st0 = en_orders e) /\ (so_damping st = en_damping e /\ so_damping st0 = en_damping e) /\ (so_dirs st = en_dirs e /\ so_dirs st0 = en_dirs e /\ so_images st0 = en_images e) /\ length (so_images st) = length (so_images st0) /\
  forall i, (i < length (so_images st))%nat -> length (nth i (so_images st) []) = dim /\ forall d, (d < dim)%nat -> Rabs (nth d (nth i (so_images st) []) 0 - nth d (nth i (so_images st0) []) 0) <= m.
Proof.
  intros dim old e n_mics inside m u Hm Hu Hne Hlen. unfold image_source_model. destruct (en_images e) as [|p l] eqn:EI; [contradiction|]. rewrite <- EI in *. cbn [so_images so_orders so_damping so_dirs]. split; [reflexivity|]. split; [split; reflexivity|]. split; [split; reflexivity|]. split; [repeat split|]. unfold displace. rewrite map_length, seq_length. split; [reflexivity|]. intros i Hi. set (f := fun i : nat => _). rewrite (nth_indep _ [] (f 0%nat)) by (rewrite map_length, seq_length; auto). rewrite map_nth, seq_nth by auto. cbn [plus]. unfold f. rewrite map_length, seq_length. split; [reflexivity|]. intros d Hd. rewrite nth_map_seq by auto. destruct (Hu d i). apply Rabs_le. split; nra.
Qed.
Print Assumptions C141_random.
Lemma near_dist (p q : vec) m : 0 <= m -> length p = length q -> (forall d, (d < length p)%nat -> Rabs (nth d p 0 - nth d q 0) <= m) -> vdist p q <= sqrt (INR (length p)) * m.
Proof.
  intros Hm HL H. unfold vdist, vnorm. rewrite <- (sqrt_square m Hm). rewrite <- sqrt_mult by (try apply pos_INR; nra). apply sqrt_le_1_alt. revert q HL H. induction p as [|a p IH]; intros [|b q] HL H; try discriminate; [cbn; lra|]. unfold vminus. cbn [map2]. unfold vsq. rewrite dot_cons. change (length (a :: p)) with (S (length p)). rewrite S_INR. specialize (IH q ltac:(now inversion HL) ltac:(intros d Hd; apply (H (S d)); cbn; lia)). unfold vsq, vminus in IH. specialize (H 0%nat ltac:(cbn; lia)). cbn [nth] in H. assert ((a - b) * (a - b) <= m * m) by (revert H; unfold Rabs; destruct (Rcase_abs (a - b)); intros; nra). lra.
Qed.
(** The travel distance to any point changes by at most sqrt(dim) times [max_disp]. *)
Theorem C141_random_delay : forall dim old e n_mics inside m u mic i, 0 <= m -> (forall d i, 0 <= u d i < 1) -> en_images e <> [] -> (forall p, In p (en_images e) -> length p = dim) -> length mic = dim ->
  let st := fst (image_source_model dim old e n_mics inside (Some (m, u))) in (i < length (en_images e))%nat -> Rabs (vdist (nth i (so_images st) []) mic - vdist (nth i (en_images e) []) mic) <= sqrt (INR dim) * m.
Proof.
  intros dim old e n_mics inside m u mic i Hm Hu Hne Hlen Hmic st Hi. pose proof (C141_random dim old e n_mics inside m u Hm Hu Hne Hlen) as H. unfold st. destruct (image_source_model dim old e n_mics inside (Some (m, u))) as [st1 v1]. destruct (image_source_model dim old e n_mics inside None) as [st0 v0] eqn:E0. assert (ES : so_images st0 = en_images e) by (unfold image_source_model in E0; destruct (en_images e) eqn:Q; [contradiction|]; injection E0 as <- <-; reflexivity).
  destruct H as (_ & _ & _ & _ & HL & HP). rewrite ES in *. cbn [fst]. destruct (HP i ltac:(lia)) as [L1 HD]. assert (L0 : length (nth i (en_images e) []) = dim) by (apply Hlen, nth_In; auto). pose proof (near_dist (nth i (so_images st1) []) (nth i (en_images e) []) m Hm ltac:(lia) ltac:(intros d Hd; apply HD; lia)) as N. rewrite L1 in N.
  pose proof (vdist_triangle (nth i (so_images st1) []) (nth i (en_images e) []) mic ltac:(lia) ltac:(lia)). pose proof (vdist_triangle (nth i (en_images e) []) (nth i (so_images st1) []) mic ltac:(lia) ltac:(lia)). rewrite (vdist_comm (nth i (en_images e) []) (nth i (so_images st1) [])) in * by lia. apply Rabs_le. lra.
Qed.
Print Assumptions C141_random_delay.
(** A microphone outside the room hears no image; one inside those the engine says. *)
Theorem C141_outside : forall dim old e n_mics inside rand m, en_images e <> [] -> (m < n_mics)%nat -> let row := nth m (snd (image_source_model dim old e n_mics inside rand)) [] in
  (inside m = true -> row = nth m (en_visible e) []) /\ (inside m = false -> length row = length (nth m (en_visible e) []) /\ forall i, nth i row false = false).
Proof.
  intros dim old e n_mics inside rand m Hne Hm. unfold image_source_model. destruct (en_images e) as [|p l] eqn:EI; [contradiction|]. cbn [snd]. set (f := fun m : nat => _). rewrite (nth_indep _ [] (f 0%nat)) by (rewrite map_length, seq_length; auto). rewrite map_nth, seq_nth by auto. cbn [plus]. unfold f. split; intros ->; [reflexivity|]. split; [apply map_length|]. intros i. generalize (nth m (en_visible e) []). intros r. revert i. induction r as [|b r IH]; intros [|i]; cbn; auto.
Qed.
Print Assumptions C141_outside.
(** Finding: the displacements are added to all images, the direct path included (2156-2161): the direct sound comes from elsewhere. *)
Theorem C141_direct_refuted : exists dim old e m u src mic, (forall d i, 0 <= u d i < 1) /\ 0 < m /\ (exists r, sb_size r = [4; 3; 5] /\ shoebox_engine r src 0 = Some e) /\
  let st := fst (image_source_model dim old e 1 (fun _ => true) (Some (m, u))) in nth 0 (so_orders st) 1%Z = 0%Z /\ nth 0 (so_images st) [] <> src /\ vdist (nth 0 (so_images st) []) mic <> vdist src mic.
Proof.
  set (r := {| sb_size := [4; 3; 5]; sb_abs := fun _ _ => 1 / 2; sb_scat := fun _ _ => 0; sb_bands := 1; sb_hybrid := false; sb_mics := [[3; 1; 1]] |}).
  assert (E : exists e, shoebox_engine r [1; 1; 1] 0 = Some e /\ en_images e = [[0 * 4 + 1; 0 * 3 + 1; 0 * 5 + 1]] /\ en_orders e = [0%Z]) by (unfold shoebox_engine, image_source_shoebox; cbn; eexists; split; [reflexivity|split; reflexivity]).
  destruct E as (e & E & EI & EO). exists 3%nat, {| so_images := []; so_orders := []; so_damping := []; so_dirs := [] |}, e, (1 / 10), (fun _ _ => 0), [1; 1; 1], [3; 1; 1]. split; [intros; lra|]. split; [lra|]. split; [exists r; split; [reflexivity|exact E]|]. unfold image_source_model. rewrite EI. cbn [fst so_orders so_images]. rewrite EO. split; [reflexivity|]. cbn -[vdist]. split.
  - intros Q. injection Q as Q1 Q2 Q3. lra.
  - unfold vdist, vnorm, vsq, vminus, dot. cbn. intros Q. apply sqrt_inj in Q; [lra| |]; nra.
Qed.
Print Assumptions C141_direct_refuted.
(** ** Bounding box of an anechoic room *)
Lemma fold_min l a : (forall x, In x (a :: l) -> fold_left Rmin l a <= x) /\ In (fold_left Rmin l a) (a :: l).
Proof.
  revert a; induction l as [|b l IH]; intros a; [cbn; split; [intros x [<-|[]]; lra|now left]|]. cbn [fold_left]. destruct (IH (Rmin a b)) as [A B]. split.
  - intros x [<-|[<-|Hx]]; [|apply Rle_trans with (Rmin a b); [apply A; now left|apply Rmin_r]|apply A; now right]. apply Rle_trans with (Rmin a b); [apply A; now left|apply Rmin_l].
  - destruct B as [B|B]; [|right; now right]. rewrite <- B. unfold Rmin. destruct (Rle_dec a b); [now left|right; now left].
Qed.
Lemma fold_max l a : (forall x, In x (a :: l) -> x <= fold_left Rmax l a) /\ In (fold_left Rmax l a) (a :: l).
Proof.
  revert a; induction l as [|b l IH]; intros a; [cbn; split; [intros x [<-|[]]; lra|now left]|]. cbn [fold_left]. destruct (IH (Rmax a b)) as [A B]. split.
  - intros x [<-|[<-|Hx]]; [|apply Rle_trans with (Rmax a b); [apply Rmax_r|apply A; now left]|apply A; now right]. apply Rle_trans with (Rmax a b); [apply Rmax_l|apply A; now left].
  - destruct B as [B|B]; [|right; now right]. rewrite <- B. unfold Rmax. destruct (Rle_dec a b); [right; now left|now left].
Qed.
(** The box is the smallest that holds the microphones and the sources: they are inside, and every bound is attained. *)
Theorem C141_bbox : forall dim mics sources box, anechoic_bbox dim (Some mics) sources = Some box -> mics ++ sources <> [] -> length box = dim /\ forall d, (d < dim)%nat -> let '(lo, hi) := nth d box (0, 0) in
  (forall p, In p (mics ++ sources) -> lo <= nth d p 0 <= hi) /\ (exists p, In p (mics ++ sources) /\ nth d p 0 = lo) /\ exists p, In p (mics ++ sources) /\ nth d p 0 = hi.
Proof.
  intros dim mics sources box H Hne. unfold anechoic_bbox in H. injection H as <-. rewrite map_length, seq_length. split; [reflexivity|]. intros d Hd. set (f := fun d : nat => _). rewrite (nth_indep _ (0, 0) (f 0%nat)) by (rewrite map_length, seq_length; auto). rewrite map_nth, seq_nth by auto. cbn [plus]. unfold f. destruct (mics ++ sources) as [|p l] eqn:E; [contradiction|]. cbn [map fold1]. destruct (fold_min (map (fun p => nth d p 0) l) (nth d p 0)) as [A B]. destruct (fold_max (map (fun p => nth d p 0) l) (nth d p 0)) as [A' B'].
  change (nth d p 0 :: map (fun p => nth d p 0) l) with (map (fun p => nth d p 0) (p :: l)) in *. split; [|split].
  - intros q Hq. split; [apply A|apply A']; apply (in_map (fun p => nth d p 0)); exact Hq.
  - apply in_map_iff in B. destruct B as (q & Q & Hq). exists q. split; [exact Hq|exact Q].
  - apply in_map_iff in B'. destruct B' as (q & Q & Hq). exists q. split; [exact Hq|exact Q].
Qed.
Print Assumptions C141_bbox.
(** ** Direct SNR *)
Lemma mean2_scal k s : mean2 (map (fun x => k * x) s) = k ^ 2 * mean2 s.
Proof. unfold mean2. rewrite map_length, map_map. unfold Rdiv. rewrite <- Rmult_assoc. f_equal. induction s as [|a s IH]; cbn [map Rsum fold_right]; [ring|]. fold (Rsum (map (fun x => (k * x) ^ 2) s)). fold (Rsum (map (fun x => x ^ 2) s)). rewrite IH. ring. Qed.
Lemma d2_dist a b : length a = length b -> Rsum (map (fun d => (nth d a 0 - nth d b 0) ^ 2) (seq 0 (length a))) = vdist a b ^ 2.
Proof.
  intros H. unfold vdist, vnorm. rewrite pow2_sqrt by apply vsq_nonneg. unfold vsq. revert b H. induction a as [|x a IH]; intros [|y b] H; try discriminate; [reflexivity|]. cbn [length seq map Rsum fold_right nth]. rewrite <- seq_shift, map_map. fold (Rsum (map (fun d => (nth (S d) (x :: a) 0 - nth (S d) (y :: b) 0) ^ 2) (seq 0 (length a)))). cbn [nth]. rewrite IH by now inversion H. unfold vminus. cbn [map2]. unfold dot. cbn [map2 Rsum fold_right].
  unfold Rsum. ring.
Qed.
(** For the first source, direct_snr is the power of its signal with the amplitude 1 / (4 pi d) of a point source over the variance
    of the noise. *)
Theorem C141_snr : forall sig pos rest s2 x, s2 <> 0 -> length x = length pos -> vdist x pos <> 0 ->
  direct_snr ((Some sig, pos) :: rest) (Some s2) x 0 = Some (Some (mean2 (map (fun v => / (4 * PI * vdist x pos) * v) sig) / s2)).
Proof.
  intros sig pos rest s2 x H2 HL Hd. unfold direct_snr. cbn [nth_error bind fst snd]. do 2 f_equal. rewrite d2_dist by auto. rewrite mean2_scal. field. repeat split; auto; try apply PI_neq0.
Qed.
Print Assumptions C141_snr.
(** Finding: for other sources the power is that of the first one (2501). *)
Theorem C141_snr_source_refuted : exists sources s2 x sig pos, nth_error sources 1 = Some (Some sig, pos) /\ vdist x pos = 1 /\ mean2 sig = 4 /\ direct_snr sources (Some s2) x 1 <> Some (Some (mean2 (map (fun v => / (4 * PI * vdist x pos) * v) sig) / s2)).
Proof.
  exists [(Some [1], [0; 0; 5]); (Some [2], [0; 0; 1])], 1, [0; 0; 0], [2], [0; 0; 1]. split; [reflexivity|]. assert (V : vdist [0; 0; 0] [0; 0; 1] = 1) by (unfold vdist, vnorm, vsq, vminus, dot; cbn; replace ((0 - 0) * (0 - 0) + ((0 - 0) * (0 - 0) + ((0 - 1) * (0 - 1) + 0))) with 1 by ring; apply sqrt_1). split; [exact V|]. split; [unfold mean2; cbn; field|]. rewrite V. unfold direct_snr. cbn [nth_error bind fst snd]. intros Q. injection Q as Q. unfold mean2 in Q. cbn in Q. pose proof PI_RGT_0. assert (P2 : 0 < / (PI * PI)) by (apply Rinv_0_lt_compat; nra).
  assert (A : (1 * (1 * 1) + 0) / 1 / 1 / (16 * (PI * (PI * 1)) * ((0 - 0) * ((0 - 0) * 1) + ((0 - 0) * ((0 - 0) * 1) + ((0 - 1) * ((0 - 1) * 1) + 0)))) = / 16 * / (PI * PI)) by (field; lra).
  assert (B : (/ (4 * PI * 1) * 2 * (/ (4 * PI * 1) * 2 * 1) + 0) / 1 / 1 = / 4 * / (PI * PI)) by (field; lra). lra.
Qed.
Print Assumptions C141_snr_source_refuted.
(** Finding: the simulated direct sound has the amplitude 1 / d (C141_response), not 1 / (4 pi d): at every distance direct_snr is
    16 pi^2 times smaller than the ratio in the simulated signals. *)
Theorem C141_snr_scale_refuted : exists sig pos s2 x, vdist x pos <> 0 /\ direct_snr [(Some sig, pos)] (Some s2) x 0 = Some (Some (mean2 (map (fun v => / vdist x pos * v) sig) / s2 / (16 * PI ^ 2))) /\
  direct_snr [(Some sig, pos)] (Some s2) x 0 <> Some (Some (mean2 (map (fun v => / vdist x pos * v) sig) / s2)).
Proof.
  exists [1], [0; 0; 1], 1, [0; 0; 0]. assert (V : vdist [0; 0; 0] [0; 0; 1] = 1) by (unfold vdist, vnorm, vsq, vminus, dot; cbn; replace ((0 - 0) * (0 - 0) + ((0 - 0) * (0 - 0) + ((0 - 1) * (0 - 1) + 0))) with 1 by ring; apply sqrt_1). rewrite V. split; [lra|]. rewrite C141_snr by (rewrite ?V; auto; lra). rewrite V, !mean2_scal. assert (M : mean2 [1] = 1) by (unfold mean2; cbn; field). rewrite M. pose proof PI_RGT_0. split; [do 2 f_equal; field; lra|]. intros Q0. assert (Q : (/ (4 * PI * 1)) ^ 2 * 1 / 1 = (/ 1) ^ 2 * 1 / 1) by congruence. clear Q0. assert (P2 : 3 < PI) by (pose proof PI2_3_2; unfold PI2 in *; lra). assert (A : (/ (4 * PI * 1)) ^ 2 * 1 / 1 = / (16 * PI * PI)) by (field; lra). assert (B : (/ 1) ^ 2 * 1 / 1 = 1) by field. rewrite A, B in Q. assert (1 < 16 * PI * PI) by nra. apply (f_equal (fun z => z * (16 * PI * PI))) in Q. rewrite Rinv_l in Q by nra. lra.
Qed.
Print Assumptions C141_snr_scale_refuted.

(** ** Concrete cases *)
Example C141_anechoic_example : exists st, anechoic_source 3 2 [[7; -3; 2]; [0; 0; 0]] [-5; 9; 4] {| so_images := []; so_orders := []; so_damping := []; so_dirs := [] |} = Some (st, [[true]; [true]]) /\ so_images st = [[-5; 9; 4]] /\ so_damping st = [[1]; [1]].
Proof. destruct (C141_anechoic 3 2 [[7; -3; 2]; [0; 0; 0]] [-5; 9; 4] {| so_images := []; so_orders := []; so_damping := []; so_dirs := [] |} (or_intror eq_refl) eq_refl) as (st & A & B & _ & C). exists st. auto. Qed.
Example C141_bbox_example : anechoic_bbox 2 (Some [[1; 5]; [3; 2]]) [[2; -1]] = Some [(1, 3); (-1, 5)].
Proof.
  cbn. unfold Rmin, Rmax. repeat (destruct (Rle_dec _ _); try lra). reflexivity.
Qed.
Example C141_bbox_empty : forall dim, anechoic_bbox dim None [] = None.
Proof. reflexivity. Qed.
Example C141_random_example : displace 2 (8 / 100) (fun d i => if Nat.eqb d 0 then 1 / 2 else 1 / 4) [[1; 2]] = [[1; 2 - 4 / 100]].
Proof. unfold displace. cbn. f_equal. f_equal; [lra|]. f_equal. lra. Qed.
