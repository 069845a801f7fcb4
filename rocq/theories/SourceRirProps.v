(** The channel matrix build_rir_matrix (SourceModel). *)
From Coq Require Import List ZArith Lia Reals Lra Bool.
From Verif Require Import Base Vec SimulateModel SimulateSpec SimulateProofs RirModel RirProofs UtilModel SourceModel SourceProps StftProofs BaseProofs.
Import ListNotations.
Local Open Scope R_scope.

(** Distance, delay and gain of image [j] of source [s] at microphone [m]. *)
Definition img_dist (s : sound_source) (m : vec) (j : nat) : R := vdist (nth j (images s) []) m.
Definition img_gain (ud : bool) (s : sound_source) (m : vec) (j : nat) : R :=
  (if ud then 1 else nth 0 (nth j (damping s) []) 0) / (4 * PI * img_dist s m j).

(** One band, damping not negative, the same dimension everywhere, no microphone at an image. *)
Definition source_ok (mics : list vec) (s : sound_source) : Prop :=
  lined_up s /\ images s <> [] /\ Forall (fun d => exists v, d = [v] /\ 0 <= v) (damping s) /\
  forall m, In m mics -> Forall (fun im => length im = length m /\ 0 < vdist im m) (images s).

Lemma vmin_spec : forall l, l <> [] -> exists m, vmin l = Some m /\ In m l /\ Forall (fun x => m <= x) l.
Proof.
  intros [|x l] H; [congruence|]. clear H. cbn [vmin]. revert x. induction l as [|y l IH]; intro x; cbn [fold_left].
  - exists x. split; [reflexivity|]. split; [now left|]. constructor; [lra|constructor].
  - destruct (IH (Rmin x y)) as (m & E & Hin & Hall). exists m. split; [exact E|]. inversion Hall as [|? ? M Q]; subst.
    pose proof (Rmin_l x y). pose proof (Rmin_r x y). split.
    + destruct Hin as [W|W]; [|now right; right]. unfold Rmin in W. destruct (Rle_dec x y); [now left|right; now left].
    + constructor; [lra|]. constructor; [lra|exact Q].
Qed.
Lemma vmax_spec : forall l, l <> [] -> exists m, vmax l = Some m /\ In m l /\ Forall (fun x => x <= m) l.
Proof.
  intros [|x l] H; [congruence|]. clear H. cbn [vmax]. revert x. induction l as [|y l IH]; intro x; cbn [fold_left].
  - exists x. split; [reflexivity|]. split; [now left|]. constructor; [lra|constructor].
  - destruct (IH (Rmax x y)) as (m & E & Hin & Hall). exists m. split; [exact E|]. inversion Hall as [|? ? M Q]; subst.
    pose proof (Rmax_l x y). pose proof (Rmax_r x y). split.
    + destruct Hin as [W|W]; [|now right; right]. unfold Rmax in W. destruct (Rle_dec x y); [right; now left|now left].
    + constructor; [lra|]. constructor; [lra|exact Q].
Qed.

Lemma list_seq : forall A (l : list A) d, l = map (fun j => nth j l d) (seq 0 (length l)).
Proof.
  intros A l d. apply (nth_ext _ _ d d); [now rewrite map_length, seq_length|]. intros j Hj. now rewrite nth_map_seq by exact Hj.
Qed.
Lemma map2_maps : forall A B C (f : A -> B -> C) (a : nat -> A) (b : nat -> B) l, map2 f (map a l) (map b l) = map (fun j => f (a j) (b j)) l.
Proof. intros. induction l as [|x l IH]; [reflexivity|]. cbn. now rewrite IH. Qed.

Lemma forall2_left : forall A B (P : A -> B -> Prop) l l' b, Forall2 P l l' -> In b l' -> exists a, In a l /\ P a b.
Proof.
  intros A B P l l' b H Hin. induction H as [|x y l l' Hxy H IH]; [destruct Hin|]. destruct Hin as [->|Hin]; [exists x; split; [now left|exact Hxy]|].
  destruct (IH Hin) as (a & Ha & Pa). exists a. split; [now right|exact Pa].
Qed.
Lemma forall2_at : forall A B (P : A -> B -> Prop) l l' k a, Forall2 P l l' -> nth_error l k = Some a -> exists b, nth_error l' k = Some b /\ P a b.
Proof.
  intros A B P l l' k a H. revert k. induction H as [|x y l l' Hxy H IH]; intros [|k] Hk; try discriminate.
  - injection Hk as ->. exists y. split; [reflexivity|exact Hxy].
  - exact (IH k Hk).
Qed.

Section Matrix.
Variables (c fs eps : R) (Lg : nat) (ud : bool) (mics : list vec).
Hypotheses (Hc : 0 < c) (Hf : 0 < fs) (He : 0 < eps) (HL : (0 < Lg)%nat) (Hm : mics <> []).

Lemma distances_ok : forall s m, source_ok mics s -> In m mics ->
  distances s m = Some (map (img_dist s m) (seq 0 (length (images s)))).
Proof.
  intros s m (_ & _ & _ & H) Hin. specialize (H m Hin). unfold distances.
  replace (forallb _ _) with true.
  - f_equal. apply (nth_ext _ _ 0 0); [now rewrite !map_length, seq_length|]. intros j Hj. rewrite map_length in Hj.
    rewrite nth_map_seq by exact Hj. rewrite (nth_indep _ 0 (vdist [] m)) by (now rewrite map_length). now rewrite (map_nth (fun im => vdist im m)).
  - symmetry. apply forallb_forall. intros im Hi. rewrite Forall_forall in H. apply Nat.eqb_eq. now apply (H im).
Qed.

Lemma gains_ok : forall s m, source_ok mics s -> In m mics ->
  rir_gains ud s (map (img_dist s m) (seq 0 (length (images s)))) = map (img_gain ud s m) (seq 0 (length (images s))).
Proof.
  intros s m ((L1 & _) & _) Hin. unfold rir_gains, img_gain. destruct ud.
  - rewrite map_map. reflexivity.
  - rewrite (list_seq _ (damping s) []) at 1. rewrite L1, map2_maps. reflexivity.
Qed.

Lemma gain_nonneg : forall s m j, source_ok mics s -> In m mics -> (j < length (images s))%nat -> 0 <= img_gain ud s m j /\ 0 < img_dist s m j.
Proof.
  intros s m j ((L1 & _) & _ & Hd & H) Hin Hj. specialize (H m Hin). rewrite Forall_forall in H, Hd.
  destruct (H (nth j (images s) []) (nth_In _ _ Hj)) as [_ P]. fold (img_dist s m j) in P. split; [|exact P].
  unfold img_gain. apply Rmult_le_pos; [|left; apply Rinv_0_lt_compat; pose proof PI_RGT_0; apply Rmult_lt_0_compat; lra].
  destruct ud; [lra|]. destruct (Hd (nth j (damping s) [])) as (v & -> & Hv); [apply nth_In; lia|exact Hv].
Qed.

(** The bounds found so far. *)
Definition covers (b : rir_bounds) (s : sound_source) : Prop :=
  forall m j, In m mics -> (j < length (images s))%nat ->
    (exists lo, b_min b = Some lo /\ lo <= img_dist s m j) /\ img_dist s m j <= b_max b /\ img_gain ud s m j <= b_gain b.
Definition wider (a b : rir_bounds) : Prop :=
  (forall lo, b_min a = Some lo -> exists lo', b_min b = Some lo' /\ lo' <= lo) /\ b_max a <= b_max b /\ b_gain a <= b_gain b.
Definition seen (l : list sound_source) (d : R) : Prop := exists s m j, In s l /\ In m mics /\ (j < length (images s))%nat /\ d = img_dist s m j.

Lemma step_ok : forall b s, source_ok mics s -> exists b', rir_bounds_step mics ud b s = Some b' /\ covers b' s /\ wider b b' /\
  (exists lo, b_min b' = Some lo /\ (b_min b = Some lo \/ seen [s] lo)) /\ (b_max b' = b_max b \/ seen [s] (b_max b')).
Proof.
  intros b s Hs. pose proof Hs as (_ & Hne & _). unfold rir_bounds_step.
  assert (E : mapM (fun m => distances s m) mics = Some (map (fun m => map (img_dist s m) (seq 0 (length (images s)))) mics)).
  { rewrite <- mapM_total. apply mapM_ext_in. intros m Hin. now apply distances_ok. }
  rewrite E. cbn [bind].
  set (ds := concat (map (fun m => map (img_dist s m) (seq 0 (length (images s)))) mics)).
  assert (Ig : forall (f : vec -> nat -> R) x, In x (concat (map (fun m => map (f m) (seq 0 (length (images s)))) mics)) <->
                exists m j, In m mics /\ (j < length (images s))%nat /\ x = f m j).
  { intros f x. rewrite in_concat. split.
    - intros (l & Hl & Hx). apply in_map_iff in Hl. destruct Hl as (m & <- & Hm'). apply in_map_iff in Hx. destruct Hx as (j & <- & Hj).
      apply in_seq in Hj. exists m, j. repeat split; auto. lia.
    - intros (m & j & Hm' & Hj & ->). exists (map (f m) (seq 0 (length (images s)))). split; [apply in_map_iff; now exists m|].
      apply in_map_iff. exists j. split; [reflexivity|]. apply in_seq. lia. }
  assert (Hex : exists m0 j0, In m0 mics /\ (j0 < length (images s))%nat).
  { destruct mics as [|m0 r]; [congruence|]. exists m0, 0%nat. split; [now left|]. destruct (images s); [congruence|cbn; lia]. }
  destruct Hex as (m0 & j0 & Hm0 & Hj0).
  assert (Dne : ds <> []). { intro Q. assert (In (img_dist s m0 j0) ds) as W by (apply Ig; now exists m0, j0). rewrite Q in W. destruct W. }
  destruct (vmin_spec ds Dne) as (lo & E1 & I1 & F1). destruct (vmax_spec ds Dne) as (hi & E2 & I2 & F2). rewrite E1, E2. cbn [bind].
  rewrite map_map. rewrite (map_ext_in _ (fun m => map (img_gain ud s m) (seq 0 (length (images s))))) by (intros m Hin; now apply gains_ok).
  set (gs := concat _).
  assert (Gne : gs <> []). { intro Q. assert (In (img_gain ud s m0 j0) gs) as W by (apply Ig; now exists m0, j0). rewrite Q in W. destruct W. }
  destruct (vmax_spec gs Gne) as (g & E3 & I3 & F3). rewrite E3. cbn [bind]. eexists. split; [reflexivity|].
  rewrite Forall_forall in F1, F2, F3. split; [|split; [|split]]; cbn [b_min b_max b_gain].
  - intros m j Hm' Hj. cbn [b_min b_max b_gain].
    assert (In (img_dist s m j) ds) as W by (apply Ig; now exists m, j). assert (In (img_gain ud s m j) gs) as V by (apply Ig; now exists m, j).
    split; [|split].
    + eexists. split; [reflexivity|]. specialize (F1 _ W). destruct (b_min b) as [x|]; [|exact F1]. pose proof (Rmin_l lo x). lra.
    + specialize (F2 _ W). pose proof (Rmax_l hi (b_max b)). lra.
    + specialize (F3 _ V). pose proof (Rmax_l g (b_gain b)). lra.
  - split; [|split; apply Rmax_r]. intros x ->. eexists. split; [reflexivity|apply Rmin_r].
  - assert (W : seen [s] lo). { apply Ig in I1. destruct I1 as (m & j & A & B & C). exists s, m, j. repeat split; auto. now left. }
    destruct (b_min b) as [x|]; eexists; (split; [reflexivity|]); [|right; exact W].
    unfold Rmin. destruct (Rle_dec lo x); [right; exact W|now left].
  - unfold Rmax. destruct (Rle_dec hi (b_max b)); [now left|right]. apply Ig in I2. destruct I2 as (m & j & A & B & C). exists s, m, j. repeat split; auto. now left.
Qed.

Lemma wider_covers : forall a b s, wider a b -> covers a s -> covers b s.
Proof.
  intros a b s (W1 & W2 & W3) H m j Hm' Hj. destruct (H m j Hm' Hj) as ((lo & E & L) & U & G). destruct (W1 lo E) as (lo' & E' & L').
  split; [exists lo'; split; [exact E'|lra]|]. lra.
Qed.
Lemma wider_trans : forall a b d, wider a b -> wider b d -> wider a d.
Proof.
  intros a b d (A1 & A2 & A3) (B1 & B2 & B3). split; [|lra]. intros lo E. destruct (A1 lo E) as (l1 & E1 & L1). destruct (B1 l1 E1) as (l2 & E2 & L2).
  exists l2. split; [exact E2|lra].
Qed.

Lemma bounds_ok : forall l b, Forall (source_ok mics) l -> exists b', foldM (rir_bounds_step mics ud) l b = Some b' /\ Forall (covers b') l /\ wider b b' /\
  (forall lo, b_min b' = Some lo -> b_min b = Some lo \/ seen l lo) /\ (b_max b' = b_max b \/ seen l (b_max b')) /\ (l <> [] -> b_min b' <> None).
Proof.
  intros l. induction l as [|s l IH]; intros b H; cbn [foldM].
  - exists b. split; [reflexivity|]. split; [constructor|]. split; [split; [|lra]; intros lo E; exists lo; split; [exact E|lra]|].
    split; [now left|]. split; [now left|congruence].
  - inversion H as [|? ? Hs Hl]; subst. destruct (step_ok b s Hs) as (b1 & E1 & C1 & W1 & (lo & M1 & M2) & X1). rewrite E1. cbn [bind].
    destruct (IH b1 Hl) as (b2 & E2 & C2 & W2 & M & X2 & _). exists b2. split; [exact E2|]. split; [constructor; [now apply (wider_covers b1)|exact C2]|].
    split; [now apply (wider_trans b b1)|].
    assert (Ext : forall l1 d, (forall s0, In s0 l1 -> In s0 (s :: l)) -> seen l1 d -> seen (s :: l) d).
    { intros l1 d Q (s0 & m & j & A & B & C & D). exists s0, m, j. repeat split; auto. }
    assert (Q1 : forall s0, In s0 [s] -> In s0 (s :: l)) by (intros s0 [<-|[]]; now left).
    assert (Q2 : forall s0, In s0 l -> In s0 (s :: l)) by (intros s0 Q; now right).
    split; [|split].
    + intros x Ex. destruct (M x Ex) as [P|P]; [|right; now apply (Ext l)]. assert (x = lo) by congruence. subst x.
      destruct M2 as [M2|M2]; [now left|right; now apply (Ext [s])].
    + destruct X2 as [X2|X2]; [|right; now apply (Ext l)]. rewrite X2. destruct X1 as [X1|X1]; [now left|right; now apply (Ext [s])].
    + intros _ Q. destruct W2 as (W2 & _). destruct (W2 lo M1) as (y & Ey & _). congruence.
Qed.

Lemma nth_blocks : forall A (d : A) n (ls : list (list A)) r i, Forall (fun l => length l = n) ls -> (i < n)%nat ->
  nth (r * n + i) (concat ls) d = nth i (nth r ls []) d.
Proof.
  intros A d n ls. induction ls as [|l ls IH]; intros r i H Hi.
  - destruct r; cbn [concat nth]; destruct (_ * _ + i)%nat; destruct i; reflexivity.
  - inversion H as [|? ? Hl Hls]; subst. cbn [concat]. destruct r as [|r]; cbn [nth].
    + rewrite app_nth1 by (cbn; lia). reflexivity.
    + rewrite app_nth2 by lia. replace (S r * length l + i - length l)%nat with (r * length l + i)%nat by lia. now apply IH.
Qed.

Lemma concat_length : forall A n (ls : list (list A)), Forall (fun l => length l = n) ls -> length (concat ls) = (length ls * n)%nat.
Proof. intros A n ls H. induction H as [|l ls Hl H IH]; [reflexivity|]. cbn [concat length]. rewrite app_length, IH. lia. Qed.

Lemma convmtx_entry : forall h, exists C, convmtx h Lg = Some C /\ length C = (length h + Lg - 1)%nat /\
  forall n i, (n < length h + Lg - 1)%nat -> (i < Lg)%nat -> nth i (nth n C []) 0 = at_time h (Z.of_nat n - Z.of_nat i).
Proof.
  intro h. unfold convmtx. destruct (Nat.eqb_spec Lg 0); [lia|]. eexists. split; [reflexivity|]. unfold toeplitz_cr.
  rewrite app_length, !repeat_length. split; [rewrite map_length, seq_length; lia|]. intros n1 i Hn Hi.
  rewrite nth_map_seq by lia. rewrite nth_map_seq by exact Hi. unfold at_time. destruct (Nat.leb_spec i n1).
  - destruct (Z.ltb_spec (Z.of_nat n1 - Z.of_nat i) 0); [lia|]. replace (Z.to_nat (Z.of_nat n1 - Z.of_nat i)) with (n1 - i)%nat by lia.
    destruct (Nat.lt_ge_cases (n1 - i) (length h)) as [Q|Q]; [now rewrite app_nth1|]. rewrite app_nth2 by exact Q. rewrite nth_repeat. now rewrite nth_overflow.
  - rewrite nth_repeat. destruct (Z.ltb_spec (Z.of_nat n1 - Z.of_nat i) 0); [reflexivity|lia].
Qed.

(** The response from source [s] to microphone [m]: a sinc at the delay of each image, [lo] being the
    shortest distance and [offset] the time left before it. *)
Definition response (s : sound_source) (m : vec) (lo offset : R) (k : Z) : R :=
  Rsum (map (fun j => img_gain ud s m j * sinc (IZR k - fs * ((img_dist s m j - lo) / c + offset))) (seq 0 (length (images s)))).

Lemma channel_ok : forall s m lo offset Lh, source_ok mics s -> In m mics -> exists h, channel c fs ud s m (lo / c) offset Lh = Some h /\ length h = Lh /\
  forall k, (0 <= k < Z.of_nat Lh)%Z -> at_time h k = response s m lo offset k.
Proof.
  intros s m lo offset Lh Hs Hin. unfold channel. rewrite (distances_ok s m Hs Hin). cbn [bind].
  replace (existsb _ _) with false.
  - eexists. split; [reflexivity|]. unfold dirac_train. split; [now rewrite map_length, seq_length|]. intros k Hk. unfold at_time.
    destruct (Z.ltb_spec k 0); [lia|]. rewrite nth_map_seq by lia. rewrite gains_ok by assumption. rewrite map_map, map2_maps. unfold response.
    apply Rsum_map_ext. intros j _. do 3 f_equal; [rewrite INR_IZR_INZ, Z2Nat.id by lia; reflexivity|]. field. lra.
  - symmetry. apply not_true_is_false. intro Q. apply existsb_exists in Q. destruct Q as (x & Hx & Ex). apply in_map_iff in Hx.
    destruct Hx as (j & <- & Hj). apply in_seq in Hj. destruct (gain_nonneg s m j Hs Hin ltac:(lia)) as [_ P].
    destruct (Req_EM_T (img_dist s m j) 0); [lra|discriminate].
Qed.

(** The matrix: block (r, q) is the Toeplitz matrix of the response of [Lh] samples from source [q] to
    microphone [r]; the first image arrives after [offset], the last [offset] before the end (up to a
    sample). *)
Theorem C99_matrix : forall sources, sources <> [] -> Forall (source_ok mics) sources ->
  exists H lo hi offset Lh, build_rir_matrix c fs eps Lg ud mics sources = Some H /\
    let L := (Lg + Lh - 1)%nat in
    length H = (length mics * Lg)%nat /\ Forall (fun row => length row = (length sources * L)%nat) H /\
    (forall r q i n, (r < length mics)%nat -> (q < length sources)%nat -> (i < Lg)%nat -> (n < L)%nat ->
       exists s m, nth_error sources q = Some s /\ nth_error mics r = Some m /\
       let k := (Z.of_nat n - Z.of_nat i)%Z in
       nth (q * L + n) (nth (r * Lg + i) H []) 0 = if (0 <=? k)%Z && (k <? Z.of_nat Lh)%Z then response s m lo offset k else 0) /\
    (forall s m j, In s sources -> In m mics -> (j < length (images s))%nat ->
       lo <= img_dist s m j <= hi /\ img_gain ud s m j <= offset * (PI * fs * eps)) /\
    seen sources lo /\ seen sources hi /\ 0 <= offset /\
    INR Lh <= ((hi - lo) / c + 2 * offset) * fs < INR Lh + 1.
Proof.
  intros sources Hne HS.
  destruct (bounds_ok sources {| b_min := None; b_max := 0; b_gain := 0 |} HS) as (b & E & C & (_ & W2 & W3) & M & X & N). cbn [b_max b_gain b_min] in *.
  destruct (b_min b) as [lo|] eqn:El; [|exfalso; now apply N]. clear N.
  destruct (M lo eq_refl) as [Q|Slo]; [discriminate|]. clear M.
  set (offset := b_gain b / (PI * fs * eps)). set (hi := b_max b).
  assert (Hpi : 0 < PI) by apply PI_RGT_0. assert (Hden : 0 < PI * fs * eps) by (apply Rmult_lt_0_compat; [apply Rmult_lt_0_compat|]; assumption).
  assert (O0 : 0 <= offset) by (unfold offset; apply Rmult_le_pos; [exact W3|left; now apply Rinv_0_lt_compat]).
  rewrite Forall_forall in C, HS.
  assert (Hall : forall s m j, In s sources -> In m mics -> (j < length (images s))%nat ->
       lo <= img_dist s m j <= hi /\ img_gain ud s m j <= offset * (PI * fs * eps)).
  { intros s m j A B D. destruct (C s A m j B D) as ((lo' & E' & L') & U & G). rewrite El in E'. assert (lo' = lo) by congruence. subst lo'.
    split; [split; [exact L'|exact U]|]. unfold offset. replace (b_gain b / (PI * fs * eps) * (PI * fs * eps)) with (b_gain b) by (field; lra). exact G. }
  assert (Shi : seen sources hi).
  { destruct X as [X|X]; [|exact X]. exfalso. destruct Slo as (s & m & j & A & B & D & F). destruct (Hall s m j A B D) as [[_ U] _].
    destruct (gain_nonneg s m j (HS s A) B D) as [_ P]. unfold hi in U. lra. }
  assert (Hlh : lo <= hi). { destruct Slo as (s & m & j & A & B & D & F). destruct (Hall s m j A B D) as [U _]. lra. }
  set (T := (hi / c - lo / c + 2 * offset) * fs).
  assert (T0 : 0 <= T).
  { unfold T. apply Rmult_le_pos; [|lra]. replace (hi / c - lo / c) with ((hi - lo) * / c) by (field; lra).
    pose proof (Rmult_le_pos (hi - lo) (/ c) ltac:(lra) (Rlt_le _ _ (Rinv_0_lt_compat _ Hc))). lra. }
  set (Lh := Z.to_nat (truncate_int T)).
  assert (HLh : INR Lh <= T < INR Lh + 1).
  { unfold Lh, truncate_int. destruct (Rle_dec 0 T); [|lra]. destruct (Zfloor_bounds T) as [F1 F2].
    assert (0 <= Zfloor T)%Z by (apply Z.lt_succ_r, lt_IZR; rewrite succ_IZR; lra). rewrite INR_IZR_INZ, Z2Nat.id by assumption. lra. }
  set (blk := fun m s => let* h := channel c fs ud s m (lo / c) offset Lh in convmtx h Lg).
  assert (HB : forall m s, In m mics -> In s sources -> exists Cm, blk m s = Some Cm /\ length Cm = (Lg + Lh - 1)%nat /\
     forall n i, (n < Lg + Lh - 1)%nat -> (i < Lg)%nat -> nth i (nth n Cm []) 0 =
       let k := (Z.of_nat n - Z.of_nat i)%Z in if (0 <=? k)%Z && (k <? Z.of_nat Lh)%Z then response s m lo offset k else 0).
  { intros m s Hm' Hs'. destruct (channel_ok s m lo offset Lh (HS s Hs') Hm') as (h & Eh & Lhh & Rh). destruct (convmtx_entry h) as (Cm & EC & LC & RC).
    exists Cm. unfold blk. rewrite Eh. cbn [bind]. split; [exact EC|]. split; [lia|]. intros n i Hn Hi. rewrite RC by lia. cbv zeta.
    destruct (Z.leb_spec 0 (Z.of_nat n - Z.of_nat i)); cbn [andb].
    - destruct (Z.ltb_spec (Z.of_nat n - Z.of_nat i) (Z.of_nat Lh)); [apply Rh; lia|]. unfold at_time.
      destruct (Z.ltb_spec (Z.of_nat n - Z.of_nat i) 0); [reflexivity|]. apply nth_overflow. lia.
    - unfold at_time. destruct (Z.ltb_spec (Z.of_nat n - Z.of_nat i) 0); [reflexivity|lia]. }
  assert (HR : forall m, In m mics -> exists row, mapM (blk m) sources = Some row /\ Forall2 (fun s Cm => blk m s = Some Cm) sources row).
  { intros m Hm'. apply mapM_Some. intros s Hs'. destruct (HB m s Hm' Hs') as (Cm & EC & _). now exists Cm. }
  destruct (mapM_Some (fun m => mapM (blk m) sources) mics) as (blocks & EB & FB).
  { intros m Hm'. destruct (HR m Hm') as (row & ER & _). now exists row. }
  unfold build_rir_matrix.
  replace (forallb one_band sources) with true.
  2: { symmetry. apply forallb_forall. intros s Hs'. unfold one_band. apply forallb_forall. intros d Hd'. destruct (HS s Hs') as (_ & _ & D & _).
       rewrite Forall_forall in D. destruct (D d Hd') as (v & -> & _). reflexivity. }
  cbn [negb]. rewrite E. cbn [bind]. rewrite El. cbn [bind]. fold hi offset. change ((hi / c - lo / c + 2 * offset) * fs) with T. fold Lh.
  change (mapM (fun m => mapM (fun s => let* h := channel c fs ud s m (lo / c) offset Lh in convmtx h Lg) sources) mics) with (mapM (fun m => mapM (blk m) sources) mics).
  rewrite EB. cbn [bind].
  set (rows := fun row : list (list vec) => map (fun i => concat (map (fun Cm => map (fun r => nth i r 0) Cm) row)) (seq 0 Lg)).
  assert (Lbl : length blocks = length mics) by (now apply mapM_length in EB).
  assert (Fent : forall m row, In m mics -> mapM (blk m) sources = Some row -> length row = length sources /\ Forall (fun Cm => length Cm = (Lg + Lh - 1)%nat) row).
  { intros m row Hm' F. split; [now apply mapM_length in F|]. apply Forall_forall. intros Cm HCm. destruct (forall2_left _ _ _ _ _ _ (mapM_inv _ _ _ F) HCm) as (s & Hs' & Eb).
    destruct (HB m s Hm' Hs') as (Cm' & E' & L' & _). assert (Cm' = Cm) by congruence. now subst Cm'. }
  assert (Lrow : forall row, In row blocks -> Forall (fun x => length x = (length sources * (Lg + Lh - 1))%nat) (rows row)).
  { intros row Hrow. destruct (forall2_left _ _ _ _ _ _ FB Hrow) as (m & Hm' & Eb). destruct (Fent m row Hm' Eb) as [F1 F2].
    unfold rows. apply Forall_map. apply Forall_forall. intros i _. rewrite (concat_length _ (Lg + Lh - 1)); [now rewrite map_length, F1|].
    apply Forall_map. eapply Forall_impl; [|exact F2]. intros Cm Q. cbv beta. now rewrite map_length. }
  assert (Lrows : Forall (fun x => length x = Lg) (map rows blocks)).
  { apply Forall_map. apply Forall_forall. intros row _. unfold rows. now rewrite map_length, seq_length. }
  exists (concat (map rows blocks)), lo, hi, offset, Lh. split; [reflexivity|]. cbv zeta. split; [|split; [|split]].
  - rewrite (concat_length _ Lg _ Lrows), map_length, Lbl. reflexivity.
  - apply Forall_forall. intros x Hx. apply in_concat in Hx. destruct Hx as (l & Hl & Hx). apply in_map_iff in Hl. destruct Hl as (row & <- & Hrow).
    specialize (Lrow row Hrow). rewrite Forall_forall in Lrow. now apply Lrow.
  - intros r q i n Hr Hq Hi Hn. destruct (nth_error mics r) as [m|] eqn:Em; [|apply nth_error_None in Em; lia].
    destruct (nth_error sources q) as [s|] eqn:Es; [|apply nth_error_None in Es; lia]. exists s, m. split; [reflexivity|]. split; [reflexivity|].
    rewrite (nth_blocks _ [] Lg) by assumption.
    destruct (forall2_at _ _ _ _ _ _ _ FB Em) as (row & Erow & Eb). pose proof (nth_error_In _ _ Em) as Hm'. destruct (Fent m row Hm' Eb) as [F1 F2].
    replace (nth r (map rows blocks) []) with (rows row).
    2: { symmetry. apply nth_error_nth. now apply map_nth_error. }
    unfold rows. rewrite nth_map_seq by exact Hi.
    rewrite (nth_blocks _ 0 (Lg + Lh - 1)).
    2: { apply Forall_map. eapply Forall_impl; [|exact F2]. intros Cm Q. cbv beta. now rewrite map_length. }
    2: exact Hn.
    destruct (forall2_at _ _ _ _ _ _ _ (mapM_inv _ _ _ Eb) Es) as (Cm & ECm & Eblk).
    destruct (HB m s Hm' (nth_error_In _ _ Es)) as (Cm' & E' & L' & R'). assert (Cm' = Cm) by congruence. subst Cm'.
    replace (nth q (map (fun Cm0 => map (fun r0 => nth i r0 0) Cm0) row) []) with (map (fun r0 => nth i r0 0) Cm).
    2: { symmetry. apply nth_error_nth. apply (map_nth_error (fun Cm0 => map (fun r0 => nth i r0 0) Cm0)). exact ECm. }
    rewrite (nth_indep _ 0 (nth i (@nil R) 0)) by (rewrite map_length; lia). rewrite (map_nth (fun r0 => nth i r0 0)). apply R'; assumption.
  - split; [exact Hall|]. split; [exact Slo|]. split; [exact Shi|]. split; [exact O0|].
    replace ((hi - lo) / c) with (hi / c - lo / c) by (field; lra). exact HLh.
Qed.
End Matrix.

(** What is cut off: with the offset of [C99_matrix], the sinc of any image is at most [eps] at all samples
    up to the start and after the end of the response. *)
Theorem C99_truncation : forall c fs eps lo hi offset Lh dist gain k, 0 < c -> 0 < fs -> 0 < eps -> 0 <= offset ->
  lo <= dist <= hi -> 0 <= gain <= offset * (PI * fs * eps) -> ((hi - lo) / c + 2 * offset) * fs < INR Lh + 1 ->
  (k <= 0 \/ Z.of_nat Lh < k)%Z -> Rabs (gain * sinc (IZR k - fs * ((dist - lo) / c + offset))) <= eps.
Proof.
  intros c fs eps lo hi offset Lh dist gain k Hc Hf He Ho Hd Hg HL Hk.
  assert (Hpi : 0 < PI) by apply PI_RGT_0.
  set (x := IZR k - fs * ((dist - lo) / c + offset)).
  assert (D : 0 <= (dist - lo) / c) by (apply Rmult_le_pos; [lra|left; now apply Rinv_0_lt_compat]).
  assert (D2 : (dist - lo) / c <= (hi - lo) / c) by (apply Rmult_le_compat_r; [left; now apply Rinv_0_lt_compat|lra]).
  destruct (Rle_lt_or_eq_dec 0 gain (proj1 Hg)) as [Gp|<-]; [|rewrite Rmult_0_l, Rabs_R0; lra].
  assert (Op : 0 < offset) by (destruct (Rle_lt_or_eq_dec 0 offset Ho) as [|<-]; [assumption|rewrite Rmult_0_l in Hg; lra]).
  assert (Hx : fs * offset <= Rabs x).
  { destruct Hk as [Hk|Hk].
    - apply IZR_le in Hk. rewrite Rabs_left1; unfold x; nra.
    - assert (INR Lh + 1 <= IZR k) by (rewrite INR_IZR_INZ, <- plus_IZR; apply IZR_le; lia).
      assert (fs * ((dist - lo) / c) <= fs * ((hi - lo) / c)) by (apply Rmult_le_compat_l; lra).
      rewrite Rabs_right; unfold x; nra. }
  assert (Hfo : 0 < fs * offset) by (now apply Rmult_lt_0_compat).
  assert (Xn : x <> 0) by (intro Q; rewrite Q, Rabs_R0 in Hx; lra).
  unfold sinc. destruct (Req_EM_T x 0); [contradiction|]. unfold Rdiv. rewrite !Rabs_mult, Rabs_inv, Rabs_mult, (Rabs_right PI), (Rabs_right gain) by lra.
  assert (S1 : Rabs (sin (PI * x)) <= 1) by (pose proof (SIN_bound (PI * x)); apply Rabs_le; lra).
  assert (Px : 0 < PI * Rabs x) by (apply Rmult_lt_0_compat; lra).
  apply Rle_trans with (gain * (1 * / (PI * Rabs x))).
  - apply Rmult_le_compat_l; [lra|]. apply Rmult_le_compat_r; [left; now apply Rinv_0_lt_compat|exact S1].
  - rewrite Rmult_1_l. apply Rmult_le_reg_r with (PI * Rabs x); [exact Px|]. rewrite Rmult_assoc, Rinv_l by lra. rewrite Rmult_1_r.
    apply Rle_trans with (offset * (PI * fs * eps)); [lra|]. replace (offset * (PI * fs * eps)) with (eps * (PI * (fs * offset))) by ring.
    apply Rmult_le_compat_l; [lra|]. apply Rmult_le_compat_l; lra.
Qed.

(** Two microphones, a source with one image. *)
Definition ex_mics : list vec := [[1; 0]; [2; 0]].
Example C99_ex_hyp : source_ok ex_mics ex_source.
Proof.
  split; [apply C96_ex_hyp|]. split; [discriminate|]. split; [repeat constructor; eexists; (split; [reflexivity|lra])|].
  assert (P : forall a b u v : R, (a - u) * (a - u) + (b - v) * (b - v) > 0 -> 0 < vdist [a; b] [u; v]).
  { intros a b u v H. unfold vdist, vnorm. apply sqrt_lt_R0. unfold vsq, dot, vminus, Rsum. cbn. lra. }
  intros m [<-|[<-|[]]]; repeat constructor; apply P; lra.
Qed.
Example C99_ex : exists H, build_rir_matrix 343 8000 (1 / 200) 16 false ex_mics [ex_source] = Some H /\ length H = 32%nat.
Proof.
  destruct (C99_matrix 343 8000 (1 / 200) 16 false ex_mics ltac:(lra) ltac:(lra) ltac:(lra) ltac:(lia) ltac:(discriminate) [ex_source])
    as (H & lo & hi & offset & Lh & E & L & _); [discriminate|constructor; [apply C99_ex_hyp|constructor]|].
  exists H. split; [exact E|exact L].
Qed.

Print Assumptions C99_matrix.
Print Assumptions C99_truncation.
